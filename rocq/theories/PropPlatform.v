(** Each binding finds the library for the machine that it runs on (C64). *)

From Coq Require Import String.
From mathcomp Require Import ssreflect ssrfun ssrbool eqtype ssrnat seq.
From Verif Require Import Platform SpecPlatform.

Set Implicit Arguments.
Unset Strict Implicit.
Unset Printing Implicit Defensive.

Local Open Scope string_scope.
Local Open Scope seq_scope.

Lemma find_file_in fs p code : find_file fs p = Some code -> List.In (p, code) fs.
Proof.
rewrite /find_file; elim: fs => //= -[q c] fs IH /=; case: (String.eqb_spec q p) => [-> [->]|_ /IH]; by [left|right].
Qed.

(** ** Java *)

(** With the published package the code that is loaded runs on the machine. *)
Theorem C64_java o c name arch : covered o c -> jvm_name o name -> jvm_arch c arch ->
  exists2 code, java_load java_package name arch (mapped o "java_eth_kzg") = FromPackage code & runs o c code.
Proof.
case: o; case: c => // _ /=.
- by move=> -> [->|->]; exists [:: "x86_64-unknown-linux-gnu"].
- by move=> -> ->; exists [:: "aarch64-unknown-linux-gnu"].
- by move=> -> [->|->]; exists [:: "x86_64-apple-darwin"].
- by move=> -> ->; exists [:: "aarch64-apple-darwin"].
by move=> [v ->] [->|->]; exists [:: "x86_64-pc-windows-gnu"].
Qed.
(** Windows on ARM, and everything whose name speaks of another processor or another system, is refused, whatever
    the package holds. *)
Theorem C64_java_windows_arm package name arch file : jvm_name Windows name -> jvm_arch Arm64 arch ->
  java_load package name arch file = Unsupported.
Proof. by move=> [v ->] ->. Qed.
Theorem C64_java_other package name arch file :
  ~~ has (fun s => contains s (lower name)) [:: "win"; "mac"; "linux"] \/
  ~~ has (fun s => contains s (lower arch)) [:: "x86_64"; "amd64"; "aarch64"; "arm64"] ->
  java_load package name arch file = Unsupported.
Proof.
rewrite /java_load /java_resource /has !negb_or.
case=> [/and4P[/negbTE-> /negbTE-> /negbTE-> _] //|/and5P[/negbTE N1 /negbTE N2 /negbTE N3 /negbTE N4 _]].
have -> : normalized_arch arch = lower arch.
  rewrite /normalized_arch; case: ifP => [/orP[]/String.eqb_eq E|_]; first by rewrite E in N1.
    by rewrite E in N2.
  by case: ifP => // /orP[]/String.eqb_eq E; [rewrite E in N3|rewrite E in N4].
by rewrite N1 N3; do ?case: ifP.
Qed.
(** But the name of the kernel of Mac OS is taken for one of Windows. *)
Theorem C64_java_darwin_refuted : exists name, lower name = "darwin" /\
  forall file, java_resource name "x86_64" file = Some ("/x86_64-pc-windows-gnu/" ^^ file).
Proof. by exists "Darwin". Qed.

(** ** C# *)

Local Notation cs_dir := (cs_directory cs_package).

Theorem C64_cs o c : covered o c ->
  exists2 code, cs_load cs_dir (net o) (net_cpu c) "c_eth_kzg" = Some code & runs o c code.
Proof. by case: o; case: c => //= _; eexists; by vm_compute. Qed.
(** Nothing else is ever loaded from the package, and no library of another name from any directory. *)
Theorem C64_cs_only o c path code : cs_load cs_dir o c path = Some code ->
  exists o' c', [/\ o = net o', c = net_cpu c' & runs o' c' code].
Proof.
rewrite /cs_load; case: ifP => // _.
have E : cs_dir = [seq ("runtimes/" ^^ f.1, f.2) | f <- [::
  ("x86_64-unknown-linux-gnu/libc_eth_kzg.so", [:: "x86_64-unknown-linux-gnu"]);
  ("aarch64-unknown-linux-gnu/libc_eth_kzg.so", [:: "aarch64-unknown-linux-gnu"]);
  ("aarch64-apple-darwin/libc_eth_kzg.dylib", [:: "aarch64-apple-darwin"]);
  ("x86_64-apple-darwin/libc_eth_kzg.dylib", [:: "x86_64-apple-darwin"]);
  ("x86_64-pc-windows-gnu/c_eth_kzg.dll", [:: "x86_64-pc-windows-gnu"])]] by vm_compute.
rewrite E {E}; case: ifP => // _ /find_file_in /=.
move=> [|[|[|[|[|//]]]]] [+ <-]; case: o; case: c => //= _;
  [exists Linux, X64|exists Linux, Arm64|exists Mac, Arm64|exists Mac, X64|exists Windows, X64]; by split.
Qed.
Theorem C64_cs_own fs o c path code : cs_load fs o c path = Some code -> lower path = "c_eth_kzg".
Proof. by rewrite /cs_load; case: ifP => // /negbFE/String.eqb_eq. Qed.

(** ** The script *)

(** Asked for one processor, it puts into the directory of a target only code of that target; universal-apple-darwin
    gets the code of both targets. *)
Theorem C64_script installed os arch lib lib_type fs p code :
  (arch = "universal" -> os = "Darwin") ->
  compile_to_native installed os arch lib lib_type = Some fs -> List.In (p, code) fs ->
  (exists t name, [/\ p = t ^^ "/" ^^ name, code = [:: t] & List.In t installed]) \/
  (exists name, p = "universal-apple-darwin" ^^ "/" ^^ name /\
                code = [:: "x86_64-apple-darwin"; "aarch64-apple-darwin"]).
Proof.
move=> Hu.
have In1 t : has (String.eqb t) installed -> List.In t installed.
  by elim: (installed) => //= a l IH /orP[/String.eqb_eq->|/IH]; [left|right].
have Cp b t n : List.In (p, code) (if b then copy installed t lib n else [::]) ->
    exists t name, [/\ p = t ^^ "/" ^^ name, code = [:: t] & List.In t installed].
  by case: b => //; rewrite /copy /built; case: ifP => // /andP[/In1 H _] [] // -[<- <-]; exists t, n.
rewrite /compile_to_native; case E: (script_names os arch lib) => [[[t st] dy]|] //.
case: (String.eqb_spec arch "universal") => Ea; last first.
  by case: ifP => // _ [<-] /List.in_app_iff Hin; left; case: Hin => /Cp.
case: ifP => // _ [<-] Hin; right; move: E; rewrite Ea (Hu Ea) /= => -[Et _ _]; move: Hin; rewrite -Et.
by move/List.in_app_iff=> []; rewrite /lipo; case: ifP => // _ [] // -[<- <-]; eexists.
Qed.
(** Asked for a universal library for Windows, it puts code for Mac OS into the directory of Windows. *)
Theorem C64_script_universal_refuted : exists installed p code fs,
  [/\ compile_to_native installed "Windows" "universal" "c_eth_kzg" "static" = Some fs, List.In (p, code) fs &
      [/\ p = "x86_64-pc-windows-gnu/libc_eth_kzg.a", ~~ runs Windows X64 code & ~~ runs Windows Arm64 code]].
Proof.
exists [:: "x86_64-apple-darwin"; "aarch64-apple-darwin"].
exists "x86_64-pc-windows-gnu/libc_eth_kzg.a", [:: "x86_64-apple-darwin"; "aarch64-apple-darwin"].
exists [:: ("x86_64-pc-windows-gnu/libc_eth_kzg.a", [:: "x86_64-apple-darwin"; "aarch64-apple-darwin"])].
by split; [|left|].
Qed.
(** It also reports success without a library: the name of another installed target can contain the name that is
    looked for. *)
Theorem C64_script_silent_refuted : exists installed,
  compile_to_native installed "Linux" "x86_64" "c_eth_kzg" "both" = Some [::].
Proof. by exists [:: "x86_64-unknown-linux-gnux32"]. Qed.

(** ** Go and Nim, compiled on the machine itself *)

(** The target that has to be installed; compile.sh installs those for Windows, and for Nim those for Mac OS. *)
Definition host_target (o : os) (c : cpu) : string :=
  match o, c with
  | Linux, X64 => "x86_64-unknown-linux-gnu" | Linux, Arm64 => "aarch64-unknown-linux-gnu"
  | Mac, X64 => "x86_64-apple-darwin" | Mac, Arm64 => "aarch64-apple-darwin"
  | Windows, _ => "x86_64-pc-windows-gnu"
  end.
Definition not_linux_arm (o : os) (c : cpu) : bool := if o is Linux then (if c is X64 then true else false) else true.

Lemma in_installed t l : List.In t l -> has (String.eqb t) l /\ target_installed l t.
Proof.
have P s : String.prefix s s by elim: s => //= a s IH; case: Ascii.ascii_dec.
have C s : contains s s by case: s => // a s; rewrite /contains -/contains P.
elim: l => //= a l IH [->|/IH[-> H]]; first by rewrite String.eqb_refl /target_installed /= C.
by rewrite orbT /target_installed /= [has _ _]H orbT.
Qed.

Lemma windows_names v arch lib s : arch =? "universal" = false -> s = "MINGW64_NT-" ^^ v \/ s = "CYGWIN_NT-" ^^ v ->
  script_names s arch lib = Some ("x86_64-pc-windows-gnu", "lib" ^^ lib ^^ ".a", lib ^^ ".dll").
Proof. by move=> _ []->; case: v. Qed.

Theorem C64_go o c installed s : covered o c -> not_linux_arm o c -> uname o s ->
  List.In (host_target o c) installed ->
  exists fs p code, [/\ compile_golang installed s (uname_m o c) = Some fs,
    go_links (goos o) (goarch c) = [:: p], find_file (go_directory fs) p = Some code & runs o c code].
Proof.
rewrite /compile_golang /compile_to_native => Hc Ha Hs Hi; have [H1 H2] := in_installed Hi.
move: Hc Ha Hs H1 H2 {Hi}; case: o; case: c => // _ _ Hs; rewrite [host_target _ _]/= => H1 H2.
- by rewrite Hs /= /copy /built H1 H2 /=; do 3!eexists; split.
- by rewrite Hs /= /copy /built H1 H2 /=; do 3!eexists; split.
- by rewrite Hs /= /copy /built H1 H2 /=; do 3!eexists; split.
case: Hs => v /(@windows_names v "x86_64" "c_eth_kzg" s erefl) ->.
by rewrite /= /copy /built H1 H2 /=; do 3!eexists; split.
Qed.
Theorem C64_nim o c installed s : covered o c -> not_linux_arm o c -> uname o s ->
  (o <> Mac -> List.In (host_target o c) installed) ->
  exists fs p code, [/\ compile_nim installed s (uname_m o c) = Some fs,
    nim_links (nim_symbols o c) = Some p, find_file (nim_directory fs) p = Some code & runs o c code].
Proof.
have Mac_case : forall l, exists fs code,
    [/\ compile_to_native (l ++ [:: "x86_64-apple-darwin"; "aarch64-apple-darwin"]) "Darwin" "universal" "c_eth_kzg"
          "static" = Some fs,
        find_file (nim_directory fs) "build/universal-apple-darwin/libc_eth_kzg.a" = Some code &
        code = [:: "x86_64-apple-darwin"; "aarch64-apple-darwin"]].
  move=> l; have [|A1 A2] := @in_installed "x86_64-apple-darwin" (l ++ [:: "x86_64-apple-darwin"; "aarch64-apple-darwin"]).
    by apply/List.in_app_iff; right; left.
  have [|B1 B2] := @in_installed "aarch64-apple-darwin" (l ++ [:: "x86_64-apple-darwin"; "aarch64-apple-darwin"]).
    by apply/List.in_app_iff; right; right; left.
  by rewrite /compile_to_native /= A2 B2 /lipo /built A1 B1 /=; do 2!eexists; split.
rewrite /compile_nim; case: o; case: c => // _ _ Hs Hi.
- have [//|H1 H2] := in_installed (Hi _).
  by rewrite Hs /compile_to_native /= /copy /built H1 H2 /=; do 3!eexists; split.
- have [fs [code [E1 E2 E3]]] := Mac_case installed; exists fs, "build/universal-apple-darwin/libc_eth_kzg.a", code.
  by rewrite Hs E3; split=> //; rewrite E2 E3.
- have [fs [code [E1 E2 E3]]] := Mac_case installed; exists fs, "build/universal-apple-darwin/libc_eth_kzg.a", code.
  by rewrite Hs E3; split=> //; rewrite E2 E3.
have [//|H1 H2] := in_installed (Hi _).
case: Hs => v Hs; have := @windows_names v "x86_64" "c_eth_kzg" s erefl Hs.
by case: Hs => -> E; rewrite /compile_to_native [uname_m _ _]/= E /= /copy /built H1 H2 /=; do 3!eexists; split.
Qed.
(** On Linux on ARM, uname -m is aarch64 and the script accepts only arm64: there is no library. *)
Theorem C64_linux_arm_refuted installed s : uname Linux s ->
  compile_golang installed s (uname_m Linux Arm64) = None /\ compile_nim installed s (uname_m Linux Arm64) = None.
Proof. by move=> ->. Qed.
(** With the name that the release scripts use, both link what it makes. *)
Theorem C64_linux_arm installed : List.In "aarch64-unknown-linux-gnu" installed ->
  exists fs p q code, [/\ compile_to_native installed "Linux" "arm64" "c_eth_kzg" "static" = Some fs,
    go_links (goos Linux) (goarch Arm64) = [:: p] /\ find_file (go_directory fs) p = Some code,
    nim_links (nim_symbols Linux Arm64) = Some q /\ find_file (nim_directory fs) q = Some code & runs Linux Arm64 code].
Proof.
case/in_installed=> H1 H2; rewrite /compile_to_native /= /copy /built H1 H2 /=.
by do 4!eexists; split; [|split|split|].
Qed.
(** On Windows on ARM the check of the processor is passed over, and Go links the library for the other processor;
    Nim refuses. *)
Theorem C64_windows_arm_refuted v installed : List.In "x86_64-pc-windows-gnu" installed ->
  (exists fs p code, [/\ compile_golang installed ("MINGW64_NT-" ^^ v) (uname_m Windows Arm64) = Some fs,
    go_links (goos Windows) (goarch Arm64) = [:: p], find_file (go_directory fs) p = Some code &
    ~~ runs Windows Arm64 code]) /\
  nim_links (nim_symbols Windows Arm64) = None.
Proof.
case/in_installed=> H1 H2; split=> //.
rewrite /compile_golang /compile_to_native (@windows_names v) //; last by left.
by rewrite /= /copy /built H1 H2 /=; do 3!eexists; split.
Qed.

(** ** Node *)

Section Node.
(** Any set of the published packages is installed, and index.js is alone in its directory. *)
Variable pk : seq file.
Hypothesis published : forall p code, find_file pk p = Some code -> find_file npm_packages p = Some code.
Local Notation load := (node_load (fun=> false) (find_file pk)).

(** With the package for the machine among them, its code is loaded. *)
Theorem C64_node o c p code : find_file pk p = Some code -> runs o c code ->
  load (node_platform o) (node_arch c) false = Some code.
Proof.
have no_universal : find_file pk "@crate-crypto/node-eth-kzg-darwin-universal" = None.
  by case E: (find_file pk _) => [x|//]; have := published E.
move=> Ep; have := find_file_in (published Ep).
case=> [|[|[|[|[|[|//]]]]]] [E1 E2]; rewrite -E1 in Ep; rewrite -{}E2 in Ep *;
  by case: o; case: c => // _; rewrite /node_load /= /node_try /= ?no_universal Ep.
Qed.
(** Nothing else is ever loaded: what is loaded is for the machine, and nothing is on a Linux with musl. *)
Theorem C64_node_only platform arch musl code : load platform arch musl = Some code ->
  exists o c, [/\ platform = node_platform o, arch = node_arch c, runs o c code & o = Linux -> musl = false].
Proof.
set try := node_try (fun=> false) (find_file pk).
have L n x : try n = Some x -> exists o c,
    [/\ runs o c x & n = match o, c with Linux, X64 => "linux-x64-gnu" | Linux, Arm64 => "linux-arm64-gnu"
                                     | Mac, X64 => "darwin-x64" | Mac, Arm64 => "darwin-arm64"
                                     | Windows, X64 => "win32-x64-msvc" | Windows, Arm64 => "win32-arm64-msvc" end].
  move=> /published/find_file_in; case=> [|[|[|[|[|[|//]]]]]] [E <-];
    [exists Mac, X64|exists Mac, Arm64|exists Linux, X64|exists Linux, Arm64|exists Windows, X64|exists Windows, Arm64];
    by split.
have O n : ohead (pmap try [:: n]) = try n by rewrite /=; case: (try n).
have C n l : ohead (pmap try (n :: l)) = if try n is Some x then Some x else ohead (pmap try l).
  by rewrite /=; case: (try n).
rewrite /node_load -/try /node_names.
case: (String.eqb_spec platform "android") => [_|_].
  by do 2?case: ifP => _ //; rewrite O => /L[[] [[] []]].
case: (String.eqb_spec platform "win32") => [->|_].
  case: (String.eqb_spec arch "x64") => [->|_].
    by rewrite O => /L[[] [[] []]] // H _; exists Windows, X64.
  case: ifP => [_|_]; first by rewrite O => /L[[] [[] []]].
  case: (String.eqb_spec arch "arm64") => [->|_] //.
  by rewrite O => /L[[] [[] []]] // H _; exists Windows, Arm64.
case: (String.eqb_spec platform "darwin") => [->|_].
  rewrite C; case E: (try "darwin-universal") => [x|]; first by move: E => /L[[] [[] []]].
  case: (String.eqb_spec arch "x64") => [->|_].
    by rewrite O => /L[[] [[] []]] // H _; exists Mac, X64.
  case: (String.eqb_spec arch "arm64") => [->|_] //.
  by rewrite O => /L[[] [[] []]] // H _; exists Mac, Arm64.
case: (String.eqb_spec platform "freebsd") => [_|_].
  by case: ifP => _ //; rewrite O => /L[[] [[] []]].
case: (String.eqb_spec platform "linux") => [->|//].
case: (String.eqb_spec arch "x64") => [->|_].
  by rewrite O; case: musl => /L[[] [[] []]] // H _; exists Linux, X64.
case: (String.eqb_spec arch "arm64") => [->|_].
  by rewrite O; case: musl => /L[[] [[] []]] // H _; exists Linux, Arm64.
do 2?[case: ifP => _; first by rewrite O; case: musl => /L[[] [[] []]]].
by case: ifP => _ //; rewrite O => /L[[] [[] []]].
Qed.
End Node.

(** A file beside index.js is taken first, whatever packages there are; on Mac OS one for both processors before
    that. If it cannot be loaded, the package does not help. *)
Theorem C64_node_local (ex : string -> bool) req o c :
  let name := node_platform o ^^ "-" ^^ node_arch c ^^ match o with Linux => "-gnu" | Mac => "" | Windows => "-msvc" end in
  ex ("node-eth-kzg." ^^ name ^^ ".node") ->
  (o = Mac -> node_try ex req "darwin-universal" = None) ->
  node_load ex req (node_platform o) (node_arch c) false = req ("./node-eth-kzg." ^^ name ^^ ".node").
Proof.
have O n : ohead (pmap (node_try ex req) [:: n]) = node_try ex req n by rewrite /=; case: (node_try ex req n).
have T n : ex ("node-eth-kzg." ^^ n ^^ ".node") -> node_try ex req n = req ("./node-eth-kzg." ^^ n ^^ ".node").
  by rewrite /node_try => ->.
move=> name E Hm; rewrite -(T _ E) -O /node_load; move: Hm; clear E O T; rewrite {}/name.
by case: o; case: c => // /(_ erefl) H; rewrite [node_names _ _ _]/= [in LHS]/= H.
Qed.
