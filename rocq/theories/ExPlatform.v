(** The hypotheses of the theorems on platforms (C64) hold in concrete cases. *)

From Coq Require Import String.
From mathcomp Require Import ssreflect ssrfun ssrbool eqtype ssrnat seq.
From Verif Require Import Platform SpecPlatform PropPlatform.

Set Implicit Arguments.
Unset Strict Implicit.
Unset Printing Implicit Defensive.

Local Open Scope string_scope.
Local Open Scope seq_scope.

Example C64_java_applies : exists2 code,
  java_load java_package "Windows 11" "amd64" "java_eth_kzg.dll" = FromPackage code & runs Windows X64 code.
Proof. by apply: (@C64_java Windows X64) => //; [exists " 11"|left]. Qed.
Example C64_java_windows_arm_applies : java_load java_package "Windows 11" "aarch64" "java_eth_kzg.dll" = Unsupported.
Proof. by apply: C64_java_windows_arm => //; exists " 11". Qed.
Example C64_java_other_applies :
  java_load java_package "FreeBSD" "amd64" "libjava_eth_kzg.so" = Unsupported /\
  java_load java_package "Linux" "s390x" "libjava_eth_kzg.so" = Unsupported.
Proof. by split; apply: C64_java_other; [left|right]. Qed.

(** The five files of the package *)
Example java_package_files : [seq f.1 | f <- java_package] =
  [:: "x86_64-unknown-linux-gnu/libjava_eth_kzg.so"; "aarch64-unknown-linux-gnu/libjava_eth_kzg.so";
      "aarch64-apple-darwin/libjava_eth_kzg.dylib"; "x86_64-apple-darwin/libjava_eth_kzg.dylib";
      "x86_64-pc-windows-gnu/java_eth_kzg.dll"].
Proof. by []. Qed.

Example C64_cs_applies : exists2 code,
  cs_load (cs_directory cs_package) NetOSX NetArm64 "c_eth_kzg" = Some code & runs Mac Arm64 code.
Proof. exact: (@C64_cs Mac Arm64). Qed.
Example C64_cs_only_applies : cs_load (cs_directory cs_package) NetLinux NetX64 "c_eth_kzg" =
  Some [:: "x86_64-unknown-linux-gnu"].
Proof. by []. Qed.
(** A name in capitals is recognised, but the file is looked for under that name. *)
Example C64_cs_own_applies :
  cs_load [:: ("runtimes/x86_64-unknown-linux-gnu/libC_ETH_KZG.so", [::])] NetLinux NetX64 "C_ETH_KZG" = Some [::] /\
  cs_load (cs_directory cs_package) NetLinux NetX64 "C_ETH_KZG" = None.
Proof. by []. Qed.

Local Notation mac := [:: "x86_64-apple-darwin"; "aarch64-apple-darwin"].
Example C64_script_applies : exists fs p code,
  compile_to_native mac "Darwin" "universal" "c_eth_kzg" "static" = Some fs /\ List.In (p, code) fs.
Proof.
exists [:: ("universal-apple-darwin/libc_eth_kzg.a", mac); ("universal-apple-darwin/libc_eth_kzg.dylib", mac)].
by exists "universal-apple-darwin/libc_eth_kzg.a", mac; split; [|left].
Qed.
Example C64_go_applies : exists fs p code,
  [/\ compile_golang [:: "x86_64-pc-windows-gnu"] "MINGW64_NT-10.0-20348" "x86_64" = Some fs,
      go_links "windows" "amd64" = [:: p], find_file (go_directory fs) p = Some code & runs Windows X64 code].
Proof. by apply: (@C64_go Windows X64) => //; [exists "10.0-20348"; left|left]. Qed.
Example C64_nim_applies : exists fs p code,
  [/\ compile_nim [::] "Darwin" "arm64" = Some fs, nim_links (nim_symbols Mac Arm64) = Some p,
      find_file (nim_directory fs) p = Some code & runs Mac Arm64 code].
Proof. exact: (@C64_nim Mac Arm64). Qed.
Example C64_linux_arm_applies : compile_golang [:: "aarch64-unknown-linux-gnu"] "Linux" "aarch64" = None.
Proof. by case: (@C64_linux_arm_refuted [:: "aarch64-unknown-linux-gnu"] "Linux" erefl). Qed.
(** The same machine with the argument of the release script *)
Example linux_arm64 : compile_golang [:: "aarch64-unknown-linux-gnu"] "Linux" "arm64" =
  Some [:: ("aarch64-unknown-linux-gnu/libc_eth_kzg.a", [:: "aarch64-unknown-linux-gnu"])].
Proof. by []. Qed.
Example C64_windows_arm_applies : List.In "x86_64-pc-windows-gnu" [:: "x86_64-pc-windows-gnu"].
Proof. by left. Qed.

Local Notation one := [:: ("@crate-crypto/node-eth-kzg-darwin-arm64", [:: "aarch64-apple-darwin"])].
Lemma one_published p code : find_file one p = Some code -> find_file npm_packages p = Some code.
Proof. by move/find_file_in=> [] // -[<- <-]. Qed.
Example C64_node_applies : node_load (fun=> false) (find_file one) "darwin" "arm64" false = Some [:: "aarch64-apple-darwin"].
Proof. exact: (@C64_node one one_published Mac Arm64 "@crate-crypto/node-eth-kzg-darwin-arm64"). Qed.
Example C64_node_only_applies : node_load (fun=> false) (find_file npm_packages) "linux" "x64" true = None /\
  exists2 code, node_load (fun=> false) (find_file npm_packages) "linux" "x64" false = Some code & code <> [::].
Proof. by split=> //; exists [:: "x86_64-unknown-linux-gnu"]. Qed.
Example C64_node_local_applies :
  node_load (String.eqb "node-eth-kzg.linux-x64-gnu.node")
    (find_file (("./node-eth-kzg.linux-x64-gnu.node", [:: "x86_64-unknown-linux-gnu"]) :: npm_packages)) "linux" "x64" false =
  Some [:: "x86_64-unknown-linux-gnu"].
Proof. exact: (@C64_node_local _ _ Linux X64). Qed.
Example C64_linux_arm_native : List.In "aarch64-unknown-linux-gnu" [:: "aarch64-unknown-linux-gnu"].
Proof. by left. Qed.
