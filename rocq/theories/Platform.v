(** Model of how the compiled library gets to its callers: the scripts that compile it and the code of each
    binding that looks for it,
    - /repo/scripts/compile_to_native.sh, compile.sh, check_if_rustup_target_installed.sh,
    - /repo/.github/scripts/compile_all_targets_java.sh, compile_all_targets_c_sharp_new.sh,
    - /repo/bindings/java/java_code/src/main/java/ethereum/cryptography/LibEthKZG.java lines 155-227,
    - /repo/bindings/csharp/csharp_code/EthKZG.bindings/native_methods.loading.cs,
    - /repo/bindings/node/index.js, /repo/bindings/node/npm,
    - /repo/bindings/golang/prover.go lines 4-8, /repo/bindings/nim/nim_code/nim_eth_kzg/build_utils.nim.

    Simplified: strings are lists of bytes and letters outside ASCII have no case; a file is its path with the
    Rust targets whose code it holds; every run of cargo for an installed target succeeds; files of earlier runs
    are not there. *)

From Coq Require Import Ascii String.
From mathcomp Require Import ssreflect ssrfun ssrbool eqtype ssrnat seq.

Set Implicit Arguments.
Unset Strict Implicit.
Unset Printing Implicit Defensive.

Local Open Scope string_scope.
Local Open Scope seq_scope.
Infix "^^" := String.append (at level 40, left associativity).

(** String.contains of Java, [grep -q] of a text without special characters *)
Fixpoint contains (sub s : string) : bool :=
  String.prefix sub s || (if s is String _ s' then contains sub s' else false).
(** String.toLowerCase of Java *)
Definition lower_char (c : ascii) : ascii :=
  let n := nat_of_ascii c in if (65 <= n <= 90)%N then ascii_of_nat (n + 32) else c.
Fixpoint lower (s : string) : string := if s is String c s' then String (lower_char c) (lower s') else "".

(** A file: its path and the Rust targets that it holds code for *)
Definition file := (string * list string)%type.
Definition find_file (fs : list file) (p : string) : option (list string) :=
  ohead [seq f.2 | f <- fs & f.1 =? p].

(** ** Compiling *)

(** What cargo leaves in target/<target>/release for a crate of the types staticlib and cdylib (naming of rustc;
    bindings/c/Cargo.toml lines 11-12, bindings/java/rust_code/Cargo.toml lines 16-17: no static library) *)
Definition static_name (lib : string) : string := "lib" ^^ lib ^^ ".a".
Definition dynamic_name (target lib : string) : string :=
  if contains "windows" target then lib ^^ ".dll"
  else if contains "apple" target then "lib" ^^ lib ^^ ".dylib" else "lib" ^^ lib ^^ ".so".
Definition cargo_names (target lib : string) : list string :=
  (if lib =? "java_eth_kzg" then [::] else [:: static_name lib]) ++ [:: dynamic_name target lib].

Section Script.
(** The targets that rustup has installed *)
Variable installed : list string.

(** check_if_rustup_target_installed.sh line 13; compile_to_native.sh lines 56-68 *)
Definition target_installed (target : string) : bool := has (contains target) installed.
(** The files of cargo (compile_to_native.sh lines 139-146): none if the target is not installed *)
Definition built (target lib name : string) : bool :=
  has (String.eqb target) installed && has (String.eqb name) (cargo_names target lib).

(** TARGET_NAME, STATIC_LIB_NAME, DYNAMIC_LIB_NAME (compile_to_native.sh lines 70-136); None: exit 1 *)
Definition script_names (os arch lib : string) : option (string * string * string) :=
  (* lines 71-76 *)
  if ((os =? "MINGW64_NT") || (os =? "CYGWIN_NT")) && ~~ (arch =? "x86_64") then None
  (* lines 79-104 *)
  else if os =? "Darwin" then
    if arch =? "arm64" then Some ("aarch64-apple-darwin", "lib" ^^ lib ^^ ".a", "lib" ^^ lib ^^ ".dylib")
    else if arch =? "x86_64" then Some ("x86_64-apple-darwin", "lib" ^^ lib ^^ ".a", "lib" ^^ lib ^^ ".dylib")
    else if arch =? "universal" then
      Some ("universal-apple-darwin", "lib" ^^ lib ^^ ".a", "lib" ^^ lib ^^ ".dylib")
    else None
  (* lines 105-124 *)
  else if os =? "Linux" then
    if arch =? "arm64" then Some ("aarch64-unknown-linux-gnu", "lib" ^^ lib ^^ ".a", "lib" ^^ lib ^^ ".so")
    else if arch =? "x86_64" then Some ("x86_64-unknown-linux-gnu", "lib" ^^ lib ^^ ".a", "lib" ^^ lib ^^ ".so")
    else None
  (* lines 125-131 *)
  else if String.prefix "MINGW64_NT-" os || String.prefix "CYGWIN_NT-" os || (os =? "Windows") then
    Some ("x86_64-pc-windows-gnu", "lib" ^^ lib ^^ ".a", lib ^^ ".dll")
  (* lines 132-135 *)
  else None.

(** cp -R, which copies what is there (lines 174, 178) *)
Definition copy (target lib name : string) : list file :=
  if built target lib name then [:: (target ^^ "/" ^^ name, [:: target])] else [::].
(** lipo, which needs both files (lines 158-164) *)
Definition lipo (target lib name : string) : list file :=
  if built "x86_64-apple-darwin" lib name && built "aarch64-apple-darwin" lib name then
    [:: (target ^^ "/" ^^ name, [:: "x86_64-apple-darwin"; "aarch64-apple-darwin"])]
  else [::].

(** The new files below OUT_DIR, or None if the script exits with 1 (compile_to_native.sh) *)
Definition compile_to_native (os arch lib lib_type : string) : option (list file) :=
  if script_names os arch lib is Some (target, static, dynamic) then
    if arch =? "universal" then (* lines 149-164 *)
      if target_installed "x86_64-apple-darwin" && target_installed "aarch64-apple-darwin" then
        Some (lipo target lib static ++ lipo target lib dynamic)
      else None
    else if target_installed target then (* lines 165-180 *)
      Some ((if (lib_type =? "static") || (lib_type =? "both") then copy target lib static else [::]) ++
            (if (lib_type =? "dynamic") || (lib_type =? "both") then copy target lib dynamic else [::]))
    else None
  else None.
End Script.

(** compile_all_targets_java.sh, compile_all_targets_c_sharp_new.sh lines 18-41: the arguments for a target *)
Definition release_args (target : string) : option (string * string) :=
  if target =? "x86_64-unknown-linux-gnu" then Some ("Linux", "x86_64")
  else if target =? "aarch64-unknown-linux-gnu" then Some ("Linux", "arm64")
  else if target =? "aarch64-apple-darwin" then Some ("Darwin", "arm64")
  else if target =? "x86_64-apple-darwin" then Some ("Darwin", "x86_64")
  else if target =? "x86_64-pc-windows-gnu" then Some ("Windows", "x86_64")
  else None.
(** The job of the workflow for one target, which installs that target alone
    (.github/workflows/release-java-bindings.yml and release-csharp-bindings.yml lines 29-70) *)
Definition release_job (lib target : string) : list file :=
  if release_args target is Some (os, arch) then
    if compile_to_native [:: target] os arch lib "dynamic" is Some fs then fs else [::]
  else [::].
(** The matrix of both workflows, lines 34-45 *)
Definition release_targets : list string :=
  [:: "x86_64-unknown-linux-gnu"; "aarch64-unknown-linux-gnu"; "aarch64-apple-darwin"; "x86_64-apple-darwin";
      "x86_64-pc-windows-gnu"].
(** What the published packages hold below src/main/resources and below runtimes *)
Definition java_package : list file := flatten [seq release_job "java_eth_kzg" t | t <- release_targets].
Definition cs_package : list file := flatten [seq release_job "c_eth_kzg" t | t <- release_targets].

(** compile.sh lines 38-47 (golang) and 50-66 (nim), run where uname gives [os] and uname -m gives [arch];
    lines 15-18 and 57-59 install targets. OUT_DIR is bindings/golang/build and bindings/nim/nim_code/build. *)
Definition compile_golang (installed : list string) (os arch : string) : option (list file) :=
  compile_to_native installed os arch "c_eth_kzg" "static".
Definition compile_nim (installed : list string) (os arch : string) : option (list file) :=
  if os =? "Darwin" then
    compile_to_native (installed ++ [:: "x86_64-apple-darwin"; "aarch64-apple-darwin"]) os "universal" "c_eth_kzg" "static"
  else compile_to_native installed os arch "c_eth_kzg" "static".

(** ** Java *)

(** Lines 158-167 *)
Definition normalized_arch (os_arch : string) : string :=
  let a := lower os_arch in
  if (a =? "x86_64") || (a =? "amd64") then "x86_64"
  else if (a =? "aarch64") || (a =? "arm64") then "aarch64" else a.
(** Lines 172-196; [mapped] is PLATFORM_NATIVE_LIBRARY_NAME of line 156, which the virtual machine gives *)
Definition java_resource (os_name os_arch mapped : string) : option string :=
  let n := lower os_name in
  let a := normalized_arch os_arch in
  if contains "win" n then
    if contains "x86_64" a then Some ("/x86_64-pc-windows-gnu/" ^^ mapped) else None
  else if contains "mac" n then
    if contains "x86_64" a then Some ("/x86_64-apple-darwin/" ^^ mapped)
    else if contains "aarch64" a then Some ("/aarch64-apple-darwin/" ^^ mapped) else None
  else if contains "linux" n then
    if contains "x86_64" a then Some ("/x86_64-unknown-linux-gnu/" ^^ mapped)
    else if contains "aarch64" a then Some ("/aarch64-unknown-linux-gnu/" ^^ mapped) else None
  else None.
(** What loadNativeLibrary does with the resources of the package (lines 198-227); System.loadLibrary looks in the
    library path of the user. *)
Inductive java_load_res :=
| Unsupported                        (* line 199 *)
| FromUser                           (* line 206 *)
| FromPackage (code : list string).  (* line 222 *)
Definition java_load (package : list file) (os_name os_arch mapped : string) : java_load_res :=
  if java_resource os_name os_arch mapped is Some p then
    if find_file [seq ("/" ^^ f.1, f.2) | f <- package] p is Some code then FromPackage code else FromUser
  else Unsupported.

(** ** C# *)

(** RuntimeInformation.IsOSPlatform and ProcessArchitecture *)
Inductive net_os := NetLinux | NetOSX | NetWindows | NetOther.
Inductive net_arch := NetX64 | NetArm64 | NetOtherArch.
(** Lines 26-35 *)
Definition cs_target (os : net_os) (arch : net_arch) : string :=
  match os, arch with
  | NetLinux, NetX64 => "x86_64-unknown-linux-gnu"
  | NetLinux, NetArm64 => "aarch64-unknown-linux-gnu"
  | NetOSX, NetX64 => "x86_64-apple-darwin"
  | NetOSX, NetArm64 => "aarch64-apple-darwin"
  | NetWindows, NetX64 => "x86_64-pc-windows-gnu"
  | _, _ => ""
  end.
(** Lines 37-40 *)
Definition cs_extension (os : net_os) : string :=
  match os with NetLinux => "so" | NetOSX => "dylib" | NetWindows => "dll" | NetOther => "" end.
(** Lines 49-50 *)
Definition cs_prefix (os : net_os) : string := match os with NetLinux | NetOSX => "lib" | _ => "" end.
(** LoadNativeLibrary (lines 17-62) in a directory with the files [fs]: what it loads; None is IntPtr.Zero.
    Line 21 ignores case; __DllName is c_eth_kzg (native_methods.g.cs line 15). *)
Definition cs_load (fs : list file) (os : net_os) (arch : net_arch) (path : string) : option (list string) :=
  if ~~ (lower path =? lower "c_eth_kzg") then None
  else if cs_extension os =? "" then None
  else find_file fs ("runtimes/" ^^ cs_target os arch ^^ "/" ^^ cs_prefix os ^^ path ^^ "." ^^ cs_extension os).
(** The directory of a program that uses the package: EthKZG.csproj line 35 copies runtimes. *)
Definition cs_directory (package : list file) : list file := [seq ("runtimes/" ^^ f.1, f.2) | f <- package].

(** ** Go *)

(** prover.go lines 4-8: the libraries that are linked for GOOS and GOARCH *)
Definition go_links (goos goarch : string) : list string :=
  (if (goos =? "darwin") && (goarch =? "amd64") then [:: "./build/x86_64-apple-darwin/libc_eth_kzg.a"] else [::]) ++
  (if (goos =? "darwin") && (goarch =? "arm64") then [:: "./build/aarch64-apple-darwin/libc_eth_kzg.a"] else [::]) ++
  (if (goos =? "linux") && (goarch =? "amd64") then [:: "./build/x86_64-unknown-linux-gnu/libc_eth_kzg.a"] else [::]) ++
  (if (goos =? "linux") && (goarch =? "arm64") then [:: "./build/aarch64-unknown-linux-gnu/libc_eth_kzg.a"] else [::]) ++
  (if goos =? "windows" then [:: "./build/x86_64-pc-windows-gnu/libc_eth_kzg.a"] else [::]).
Definition go_directory (built : list file) : list file := [seq ("./build/" ^^ f.1, f.2) | f <- built].

(** ** Nim *)

(** build_utils.nim lines 10-29 with the symbols that are defined; None is the exception *)
Definition nim_dir (defined : string -> bool) : option string :=
  if defined "macosx" then
    if defined "aarch64" || defined "amd64" || defined "arm64" then Some ("build/" ^^ "universal-apple-darwin") else None
  else if defined "windows" then
    if defined "amd64" then Some ("build/" ^^ "x86_64-pc-windows-gnu") else None
  else if defined "linux" then
    if defined "amd64" then Some ("build/" ^^ "x86_64-unknown-linux-gnu")
    else if defined "aarch64" || defined "arm64" then Some ("build/" ^^ "aarch64-unknown-linux-gnu")
    else None
  else None.
(** nim_eth_kzg.nim lines 7-22: the library that is linked, below the directory of the project *)
Definition nim_links (defined : string -> bool) : option string :=
  if nim_dir defined is Some d then Some (d ^^ "/" ^^ "libc_eth_kzg.a") else None.
Definition nim_directory (built : list file) : list file := [seq ("build/" ^^ f.1, f.2) | f <- built].

(** ** Node *)

(** index.js: [exists_] is existsSync for files beside index.js, [req] is require, which gives the targets of the
    code that it loads or None if it throws *)
Section Node.
Variables (exists_ : string -> bool) (req : string -> option (list string)).

(** The pattern that all cases share (lines 34-44 and so on) *)
Definition node_try (name : string) : option (list string) :=
  if exists_ ("node-eth-kzg." ^^ name ^^ ".node") then req ("./node-eth-kzg." ^^ name ^^ ".node")
  else req ("@crate-crypto/node-eth-kzg-" ^^ name).

(** The names that are tried in order until one is loaded (lines 31-304); nothing if a case throws that the platform
    is not supported. What is thrown in the end (lines 306-311) is not modelled. *)
Definition node_names (platform arch : string) (musl : bool) : list string :=
  if platform =? "android" then
    if arch =? "arm64" then [:: "android-arm64"] else if arch =? "arm" then [:: "android-arm-eabi"] else [::]
  else if platform =? "win32" then
    if arch =? "x64" then [:: "win32-x64-msvc"] else if arch =? "ia32" then [:: "win32-ia32-msvc"]
    else if arch =? "arm64" then [:: "win32-arm64-msvc"] else [::]
  else if platform =? "darwin" then
    "darwin-universal" ::
    (if arch =? "x64" then [:: "darwin-x64"] else if arch =? "arm64" then [:: "darwin-arm64"] else [::])
  else if platform =? "freebsd" then
    if arch =? "x64" then [:: "freebsd-x64"] else [::]
  else if platform =? "linux" then
    if arch =? "x64" then [:: if musl then "linux-x64-musl" else "linux-x64-gnu"]
    else if arch =? "arm64" then [:: if musl then "linux-arm64-musl" else "linux-arm64-gnu"]
    else if arch =? "arm" then [:: if musl then "linux-arm-musleabihf" else "linux-arm-gnueabihf"]
    else if arch =? "riscv64" then [:: if musl then "linux-riscv64-musl" else "linux-riscv64-gnu"]
    else if arch =? "s390x" then [:: "linux-s390x-gnu"] else [::]
  else [::].
(** nativeBinding, or None: an exception *)
Definition node_load (platform arch : string) (musl : bool) : option (list string) :=
  ohead (pmap node_try (node_names platform arch musl)).
End Node.

(** The packages of bindings/node/npm with the targets of .github/workflows/release-node-bindings.yml lines 39-51;
    napi gives a target the name of its platform. *)
Definition npm_packages : list file :=
  [:: ("@crate-crypto/node-eth-kzg-darwin-x64", [:: "x86_64-apple-darwin"]);
      ("@crate-crypto/node-eth-kzg-darwin-arm64", [:: "aarch64-apple-darwin"]);
      ("@crate-crypto/node-eth-kzg-linux-x64-gnu", [:: "x86_64-unknown-linux-gnu"]);
      ("@crate-crypto/node-eth-kzg-linux-arm64-gnu", [:: "aarch64-unknown-linux-gnu"]);
      ("@crate-crypto/node-eth-kzg-win32-x64-msvc", [:: "x86_64-pc-windows-msvc"]);
      ("@crate-crypto/node-eth-kzg-win32-arm64-msvc", [:: "aarch64-pc-windows-msvc"])].
