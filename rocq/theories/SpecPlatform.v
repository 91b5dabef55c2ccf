(** Machines, the code that they run, and what the tools on them call them. Used to state C64. *)

From Coq Require Import String.
From mathcomp Require Import ssreflect ssrfun ssrbool eqtype ssrnat seq.
From Verif Require Import Platform.

Set Implicit Arguments.
Unset Strict Implicit.
Unset Printing Implicit Defensive.

Local Open Scope string_scope.
Local Open Scope seq_scope.

Inductive os := Linux | Mac | Windows.
Inductive cpu := X64 | Arm64.

(** Code for the Rust target [t] runs on the machine. *)
Definition runs_on (o : os) (c : cpu) (t : string) : bool :=
  match o, c with
  | Linux, X64 => t =? "x86_64-unknown-linux-gnu"
  | Linux, Arm64 => t =? "aarch64-unknown-linux-gnu"
  | Mac, X64 => t =? "x86_64-apple-darwin"
  | Mac, Arm64 => t =? "aarch64-apple-darwin"
  | Windows, X64 => (t =? "x86_64-pc-windows-gnu") || (t =? "x86_64-pc-windows-msvc")
  | Windows, Arm64 => t =? "aarch64-pc-windows-msvc"
  end.
Definition runs (o : os) (c : cpu) (code : seq string) : bool := has (runs_on o c) code.
(** All machines but Windows on ARM *)
Definition covered (o : os) (c : cpu) : bool := if o is Windows then (if c is X64 then true else false) else true.

(** The properties os.name and os.arch of a Java virtual machine, and System.mapLibraryName *)
Definition jvm_name (o : os) (name : string) : Prop :=
  match o with Linux => name = "Linux" | Mac => name = "Mac OS X" | Windows => exists v, name = "Windows" ^^ v end.
Definition jvm_arch (c : cpu) (arch : string) : Prop :=
  match c with X64 => arch = "amd64" \/ arch = "x86_64" | Arm64 => arch = "aarch64" end.
Definition mapped (o : os) (lib : string) : string :=
  match o with Linux => "lib" ^^ lib ^^ ".so" | Mac => "lib" ^^ lib ^^ ".dylib" | Windows => lib ^^ ".dll" end.
(** .NET *)
Definition net (o : os) : net_os := match o with Linux => NetLinux | Mac => NetOSX | Windows => NetWindows end.
Definition net_cpu (c : cpu) : net_arch := match c with X64 => NetX64 | Arm64 => NetArm64 end.
(** uname and uname -m; on Windows those of the shells of MinGW and Cygwin, on a 64-bit processor of Intel's kind *)
Definition uname (o : os) (s : string) : Prop :=
  match o with
  | Linux => s = "Linux" | Mac => s = "Darwin"
  | Windows => exists v, s = "MINGW64_NT-" ^^ v \/ s = "CYGWIN_NT-" ^^ v
  end.
Definition uname_m (o : os) (c : cpu) : string :=
  match c, o with X64, _ => "x86_64" | Arm64, Mac => "arm64" | Arm64, _ => "aarch64" end.
(** GOOS, GOARCH *)
Definition goos (o : os) : string := match o with Linux => "linux" | Mac => "darwin" | Windows => "windows" end.
Definition goarch (c : cpu) : string := match c with X64 => "amd64" | Arm64 => "arm64" end.
(** The symbols that Nim defines *)
Definition nim_symbols (o : os) (c : cpu) (s : string) : bool :=
  (s =? match o with Linux => "linux" | Mac => "macosx" | Windows => "windows" end) ||
  (s =? match c with X64 => "amd64" | Arm64 => "arm64" end).
(** process.platform and process.arch of Node *)
Definition node_platform (o : os) : string := match o with Linux => "linux" | Mac => "darwin" | Windows => "win32" end.
Definition node_arch (c : cpu) : string := match c with X64 => "x64" | Arm64 => "arm64" end.
