(** Specification vocabulary for calls of the C interface by several threads: which memory a call reads
    and writes, when it may be made beside others, and what it means to get the answer of a call that is
    alone. *)

From Coq Require Import NArith Init.Byte.
From mathcomp Require Import ssreflect ssrfun ssrbool eqtype ssrnat seq.
From Verif Require Import Base Bytes CMem CApi SpecC CThreads.

Set Implicit Arguments.
Unset Strict Implicit.
Unset Printing Implicit Defensive.

Section Spec.
Variables (ctx err : Type) (api : rust_api ctx err).
Local Notation mem := (mem ctx).

(** ** Places: block and offset *)
Definition places : Type := nat -> nat -> Prop.
Definition region_of (p : ptr) (n : nat) : places := fun b o => in_region (p, n) b o.
Definition either (P Q : places) : places := fun b o => P b o \/ Q b o.
(** The arrays of w bytes to which the n pointers at p point. *)
Definition rows_of (m : mem) (p : ptr) (n w : nat) : places := fun b o =>
  exists b' o' q, [/\ region_of p n b' o', cell_of m b' o' = Some (CellPtr _ q) & region_of q w b o].
Definition arrays_of (m : mem) (p : ptr) (n w : nat) : places := either (region_of p n) (rows_of m p n w).
Definition nowhere : places := fun _ _ => False.

(** What the documentation of /repo/bindings/c/src/lib.rs says that a call reads (lines 83-351) ... *)
Definition reads (c : c_call) (m : mem) : places :=
  match c with
  | New _ _ | FreeCtx _ | FreeMsg _ => nowhere
  | Commit p blob _ => either (region_of p 1) (region_of blob (2 ^ 17))
  | Compute p blob out_cells out_proofs =>
      either (region_of p 1) (either (region_of blob (2 ^ 17))
        (either (region_of out_cells 128) (region_of out_proofs 128)))
  | Recover p n cells k ids out_cells out_proofs =>
      either (region_of p 1) (either (arrays_of m cells n 2048) (either (region_of ids k)
        (either (region_of out_cells 128) (region_of out_proofs 128))))
  | Verify p n1 coms n2 ids n3 cells n4 proofs _ =>
      either (region_of p 1) (either (arrays_of m coms n1 48) (either (region_of ids n2)
        (either (arrays_of m cells n3 2048) (arrays_of m proofs n4 48))))
  end.
(** ... and writes or frees. *)
Definition writes (c : c_call) (m : mem) : places :=
  match c with
  | New _ _ => nowhere
  | FreeCtx p | FreeMsg p => region_of p 1
  | Commit _ _ out => region_of out 48
  | Compute _ _ out_cells out_proofs | Recover _ _ _ _ _ out_cells out_proofs =>
      either (rows_of m out_cells 128 2048) (rows_of m out_proofs 128 48)
  | Verify _ _ _ _ _ _ _ _ _ verified => region_of verified 1
  end.
Definition uses (c : c_call) (m : mem) : places := either (reads c m) (writes c m).

(** ** Separation *)
Definition apart (P Q : places) : Prop := forall b o, P b o -> ~ Q b o.
(** In m' the existing memory at the places is as in m, and no block has vanished from the list. *)
Definition left_alone (P : places) (m m' : mem) : Prop :=
  size m <= size m' /\ forall b o, b < size m -> P b o -> cell_of m' b o = cell_of m b o.

(** A call may be made when it would succeed or fail in the ordinary way if it were alone. *)
Definition returns_alone (s : state ctx) (c : c_call) : Prop :=
  exists v m', c_exec api c (st_mem s) = CRet (v, m').
(** What it writes is used by no call that is running, and what those write it does not use: two calls
    may share the context and the inputs. *)
Definition separate (s : state ctx) (c : c_call) : Prop :=
  forall t c' m' p, st_threads s t = Running c' m' p ->
    apart (writes c (st_mem s)) (uses c' m') /\ apart (writes c' m') (uses c (st_mem s)).
Definition proper_start (s : state ctx) (c : c_call) : Prop := returns_alone s c /\ separate s c.
(** The callers change nothing that a running call uses. *)
Definition proper_change (s : state ctx) (m' : mem) : Prop :=
  size (st_mem s) <= size m' /\
  forall t c m p, st_threads s t = Running c m p -> left_alone (uses c m) (st_mem s) m'.

(** ** The answer of a call that is alone *)

(** The same answer; new messages and contexts may have different addresses. *)
Definition same_answer (v : c_value) (m : mem) (v' : c_value) (m' : mem) : Prop :=
  match v, v' with
  | VUnit, VUnit => True
  | VResult (MkCResult StOk Null), VResult (MkCResult StOk Null) => True
  | VResult (MkCResult StErr (Addr b 0)), VResult (MkCResult StErr (Addr b' 0)) =>
      exists msg, is_block m b (BMsg _ msg) /\ is_block m' b' (BMsg _ msg)
  | VPtr (Addr b 0), VPtr (Addr b' 0) => exists c, is_block m b (BCtx c) /\ is_block m' b' (BCtx c)
  | _, _ => False
  end.
(** The call c on memory m, ending with v and memory m', answered as if it were alone: v is the same, and
    so is everything that it may write. *)
Definition as_alone (c : c_call) (m : mem) (v : c_value) (m' : mem) : Prop :=
  exists v1 m1, [/\ c_exec api c m = CRet (v1, m1), same_answer v m' v1 m1 &
    forall b o, b < size m -> writes c m b o -> cell_of m' b o = cell_of m1 b o].

(** ** Programs that do what a call does *)

(** Alone on m, the program p reads only from R and W and changes only W. *)
Fixpoint stays_within (R W : places) (p : prog ctx) (m : mem) : Prop :=
  match p with
  | PGet b o k => (R b o \/ W b o) /\ forall v, cell_of m b o = Some v -> stays_within R W (k v) m
  | PPut b o v k => W b o /\ forall m', put m b o v = Some m' -> stays_within R W k m'
  | PRelease b k => W b 0 /\ forall m', release m b = Some m' -> stays_within R W k m'
  | _ => True
  end.
(** A thread that runs [impl c] alone does what the function of CApi.v does, when that returns, and uses
    nothing but what the documentation says. When and how often it reads is its own business. *)
Definition faithful (impl : c_call -> prog ctx) : Prop :=
  forall c m v m', c_exec api c m = CRet (v, m') ->
    alone (impl c) m = CRet (v, m') /\ stays_within (reads c m) (writes c m) (impl c) m.

Definition is_verify (c : c_call) : bool := if c is Verify _ _ _ _ _ _ _ _ _ _ then true else false.
End Spec.
