(** What to expect of calls that share a context: the events of a thread, and what a call gives when it is the only
    one. *)

From Coq Require Import NArith Init.Byte.
From mathcomp Require Import ssreflect ssrfun ssrbool eqtype ssrnat seq ssralg.
From Verif Require Import Base Bytes Eip7594 Shared SharedApi.

Set Implicit Arguments.
Unset Strict Implicit.
Unset Printing Implicit Defensive.

Section Events.
Variable R : Type.
(** The calls that thread t made, and those of which it has the result, latest first *)
Definition started_by (t : nat) (tr : seq (event R)) : seq (call R) :=
  pmap (fun e => if e is Started t' c then if t' == t then Some c else None else None) tr.
Definition ended_by (t : nat) (tr : seq (event R)) : seq (call R) :=
  pmap (fun e => if e is Ended t' c _ then if t' == t then Some c else None else None) tr.
(** No thread is in a call. *)
Definition all_idle (s : state R) : Prop := forall t, nth Idle (st_threads s) t = Idle.
(** There is something left to do besides new calls. *)
Definition can_work (s : state R) : Prop := exists e s', step s e s' /\ ~~ starts e.
End Events.

Section Alone.
Variables (F : fieldType) (G1 G2 GT : lmodType F) (env : das_env G1 G2 GT) (K : consts).
(** The result of a request without a pool *)
Definition alone (ctx : das_context G1 G2) (q : request) : outcome answer :=
  match q with
  | ReqCommit blob => omap AnsCommit (blob_to_kzg_commitment env K ctx blob)
  | ReqCompute blob => omap AnsCells (compute_cells_and_kzg_proofs env K ctx blob)
  | ReqRecover cell_indices cells => omap AnsCells (recover_cells_and_kzg_proofs env K ctx cell_indices cells)
  | ReqVerify commitments cell_indices cells proofs =>
      omap AnsVerify (verify_cell_kzg_proof_batch env K ctx commitments cell_indices cells proofs)
  end.
End Alone.
