(** A verification writes once, just before it returns. *)

From Coq Require Import NArith Init.Byte List.
From mathcomp Require Import ssreflect ssrfun ssrbool eqtype ssrnat seq.
From Verif Require Import Base Bytes CMem CApi CThreads SpecThreads.

Set Implicit Arguments.
Unset Strict Implicit.
Unset Printing Implicit Defensive.

Section Verdict.
Variables (ctx err : Type) (api : rust_api ctx err).

(** Reads, and at most one write, after which success is returned *)
Fixpoint one_write (p : prog ctx) : Prop :=
  match p with
  | PGet _ _ k => forall v, one_write (k v)
  | PPut _ _ _ k => k = POk
  | PRelease _ _ => False
  | _ => True
  end.

Lemma cells_one n b o acc k : (forall l, one_write (k l)) -> one_write (p_cells n b o acc k).
Proof. by move=> H; elim: n o acc => [|n IH] o acc /=; [exact: H|move=> v; exact: IH]. Qed.
Lemma as_one (A : Type) (f : cell ctx -> option A) p n k : (forall l, one_write (k l)) -> one_write (p_as f p n k).
Proof.
move=> H; have K l : one_write (if all_as f l is Some s then k s else PInvalid) by case: all_as.
rewrite /p_as /p_region; case: (n == 0); first exact: (K [::]).
by case: p => [|b o] //; exact: (cells_one _ _ _ _ K).
Qed.
Lemma rows_one w ps acc k : (forall l, one_write (k l)) -> one_write (p_rows w ps acc k).
Proof. by move=> H; elim: ps acc => [|p ps IH] acc /=; [exact: H|apply: as_one => l; exact: IH]. Qed.
Lemma arrays_one w p n k : (forall l, one_write (k l)) -> one_write (p_arrays w p n k).
Proof. by move=> H; apply: as_one => l; apply: rows_one. Qed.
Lemma ctx_one p (k : ctx -> prog ctx) : (forall c, one_write (k c)) -> one_write (p_ctx p k).
Proof. by move=> H; case: p => [|b [|o]] //= [] //=. Qed.
Lemma assert_one b (k : prog ctx) : one_write k -> one_write (p_assert b k).
Proof. by case: b. Qed.

Lemma bool_one p (k : prog ctx) : one_write k -> one_write (p_bool p k).
Proof. by move=> H; case: p => [|b [|o]] //= []. Qed.
Lemma try_one (A : Type) (x : outcome (result A err)) (k : A -> prog ctx) :
  (forall a, one_write (k a)) -> one_write (p_try api x k).
Proof. by move=> H; case: x => [[a|e]|] //=; exact: assert_one. Qed.

Lemma verify_one c : is_verify c -> one_write (p_call api c).
Proof.
case: c => // p n1 coms n2 ids n3 cells n4 proofs verified _; rewrite /p_call.
apply: assert_one; apply: ctx_one => c; apply: arrays_one => l1; apply: as_one => l2; apply: arrays_one => l3.
by apply: arrays_one => l4; apply: bool_one; apply: try_one => v; case: verified => [|b [|o]].
Qed.

Lemma step_one p m p' m' : one_write p -> pstep p m = Next p' m' -> one_write p' /\ (m' = m \/ p' = POk).
Proof.
case: p => //= [b o k H|b o v k ->].
- by case: cell_of => // v [<- <-]; split; [exact: H|left].
- by case: put => // m1 [<- _]; split; [|right].
Qed.

Variables (may_start : state ctx -> c_call -> Prop) (may_change : state ctx -> mem ctx -> Prop).
Lemma run_one m0 tr s : run (p_call api) may_start may_change m0 tr s ->
  forall t c m p, st_threads s t = Running c m p -> is_verify c -> one_write p.
Proof.
elim=> {tr s} //=.
- move=> tr s t' c' _ IH _ _ t c m p; rewrite /set_thread; case: eqP => [_|_]; last exact: IH.
  by case=> <- _ <-; exact: verify_one.
- move=> tr s t' c' m1 p1 p2 m2 _ IH Ht E t c m p; rewrite /set_thread; case: eqP => [_|_]; last exact: IH.
  by case=> <- _ <- Hv; have [] := step_one (IH _ _ _ _ Ht Hv) E.
- by move=> tr s t' c' m1 p1 v m2 _ IH _ _ t c m p; rewrite /set_thread; case: eqP => // _; exact: IH.
- by move=> tr s t' c' m1 p1 _ IH _ _ t c m p; rewrite /set_thread; case: eqP => // _; exact: IH.
Qed.
End Verdict.
