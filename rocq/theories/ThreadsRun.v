(** The runs of threads that make calls which are separate from each other. *)

From Coq Require Import NArith Init.Byte.
From mathcomp Require Import ssreflect ssrfun ssrbool eqtype ssrnat seq.
From Verif Require Import Base Bytes CMem CApi SpecC CProofs CThreads SpecThreads ThreadsProofs.
From mathcomp Require Import zify_ssreflect.

Set Implicit Arguments.
Unset Strict Implicit.
Unset Printing Implicit Defensive.

Section Run.
Variables (ctx err : Type) (api : rust_api ctx err) (impl : c_call -> prog ctx).
Hypothesis Hi : faithful api impl.
Local Notation mem := (mem ctx).
Local Notation run := (run impl (proper_start api) (@proper_change ctx)).

(** What holds of a running call, and between two of them. *)
Definition follows (c : c_call) (m0 : mem) (p : prog ctx) (m : mem) : Prop :=
  exists v m1 mg, c_exec api c m0 = CRet (v, m1) /\
    simulates (reads c m0) (writes c m0) (size m0) v m1 p mg m.
Record good (s : state ctx) : Prop := Good {
  good_call : forall t c m0 p, st_threads s t = Running c m0 p -> follows c m0 p (st_mem s);
  good_pair : forall t t' c m0 p c' m0' p', t <> t' -> st_threads s t = Running c m0 p ->
    st_threads s t' = Running c' m0' p' -> apart (writes c m0) (uses c' m0')
}.

Lemma follows_other c m0 p m m' : follows c m0 p m -> left_alone (uses c m0) m m' -> follows c m0 p m'.
Proof.
move=> [v [m1 [mg [E [Ha Hw A]]]]] H; exists v, m1, mg; split=> //; split=> //; exact: agrees_other A H.
Qed.
Lemma follows_size c m0 p m : follows c m0 p m -> size m0 <= size m.
Proof. by move=> [v [m1 [mg [_ [_ _ []]]]]]. Qed.

Lemma apart_left c (m0 : mem) c' (m0' : mem) (m m' : mem) : apart (writes c m0) (uses c' m0') -> size m <= size m' ->
  (forall b o, b < size m -> ~ writes c m0 b o -> cell_of m' b o = cell_of m b o) ->
  left_alone (uses c' m0') m m'.
Proof. by move=> H S C; split=> // b o Hb Hu; apply: C => // Hw; exact: H Hw Hu. Qed.

Lemma set_same (f : nat -> thread ctx) t x : set_thread f t x t = x.
Proof. by rewrite /set_thread eqxx. Qed.
Lemma set_other (f : nat -> thread ctx) t x t' : t' <> t -> set_thread f t x t' = f t'.
Proof. by move=> /eqP /negbTE E; rewrite /set_thread E. Qed.

(** What a step of a running call does to memory. *)
Lemma step_memory s t c m0 p : good s -> st_threads s t = Running c m0 p ->
  match pstep p (st_mem s) with
  | Next p' m' => [/\ follows c m0 p' m', size m' = size (st_mem s) &
      forall b o, ~ writes c m0 b o -> cell_of m' b o = cell_of (st_mem s) b o]
  | Done v m' => [/\ as_alone api c m0 v m', size (st_mem s) <= size m' &
      forall b o, b < size (st_mem s) -> cell_of m' b o = cell_of (st_mem s) b o]
  | _ => False
  end.
Proof.
move=> G E; have [v [m1 [mg [Ec S]]]] := good_call G E; have := sim_step S.
case: (pstep p (st_mem s)) => [p' m'|v' m'| |] //.
  by move=> [[mg' S'] [Sz C]]; split=> //; exists v, m1, mg'.
by move=> [H1 H2 [H3 H4]]; split=> //; exists v, m1; split.
Qed.

(** The other calls do not notice a step. *)
Lemma others s t c m0 p m' x : good s -> st_threads s t = Running c m0 p -> size (st_mem s) <= size m' ->
  (forall b o, b < size (st_mem s) -> ~ writes c m0 b o -> cell_of m' b o = cell_of (st_mem s) b o) ->
  match x with
  | Running c' m0' p' => [/\ c' = c, m0' = m0 & follows c m0 p' m']
  | Idle => True
  end ->
  good (MkState m' (set_thread (st_threads s) t x)).
Proof.
move=> G E Sz C Hx; split=> [t1 c1 n1 p1|t1 t2 c1 n1 p1 c2 n2 p2 N] /=.
  case: (t1 =P t) => [->|N]; first by rewrite set_same => Ex; move: Hx; rewrite Ex => -[-> ->].
  rewrite set_other // => E1; apply: follows_other (good_call G E1) _.
  by apply: (apart_left (good_pair G _ E E1) Sz C) => /esym.
case: (t1 =P t) => [E1|N1]; case: (t2 =P t) => [E2|N2].
- by case: N; rewrite E1 E2.
- rewrite E1 set_same set_other // => Ex; move: Hx; rewrite Ex => -[-> -> _] H2.
  by apply: (good_pair G _ E H2) => /esym.
- rewrite E2 set_same set_other // => H1 Ex; move: Hx; rewrite Ex => -[-> -> _].
  exact: (good_pair G N1 H1 E).
rewrite !set_other // => H1 H2; exact: (good_pair G N H1 H2).
Qed.

Lemma run_good m0 tr s : run m0 tr s -> good s.
Proof.
elim=> {tr s}; first by split.
- move=> tr s t c _ G Ht [[v [m1 Ec]] Hs]; have [Ha Hw] := Hi Ec.
  split=> [t1 c1 n1 p1|t1 t2 c1 n1 p1 c2 n2 p2 N] /=.
    case: (t1 =P t) => [->|N]; last by rewrite set_other //; exact: (good_call G).
    rewrite set_same => -[<- <- <-]; exists v, m1, (st_mem s); split=> //.
  case: (t1 =P t) => [E1|N1]; case: (t2 =P t) => [E2|N2].
  + by case: N; rewrite E1 E2.
  + by rewrite E1 set_same set_other // => -[<- <- _] H2; have [] := Hs _ _ _ _ H2.
  + by rewrite E2 set_same set_other // => H1 [<- <- _]; have [] := Hs _ _ _ _ H1.
  by rewrite !set_other // => H1 H2; exact: (good_pair G N H1 H2).
- move=> tr s t c m p p' m' _ G Ht Ep; have := step_memory G Ht; rewrite Ep => -[Hf Sz C].
  apply: (others G Ht) => //; first by rewrite Sz.
  by move=> b o _; exact: C.
- move=> tr s t c m p v m' _ G Ht Ep; have := step_memory G Ht; rewrite Ep => -[_ Sz C].
  by apply: (others G Ht) => // b o Hb _; exact: C.
- move=> tr s t c m p _ G Ht Ep; have := step_memory G Ht; by case: Ep => ->.
move=> tr s m' _ G [Sz C]; split=> [t1 c1 n1 p1|t1 t2 c1 n1 p1 c2 n2 p2 N] /= H; last exact: (good_pair G N H).
exact: (follows_other (good_call G H) (C _ _ _ _ H)).
Qed.


(** ** Finishing *)
Lemma finishes m0 tr s t c m p : run m0 tr s -> st_threads s t = Running c m p ->
  exists s' v, run m0 (Ended t c m v (st_mem s') :: tr) s' /\
    forall t', t' <> t -> st_threads s' t' = st_threads s t'.
Proof.
have next p' s1 (IH : forall s, run m0 tr s -> st_threads s t = Running c m p' ->
      exists s' v, run m0 (Ended t c m v (st_mem s') :: tr) s' /\
        forall t', t' <> t -> st_threads s' t' = st_threads s t') p1 m' :
    run m0 tr s1 -> st_threads s1 t = Running c m p1 -> pstep p1 (st_mem s1) = Next p' m' ->
    exists s' v, run m0 (Ended t c m v (st_mem s') :: tr) s' /\
      forall t', t' <> t -> st_threads s' t' = st_threads s1 t'.
  move=> Hr Ht Ep; have Hn := RunNext Hr Ht Ep.
  have [|s' [v [H1 H2]]] := IH _ Hn; first exact: set_same.
  by exists s', v; split=> // t' N; rewrite H2 //= set_other.
have last p1 v m' s1 : run m0 tr s1 -> st_threads s1 t = Running c m p1 -> pstep p1 (st_mem s1) = Done v m' ->
    exists s' v, run m0 (Ended t c m v (st_mem s') :: tr) s' /\
      forall t', t' <> t -> st_threads s' t' = st_threads s1 t'.
  move=> Hr Ht Ep; have Hd := RunDone Hr Ht Ep.
  by exists (MkState m' (set_thread (st_threads s1) t Idle)), v; split=> // t' N; rewrite /= set_other.
elim: p s => [b o k IH|b o w k IH|b k IH| | |msg|d| |] s Hr Ht; have := step_memory (run_good Hr) Ht => /= H;
  try by [exact: last Hr Ht (erefl _)|case: H].
- case E: (cell_of (st_mem s) b o) H => [w|] // _; apply: (next _ _ (IH w) _ _ Hr Ht); by rewrite /= E.
- case E: (put (st_mem s) b o w) H => [m'|] // _; apply: (next _ _ IH _ _ Hr Ht); by rewrite /= E.
case E: (release (st_mem s) b) H => [m'|] // _; apply: (next _ _ IH _ _ Hr Ht); by rewrite /= E.
Qed.
End Run.
