(** Steps of a call beside other threads follow its steps alone. *)

From Coq Require Import NArith Init.Byte.
From mathcomp Require Import ssreflect ssrfun ssrbool eqtype ssrnat seq.
From Verif Require Import Base Bytes CMem CApi SpecC CProofs CThreads SpecThreads.
From mathcomp Require Import zify_ssreflect.

Set Implicit Arguments.
Unset Strict Implicit.
Unset Printing Implicit Defensive.

Section Cells.
Variable ctx : Type.
Local Notation mem := (mem ctx).
Implicit Types m : mem.

Lemma live_nth m b : live_block m b = nth None m b.
Proof.
rewrite /live_block; case: (ltnP b (size m)) => H; first by rewrite (oget_nth None H); case: (nth _ _ _).
by rewrite oget_none // nth_default.
Qed.
Lemma cell_lt m b o v : cell_of m b o = Some v -> b < size m.
Proof. by rewrite /cell_of live_nth; case: ltnP => // H; rewrite nth_default. Qed.

(** ** Writes *)
Definition same_kind (v w : cell ctx) : bool :=
  match v, w with CellByte _, CellByte _ | CellBool _, CellBool _ => true | _, _ => false end.
Lemma put_block_cell (blk blk' : block ctx) o v : put_block blk o v = Some blk' ->
  block_cell blk' o = Some v /\ forall o', o' <> o -> block_cell blk' o' = block_cell blk o'.
Proof.
case: blk v => [c|s|s|s|s|w] [x|p|n|y|d|z] //=; last first.
  by case: eqP => // -> [<-] /=; split=> // o' /eqP /negbTE ->.
case: ltnP => // H [<-] /=; have S : o < size (set_nth "000"%byte s o x) by rewrite size_set_nth; lia.
split; first by rewrite (oget_nth "000"%byte S) nth_set_nth /= eqxx.
move=> o' /eqP /negbTE N; case: (ltnP o' (size s)) => H'; last by rewrite !oget_none ?size_set_nth //; lia.
by rewrite !(oget_nth "000"%byte) ?size_set_nth ?nth_set_nth /= ?N //; lia.
Qed.
Lemma putE m m' b o v : put m b o v = Some m' ->
  [/\ size m' = size m, b < size m, cell_of m' b o = Some v &
      forall b' o', (b', o') <> (b, o) -> cell_of m' b' o' = cell_of m b' o'].
Proof.
rewrite /put /cell_of live_nth; case E: (nth _ _ _) => [blk|] //.
have L : b < size m by case: ltnP (E) => // H; rewrite nth_default.
case Ep: (put_block _ _ _) => [blk'|] // [<-]; have [H1 H2] := put_block_cell Ep; split=> //.
- by rewrite size_set_nth; lia.
- by rewrite live_nth nth_set_nth /= eqxx.
move=> b' o' N; rewrite !live_nth nth_set_nth /=; case: eqP N => // -> N; rewrite E; apply: H2 => Eo.
by apply: N; rewrite Eo.
Qed.
Lemma put_kind m b o v : (exists m', put m b o v = Some m') <-> (exists2 w, cell_of m b o = Some w & same_kind w v).
Proof.
rewrite /put /cell_of; case: (live_block m b) => [blk|]; last by split=> [[]|[]].
split=> [[m']|[w]].
  case E: (put_block _ _ _) => [blk'|] // _; case: blk v E => [c|s|s|s|s|w] [x|p|n|y|d|z] //=; last first.
    by case: eqP => // _ _; exists (CellBool _ w).
  by case: ltnP => // H _; rewrite (oget_nth "000"%byte H); eexists.
case: blk v w => [c|s|s|s|s|u] [x|p|n|y|d|z] [x'|p'|n'|y'|d'|z'] //=; try by [case: eqP|case: (oget _ _)].
  by case E: (oget s o) => [a|] //= _ _; case: ltnP => [|H]; [eexists|rewrite oget_none in E].
by case: eqP => // _ _ _; eexists.
Qed.

(** ** Freeing *)
Definition of_library (v : cell ctx) : bool := match v with CellCtx _ | CellMsg _ => true | _ => false end.
Lemma releaseE m m' b : release m b = Some m' ->
  [/\ size m' = size m, b < size m, forall o, cell_of m' b o = None &
      forall b' o', (b', o') <> (b, 0) -> cell_of m' b' o' = cell_of m b' o'].
Proof.
rewrite /release /cell_of live_nth => H.
have L : b < size m by case: ltnP H => // H; rewrite nth_default.
have E : set_nth None m b None = m' /\ forall o, o <> 0 -> (if nth None m b is Some blk then block_cell blk o else None) = None.
  by case: (nth None m b) H => [[c|s|s|s|s|w]|] //= [<-]; split=> // o /eqP /negbTE ->.
case: E => <- E; split=> //.
- by rewrite size_set_nth; lia.
- by move=> o; rewrite live_nth nth_set_nth /= eqxx.
move=> b' o' N; rewrite !live_nth nth_set_nth /=; case: eqP N => // -> N; rewrite E // => Eo.
by apply: N; rewrite Eo.
Qed.
Lemma release_kind m b : (exists m', release m b = Some m') <-> (exists2 w, cell_of m b 0 = Some w & of_library w).
Proof.
rewrite /release /cell_of; case: (live_block m b) => [[c|s|s|s|s|w]|] //=; split=> [[]|[]] //=.
- by move=> m' _; eexists. - by eexists. - by move=> m' _; eexists. - by eexists.
- by case: (oget s 0) => // a w [<-].
- by case: (oget s 0) => // a w [<-].
- by case: (oget s 0) => // a w [<-].
by move=> x [<-].
Qed.

(** ** Growing *)
Lemma cell_rcons m blk b o : b < size m -> cell_of (rcons m blk) b o = cell_of m b o.
Proof. by move=> H; rewrite /cell_of !live_nth nth_rcons H. Qed.
Lemma block_rcons m blk : is_block (rcons m (Some blk)) (size m) blk.
Proof. by split; rewrite ?size_rcons // nth_rcons ltnn eqxx. Qed.
End Cells.

Section Sim.
Variables (ctx : Type).
Local Notation mem := (mem ctx).
Variables (R W : places) (n : nat).
Local Notation F := (either R W).

(** The memory mg of the call alone and the memory m beside other threads. *)
Definition agrees (mg m : mem) : Prop :=
  [/\ size mg = n, n <= size m & forall b o, b < n -> F b o -> cell_of m b o = cell_of mg b o].
Lemma agrees_other mg m m' : agrees mg m -> left_alone F m m' -> agrees mg m'.
Proof.
move=> [S L A] [L' A']; split=> //; first lia.
by move=> b o H Hf; rewrite A' ?A //; lia.
Qed.

Definition simulates (v : c_value) (m1 : mem) (p : prog ctx) (mg m : mem) : Prop :=
  [/\ alone p mg = CRet (v, m1), stays_within R W p mg & agrees mg m].

Lemma sim_step v m1 p mg m : simulates v m1 p mg m ->
  match pstep p m with
  | Next p' m' => (exists mg', simulates v m1 p' mg' m') /\
      (size m' = size m /\ forall b o, ~ W b o -> cell_of m' b o = cell_of m b o)
  | Done v' m' => [/\ same_answer v' m' v m1, forall b o, b < n -> W b o -> cell_of m' b o = cell_of m1 b o &
      size m <= size m' /\ forall b o, b < size m -> cell_of m' b o = cell_of m b o]
  | _ => False
  end.
Proof.
case: p => [b o k|b o w k|b k| | |msg|c| |]; move=> [Ha Hw [S L A]]; move: Ha Hw => //=.
- case E: (cell_of mg b o) => [w|] // Ha [Hf Hk]; have Hb := cell_lt E.
  rewrite A -?S // E; split=> //; exists mg; split=> //; exact: Hk.
- case E: (put mg b o w) => [mg'|] // Ha [Hf Hk]; have [S' Hb C1 C2] := putE E.
  have /put_kind[x Ex Kx] : exists m', put mg b o w = Some m' by exists mg'.
  have /put_kind[m' Em'] : exists2 x, cell_of m b o = Some x & same_kind x w.
    by exists x => //; rewrite A -?S //; right.
  have [S'' Hb' C1' C2'] := putE Em'; rewrite Em'; split; last first.
    by split=> // b' o' N; apply: C2' => -[Eb Eo]; apply: N; rewrite Eb Eo.
  exists mg'; split=> //; first exact: Hk.
  split; rewrite ?S' ?S'' // => b' o' Hb'' Hf'.
  case: (@eqP _ (b', o') (b, o)) => [[-> ->]|N]; first by rewrite C1 C1'.
  by rewrite C2 // C2' // A.
- case E: (release mg b) => [mg'|] // Ha [Hf Hk]; have [S' Hb C1 C2] := releaseE E.
  have /release_kind[x Ex Kx] : exists m', release mg b = Some m' by exists mg'.
  have /release_kind[m' Em'] : exists2 x, cell_of m b 0 = Some x & of_library x.
    by exists x => //; rewrite A -?S //; right.
  have [S'' Hb' C1' C2'] := releaseE Em'; rewrite Em'; split; last first.
    by split=> // b' o' N; apply: C2' => -[Eb Eo]; apply: N; rewrite Eb Eo.
  exists mg'; split=> //; first exact: Hk.
  split; rewrite ?S' ?S'' // => b' o' Hb'' Hf'.
  case: (@eqP _ (b', o') (b, 0)) => [[-> ->]|N]; first by rewrite C1 C1'.
  by rewrite C2 // C2' // A.
- by move=> [<- <-] _; split=> // b o Hb Hf; rewrite A //; right.
- by move=> [<- <-] _; split=> // b o Hb Hf; rewrite A //; right.
- move=> [<- <-] _; split.
  + by exists msg; split; exact: block_rcons.
  + by move=> b o Hb Hf; rewrite !cell_rcons ?S ?A //; [right|lia].
  by rewrite size_rcons; split=> // b o; exact: cell_rcons.
move=> [<- <-] _; split.
+ by exists c; split; exact: block_rcons.
+ by move=> b o Hb Hf; rewrite !cell_rcons ?S ?A //; [right|lia].
by rewrite size_rcons; split=> // b o; exact: cell_rcons.
Qed.
End Sim.
