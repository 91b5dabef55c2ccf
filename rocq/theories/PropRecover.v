(** Properties of [recover_cells_and_kzg_proofs] (C06-C09), at the constants of EIP-7594 over the
    BLS12-381 scalar field. *)

From Coq Require Import ZArith NArith Init.Byte Strings.Byte.
From mathcomp Require Import ssreflect ssrfun ssrbool eqtype ssrnat seq div fintype bigop.
From mathcomp Require Import ssralg poly polydiv zify_ssreflect.
From Verif Require Import Base Bytes Spec SpecKZG SpecDAS FixedBaseMSM LincombProofs FK20ProverProofs.
From Verif Require Import FK20Verifier Eip7594 Eip7594Proofs ApiEip ReedSolomon.
From Verif Require Import ZField FrPrime Fr SpecFr FrEnv PropProver.

Set Implicit Arguments.
Unset Strict Implicit.
Unset Printing Implicit Defensive.

Import GRing.Theory.
Local Open Scope ring_scope.
Local Opaque w8192 w4096.

(** A list of 2048-byte cells. *)
Definition cells_shape (cells : seq (seq byte)) : bool := all (fun x => size x == 2048%N) cells.

Section Recover.
Variables (G1 G2 GT : lmodType Fr) (env : das_env G1 G2 GT).
Hypothesis std : env_std env.
Variables (g1s : seq G1) (g2s : seq G2) (ctx : das_context G1 G2).
Hypothesis S1 : size g1s = (2 ^ 12)%N.
Hypothesis S2 : size g2s = 65%N.
Hypothesis Hctx : das_context_new fr_params eip7594_consts g1s g2s PrecompNo = Ret ctx.
Local Notation compute := (compute_cells_and_kzg_proofs env eip7594_consts ctx).
Local Notation recover := (recover_cells_and_kzg_proofs env eip7594_consts ctx).

Let Ht : tables_ok env g1s PrecompNo := @no_tables _ _ _ env g1s.

Lemma recover_ok idx cells out : cells_shape cells -> recover idx cells = Ret (Ok out) ->
  eip_recover_shape idx cells /\
  exists2 f, cells_polynomial idx cells f & out = output_of_poly env g1s f.
Proof.
move=> Sc; case: (recover_caseP std S1 S2 Hctx idx Sc Ht) => // f sh Hf [<-].
by split=> //; exists f.
Qed.

Lemma recover_complete idx cells f : cells_shape cells -> eip_recover_shape idx cells ->
  cells_polynomial idx cells f -> recover idx cells = Ret (Ok (output_of_poly env g1s f)).
Proof.
move=> Sc sh Hf; have [Sz Ar Ui Fw] := sh.
case: (recover_caseP std S1 S2 Hctx idx Sc Ht).
- by move=> /(_ Sz).
- by move=> i _ Hi Bi _; case/negP: Bi; apply: (all_nthP 0%num Ar).
- by rewrite Ui.
- by move=> _ _ _; rewrite ltnNge Fw.
- move=> t i _ Hlt Hi Bi _ _; case/negP: Bi.
  exact: (cells_polynomial_canonical std sh Hf).
- by move=> _ _ /(_ f).
by move=> g _ Hg; rewrite (cells_polynomial_unique std Sc sh Hf Hg).
Qed.

(** ** C06 *)
Theorem C06_recover_any_half blob cells proofs idx :
  size blob = (2 ^ 17)%N -> compute blob = Ret (Ok (cells, proofs)) ->
  uniq idx -> all (fun i => (i <? 128)%num) idx -> (64 <= size idx)%N ->
  recover idx [seq nth [::] cells (N.to_nat i) | i <- idx] = Ret (Ok (cells, proofs)).
Proof.
move=> Sb Hc Ui Ar Fw; have [f Hf E] := compute_ok std S1 S2 Hctx Sb Hc.
have [Ec _] : cells = mkseq (cell_of_poly f) 128 /\ True by case: E.
have HN i : i \in idx -> (N.to_nat i < 128)%N.
  by move=> /(allP Ar)/N.ltb_spec0; lia.
have En i : i \in idx -> nth [::] cells (N.to_nat i) = cell_of_poly f (N.to_nat i).
  by move=> Hi; rewrite Ec nth_mkseq // HN.
rewrite E; apply: recover_complete.
- by apply/allP => x /mapP[i Hi ->]; rewrite (En _ Hi) size_cell_of_poly.
- by split; rewrite ?size_map.
split; first by case: Hf.
move=> t j Hi Hj; rewrite (nth_map 0%num) // En ?mem_nth // (chunk_cell_of_poly std) //.
Qed.

(** ** C07 *)
Theorem C07_consistent idx cells :
  cells_shape cells -> size idx = size cells -> uniq idx ->
  all (fun i => (i <? 128)%num) idx -> (64 <= size idx)%N ->
  (exists out, recover idx cells = Ret (Ok out)) <-> exists f, cells_polynomial idx cells f.
Proof.
move=> Sc Sz Ui Ar Fw; split=> [[out /(recover_ok Sc)[_ [f Hf _]]]|[f Hf]]; first by exists f.
by exists (output_of_poly env g1s f); apply: recover_complete => //; split.
Qed.

Theorem C07_inconsistent idx cells :
  cells_shape cells -> size idx = size cells -> uniq idx ->
  all (fun i => (i <? 128)%num) idx -> (64 <= size idx)%N ->
  (forall cell j, cell \in cells -> (j < 64)%N -> canonical (chunk cell j)) ->
  (forall f, ~ cells_polynomial idx cells f) ->
  recover idx cells =
    Ret (Err (ERecovery (RecoveryReedSolomon (PolynomialHasInvalidLength (2 ^ 13) (2 ^ 12))))).
Proof.
move=> Sc Sz Ui Ar Fw Hcan Hno.
case: (recover_caseP std S1 S2 Hctx idx Sc Ht) => //.
- by move=> i _ Hi Bi _; case/negP: Bi; apply: (all_nthP 0%num Ar).
- by rewrite Ui.
- by move=> _ _ _; rewrite ltnNge Fw.
- by move=> t i _ Hlt Hi Bi _ _; case/negP: Bi; apply: Hcan => //; exact: mem_nth.
by move=> f _ /Hno.
Qed.

Theorem C07_preserves idx cells rcells rproofs : cells_shape cells ->
  recover idx cells = Ret (Ok (rcells, rproofs)) ->
  [/\ size rcells = 128%N, size rproofs = 128%N &
      forall t, (t < size idx)%N -> nth [::] rcells (N.to_nat (nth 0%num idx t)) = nth [::] cells t].
Proof.
move=> Sc /(recover_ok Sc)[sh [f Hf]] [-> ->]; split; try exact: size_mkseq.
move=> t Hlt; rewrite nth_mkseq; first exact: (cells_polynomial_output std Sc sh Hf).
by have [_ /(all_nthP 0%num)/(_ t Hlt)/N.ltb_spec0 H _ _] := sh; move: H; lia.
Qed.

(** The returned cells and proofs are those of the one polynomial through the supplied cells. *)
Theorem C07_output idx cells rcells rproofs : cells_shape cells ->
  recover idx cells = Ret (Ok (rcells, rproofs)) ->
  exists! f, [/\ cells_polynomial idx cells f,
    rcells = mkseq (cell_of_poly f) 128 &
    rproofs = mkseq (fun k => te_g1_to_compressed (de_te env) (proof_of_poly g1s f k)) 128].
Proof.
move=> Sc /(recover_ok Sc)[sh [f Hf]] [-> ->]; exists f; split=> // g [Hg _ _].
exact: (cells_polynomial_unique std Sc sh Hf Hg).
Qed.

(** ** C08 *)
Theorem C08_lengths idx cells : cells_shape cells -> size idx <> size cells ->
  recover idx cells =
    Ret (Err (ERecovery (NumCellIndicesNotEqualToNumCells (size idx) (size cells)))).
Proof.
move=> Sc ne; case: (recover_caseP std S1 S2 Hctx idx Sc Ht) => //.
- by move=> t i [].
- by move=> [].
by move=> f [].
Qed.

Theorem C08_range idx cells i : cells_shape cells -> size idx = size cells ->
  (i < size idx)%N -> (128 <=? nth 0%num idx i)%num ->
  (forall j, (j < i)%N -> (nth 0%num idx j <? 128)%num) ->
  recover idx cells = Ret (Err (ERecovery (RecoveryCellIndexOutOfRange (nth 0%num idx i) 128%num))).
Proof.
move=> Sc Sz Hi /N.leb_spec0 Bi Gi.
have no : ~ all index128 idx by move=> /(all_nthP 0%num)/(_ i Hi)/N.ltb_spec0; move: Bi; lia.
case: (recover_caseP std S1 S2 Hctx idx Sc Ht) => //.
- move=> i' _ Hi' Bi' Gi'.
  case: (ltngtP i i') => [H|H|-> //].
    by have /N.ltb_spec0 := Gi' i H; move: Bi; lia.
  by have := Gi i' H; rewrite -/(index128 _) (negbTE Bi').
- by move=> t j [].
- by move=> [].
by move=> f [].
Qed.

Theorem C08_duplicates idx cells : cells_shape cells -> size idx = size cells ->
  all (fun i => (i <? 128)%num) idx -> ~~ uniq idx ->
  recover idx cells = Ret (Err (ERecovery CellIndicesNotUnique)).
Proof.
move=> Sc Sz Ar Du; case: (recover_caseP std S1 S2 Hctx idx Sc Ht) => //.
- by move=> i _ Hi Bi _; case/negP: Bi; apply: (all_nthP 0%num Ar).
- by rewrite (negbTE Du).
- by move=> t j [_ _]; rewrite (negbTE Du).
- by move=> [_ _]; rewrite (negbTE Du).
by move=> f [_ _]; rewrite (negbTE Du).
Qed.

Theorem C08_too_few idx cells : cells_shape cells -> size idx = size cells ->
  all (fun i => (i <? 128)%num) idx -> uniq idx -> (size idx < 64)%N ->
  recover idx cells = Ret (Err (ERecovery (NotEnoughCellsToReconstruct (size idx) 64))).
Proof.
move=> Sc Sz Ar Ui Fw; case: (recover_caseP std S1 S2 Hctx idx Sc Ht) => //.
- by move=> i _ Hi Bi _; case/negP: Bi; apply: (all_nthP 0%num Ar).
- by rewrite Ui.
- by move=> t j [_ _ _]; rewrite leqNgt Fw.
- by move=> [_ _ _]; rewrite leqNgt Fw.
by move=> f [_ _ _]; rewrite leqNgt Fw.
Qed.

Theorem C08_bad_chunk idx cells t i : cells_shape cells -> size idx = size cells ->
  all (fun i => (i <? 128)%num) idx -> uniq idx -> (64 <= size idx)%N ->
  (t < size cells)%N -> (i < 64)%N -> ~~ canonical (chunk (nth [::] cells t) i) ->
  (forall j, (j < i)%N -> canonical (chunk (nth [::] cells t) j)) ->
  (forall t' j, (t' < t)%N -> (j < 64)%N -> canonical (chunk (nth [::] cells t') j)) ->
  recover idx cells =
    Ret (Err (ESerialization (CouldNotDeserializeScalar (chunk (nth [::] cells t) i)))).
Proof.
move=> Sc Sz Ar Ui Fw Hlt Hi Bi Gi Gt; case: (recover_caseP std S1 S2 Hctx idx Sc Ht) => //.
- by move=> i' _ Hi' Bi' _; case/negP: Bi'; apply: (all_nthP 0%num Ar).
- by rewrite Ui.
- by move=> _ _ _; rewrite ltnNge Fw.
- move=> t' i' _ Hlt' Hi' Bi' Gi' Gt'.
  have Et : t = t'.
    case: (ltngtP t t') => // H; first by have := Gt' t i H Hi; rewrite (negbTE Bi).
    by have := Gt t' i' H Hi'; rewrite (negbTE Bi').
  rewrite -Et in Bi' Gi' *; have -> // : i = i'.
  case: (ltngtP i i') => // H; first by have := Gi' i H; rewrite (negbTE Bi).
  by have := Gi i' H; rewrite (negbTE Bi').
- by move=> _ Hc; have := Hc t i Hlt Hi; rewrite (negbTE Bi).
by move=> f sh Hf; have := cells_polynomial_canonical std sh Hf Hlt Hi; rewrite (negbTE Bi).
Qed.

(** The checks above are the only way to fail, except for inconsistent cells (C07). *)
Theorem C08_only idx cells err : cells_shape cells -> recover idx cells = Ret (Err err) ->
  [\/ err = ERecovery (NumCellIndicesNotEqualToNumCells (size idx) (size cells)),
      exists2 i, err = ERecovery (RecoveryCellIndexOutOfRange i 128%num) & i \in idx,
      err = ERecovery CellIndicesNotUnique |
   [\/ err = ERecovery (NotEnoughCellsToReconstruct (size idx) 64),
      exists2 bytes, err = ESerialization (CouldNotDeserializeScalar bytes) & ~~ canonical bytes |
      err = ERecovery (RecoveryReedSolomon (PolynomialHasInvalidLength (2 ^ 13) (2 ^ 12)))]].
Proof.
move=> Sc; case: (recover_caseP std S1 S2 Hctx idx Sc Ht) => //.
- by move=> _ [<-]; constructor 1.
- by move=> i _ Hi _ _ [<-]; constructor 2; exists (nth 0%num idx i) => //; exact: mem_nth.
- by move=> _ _ _ [<-]; constructor 3.
- by move=> _ _ _ _ [<-]; constructor 4; constructor 1.
- by move=> t i _ _ _ Bi _ _ [<-]; constructor 4; constructor 2; exists (chunk (nth [::] cells t) i).
by move=> _ _ _ [<-]; constructor 4; constructor 3.
Qed.

Theorem C08_never_too_many idx cells a b : cells_shape cells ->
  recover idx cells <> Ret (Err (ERecovery (TooManyCellsReceived a b))).
Proof. by move=> Sc; case: (recover_caseP std S1 S2 Hctx idx Sc Ht). Qed.

(** ** C09 *)
Lemma cells_polynomial_zip idx cells f : size idx = size cells ->
  cells_polynomial idx cells f <->
  (size f <= 2 ^ 12)%N /\ forall p j, p \in zip idx cells -> (j < 64)%N ->
    fr_be f.[w8192 ^+ bitrev 13 (N.to_nat p.1 * 64 + j)] = chunk p.2 j.
Proof.
move=> Sz; split=> -[Sf H]; split=> //.
  move=> p j /(nthP (0%num, [::]))[t]; rewrite size_zip -Sz minnn => Hlt <- Hj.
  by rewrite nth_zip //=; exact: H.
move=> t j Hlt Hj; have := H (nth 0%num idx t, nth [::] cells t) j.
apply=> //; rewrite -(nth_zip _ _ _ Sz); apply: mem_nth.
by rewrite size_zip -Sz minnn.
Qed.

Theorem C09_permutation idx cells idx' cells' out :
  cells_shape cells -> size idx' = size cells' -> perm_eq (zip idx' cells') (zip idx cells) ->
  recover idx cells = Ret (Ok out) -> recover idx' cells' = Ret (Ok out).
Proof.
move=> Sc Sz' Hp /(recover_ok Sc)[sh [f Hf ->]]; have [Sz Ar Ui Fw] := sh.
have Hi : perm_eq idx' idx.
  have := perm_map fst Hp; rewrite -!/(unzip1 _) !unzip1_zip ?Sz ?Sz' //.
have Hc : perm_eq cells' cells.
  have := perm_map snd Hp; rewrite -!/(unzip2 _) !unzip2_zip ?Sz ?Sz' //.
apply: recover_complete.
- by rewrite /cells_shape (perm_all _ Hc).
- by split; rewrite ?(perm_size Hi) ?(perm_all _ Hi) ?(perm_uniq Hi) // Sz (perm_size Hc).
case/(cells_polynomial_zip _ Sz): Hf => Sf H; apply/(cells_polynomial_zip _ Sz'); split=> //.
by move=> p j; rewrite (perm_mem Hp); exact: H.
Qed.

Theorem C09_choice idx cells idx' cells' out out' (common : seq (N * seq byte)) :
  cells_shape cells -> cells_shape cells' ->
  recover idx cells = Ret (Ok out) -> recover idx' cells' = Ret (Ok out') ->
  (64 <= size common)%N -> uniq [seq p.1 | p <- common] ->
  {subset common <= zip idx cells} -> {subset common <= zip idx' cells'} -> out = out'.
Proof.
move=> Sc Sc' /(recover_ok Sc)[sh [f Hf ->]] /(recover_ok Sc')[sh' [g Hg ->]] Fw Uc Sub Sub'.
have [Sz Ar _ _] := sh; have [Sz' _ _ _] := sh'.
have Ez : zip (unzip1 common) (unzip2 common) = common by exact: zip_unzip.
have Es : size (unzip1 common) = size (unzip2 common) by rewrite !size_map.
case/(cells_polynomial_zip _ Sz): Hf => Sf Hf; case/(cells_polynomial_zip _ Sz'): Hg => Sg Hg.
have Hmem p : p \in common -> p.1 \in idx /\ p.2 \in cells.
  move=> /Sub/(nthP (0%num, [::]))[t]; rewrite size_zip -Sz minnn => Hlt <-.
  by rewrite nth_zip //=; split; apply: mem_nth => //; rewrite -Sz.
have shc : eip_recover_shape (unzip1 common) (unzip2 common).
  split; [exact: Es | | exact: Uc | by rewrite size_map].
  by apply/allP => i /mapP[p /Hmem[Hi _] ->]; exact: (allP Ar).
have Scc : cells_shape (unzip2 common).
  by apply/allP => x /mapP[p /Hmem[_ Hx] ->]; exact: (allP Sc).
have -> // : f = g.
apply: (cells_polynomial_unique std Scc shc); apply/(cells_polynomial_zip _ Es); split=> //.
  by move=> p j; rewrite Ez => /Sub; exact: Hf.
by move=> p j; rewrite Ez => /Sub'; exact: Hg.
Qed.
End Recover.

Print Assumptions C06_recover_any_half.
Print Assumptions C07_consistent.
Print Assumptions C07_inconsistent.
Print Assumptions C07_preserves.
Print Assumptions C07_output.
Print Assumptions C08_lengths.
Print Assumptions C08_range.
Print Assumptions C08_duplicates.
Print Assumptions C08_too_few.
Print Assumptions C08_bad_chunk.
Print Assumptions C08_only.
Print Assumptions C08_never_too_many.
Print Assumptions C09_permutation.
Print Assumptions C09_choice.
