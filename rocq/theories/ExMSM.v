(** Concrete instances of the hypotheses of PropMSM.v, and the refuted claim about the identity. *)

From Coq Require Import ZArith NArith Init.Byte Strings.Byte.
From mathcomp Require Import ssreflect ssrfun ssrbool eqtype ssrnat seq div prime fintype bigop.
From mathcomp Require Import ssralg poly polydiv zmodp zify_ssreflect.
From Verif Require Import Base Bytes Spec SpecKZG SpecDAS PolyCoeff PolyCoeffProofs FixedBaseMSM.
From Verif Require Import FK20Prover FK20ProverProofs FK20Verifier Eip7594 Eip7594Proofs ApiEip.
From Verif Require Import ZField FrPrime Pocklington Fr SpecFr FrEnv.
From Verif Require Import SpecMSM BoothProofs BatchAddition FrMsm SpecTables PropMSM PropProver PropRecover ExApi Cusp.

Set Implicit Arguments.
Unset Strict Implicit.
Unset Printing Implicit Defensive.

Import GRing.Theory.
Local Open Scope ring_scope.

(** ** C22: the scalar 2^255 - 1 *)
Example ex_booth : (be_val (rev (rcons (nseq 31 "255"%byte) "127"%byte)) < 2 ^ 255)%num.
Proof. by vm_compute. Qed.

(** ** C23: the curve y^2 = x^3 + 4 over the field with 17 elements; the group has the nine
    elements n (13, 5) *)
Definition p17 : primeZ := @PrimeZ 17 (prime_nat_Z (isT : prime 17)).
Definition F17 : fieldType := [fieldType of Zp p17].
Definition f17 (z : Z) : F17 := @of_Z p17 z.

Definition toy_points : seq (F17 * F17) :=
  [seq (f17 xy.1, f17 xy.2) | xy <- [:: (0, 0); (13, 5); (12, 10); (0, 15); (6, 4); (6, 13); (0, 2);
    (12, 7); (13, 12)]%Z].
Definition toy_to (P : 'Z_9) : F17 * F17 := nth (0, 0) toy_points P.
Definition toy_of (xy : F17 * F17) : 'Z_9 := inZp (index xy toy_points).

Lemma toy_all (Q : pred 'Z_9) : all (fun n => Q (inZp n)) (iota 0 9) -> forall P, Q P.
Proof.
move=> /allP H P; have := H (val P); rewrite valZpK; apply.
by rewrite mem_iota; exact: (ltn_ord P).
Qed.
Definition chord_ok (P Q : 'Z_9) : bool :=
  [|| P == 0, Q == 0, P == Q, P + Q == 0 |
   let: (x1, y1) := toy_to P in
   let: (x2, y2) := toy_to Q in
   let m := (y2 - y1) / (x2 - x1) in
   let x3 := m ^+ 2 - x1 - x2 in
   (x1 != x2) && (toy_to (P + Q) == (x3, m * (x1 - x3) - y1))].
Definition tangent_ok (P : 'Z_9) : bool :=
  [|| P == 0, P + P == 0 |
   let: (x1, y1) := toy_to P in
   let m := x1 ^+ 2 *+ 3 / (y1 *+ 2) in
   let x3 := m ^+ 2 - x1 *+ 2 in
   (y1 *+ 2 != 0) && (toy_to (P + P) == (x3, m * (x1 - x3) - y1))].
Lemma toy_chord P Q : chord_ok P Q.
Proof. by move: P; apply: toy_all; move: Q; apply: toy_all; vm_compute. Qed.
Lemma toy_tangent P : tangent_ok P.
Proof. by move: P; apply: toy_all; vm_compute. Qed.
Example ex_toy_curve : curve_coords toy_of toy_to.
Proof.
apply: CurveCoords.
- by move=> P; apply/eqP; move: P; apply: toy_all; vm_compute.
- by apply/eqP; vm_compute.
- move=> P P0; apply/eqP; move: P0; apply/implyP; move: P; apply: toy_all; by vm_compute.
- move=> P Q /negbTE P0 /negbTE Q0 /negbTE PQ /negbTE S0; have := toy_chord P Q.
  rewrite /chord_ok P0 Q0 PQ S0 /=.
  by case: (toy_to P) => x1 y1; case: (toy_to Q) => x2 y2 /andP[? /eqP].
move=> P /negbTE P0 /negbTE S0; have := toy_tangent P; rewrite /tangent_ok P0 S0 /=.
by case: (toy_to P) => x1 y1 /andP[? /eqP].
Qed.
Lemma toy_on_curve (P : 'Z_9) : P != 0 -> (toy_to P).2 ^+ 2 = (toy_to P).1 ^+ 3 + f17 4.
Proof.
by move=> P0; apply/eqP; move: P0; apply/implyP; move: P; apply: toy_all; vm_compute.
Qed.

(** 17 points whose eight pairs are regular, among them a doubling; the sum is 29 = 2. *)
Definition toy17 : seq 'Z_9 := nseq 5 1 ++ nseq 12 (inZp 2).
Example ex_regular_tree : regular_tree 16 toy17.
Proof. by apply: RegularNode; [vm_compute|apply: RegularLeaf; vm_compute]. Qed.
Example ex_batch : batch_addition_binary_tree_stride toy_of (map toy_to toy17) = Ret (inZp 29).
Proof.
rewrite (C23_batch ex_toy_curve ex_regular_tree); congr Ret; apply/eqP.
by rewrite unlock; vm_compute.
Qed.
Example ex_regular_forest : regular_forest 16 [:: toy17; toy17; [:: inZp 3]; toy17].
Proof. by apply: RegularNodes; [vm_compute|apply: RegularLeaves; vm_compute]. Qed.

(** Opposite points: at once, and in the second round (33 points). *)
Example ex_cancelling_tree : cancelling_tree 16 (1 :: inZp 8 :: toy17).
Proof. by apply: CancelHere; vm_compute. Qed.
Definition toy36 : seq 'Z_9 := 1 :: inZp 2 :: inZp 2 :: inZp 4 :: nseq 32 1.
Example ex_cancelling_later : cancelling_tree 16 toy36.
Proof.
by apply: CancelLater; [vm_compute|vm_compute|apply: CancelHere; vm_compute].
Qed.
Example ex_cancelling_forest : cancelling_forest 16 [:: toy17; 1 :: inZp 8 :: toy17; toy17].
Proof. by apply: CancelsHere; vm_compute. Qed.

(** The identity in a pair: the result is a wrong sum. *)
Example ex_identity_pair : (1 : 'Z_9) + 1 != 0 /\ (toy_to 1).1 != 0.
Proof. by split; vm_compute. Qed.
Theorem C23_identity_refuted :
  exists (Fq : fieldType) (V : zmodType) (of_affine : Fq * Fq -> V) (A : V -> Fq * Fq) (points : seq V) (S : V),
  [/\ curve_coords of_affine A,
      batch_addition_binary_tree_stride of_affine (map A points) = Ret S &
      S != \sum_(P <- points) P].
Proof.
have H : omap (@nat_of_ord 9) (batch_addition_binary_tree_stride toy_of (map toy_to ((0 : 'Z_9) :: toy17))) =
  Ret 0%N by vm_compute.
case E: (batch_addition_binary_tree_stride _ _) H => [S|] // [HS].
exists F17, [zmodType of 'Z_9], toy_of, toy_to, ((0 : 'Z_9) :: toy17), S; split=> //.
  exact: ex_toy_curve.
by rewrite unlock -val_eqE [val _]HS; vm_compute.
Qed.

(** ** C21: the group is Fr, with coordinates on y^2 = x^3 *)
Definition g_of : Fr * Fr -> G := @cusp_of Fr.
Definition g_to : G -> Fr * Fr := @cusp_to Fr.
Example ex_coords : curve_coords g_of g_to.
Proof. exact: (cusp_coords Fr). Qed.

(** The scalar with digit 1 at positions 0 to 19 in base 32. *)
Definition ones20 : Z := ((32 ^ 20 - 1) / 31)%Z.
Definition ex_scalars : seq Fr := [:: @of_Z rZ ones20; @of_Z rZ ones20].
Definition ex_points : seq G := [:: (1 : G); (1 : G) + 1].
Example ex_msm_regular : [/\ (0 < 5 <= 24)%N, size ex_points = size ex_scalars &
  no_exceptional_pair 5 ex_points ex_scalars].
Proof.
split=> //; rewrite /no_exceptional_pair.
by apply: RegularNodes; [vm_compute|apply: RegularLeaves; vm_compute].
Qed.
Example ex_msm_cancel : cancelling_forest 16
  [seq window_terms 5 [:: (1 : G); - (1 : G)] (map (zval (p := rZ)) ex_scalars) i | i <- iota 0 (255 %/ 5).+1].
Proof. by apply: CancelsHere; vm_compute. Qed.

(** The library: a blob, or cells, with all values 5. *)
Definition ex_envw : das_env G G G :=
  MkDasEnv (de_te ex_env) (de_scalar_from_bytes_be ex_env) (de_g1_from_compressed ex_env) (de_pair ex_env)
    (fr_msm_env g_of g_to).
Example ex_stdw : env_std ex_envw.
Proof. by case: ex_std => H1 H2 H3 H4 H5; exact: (@EnvStd _ _ _ ex_envw H1 H2 H3 H4 H5). Qed.
Example ex_contexts : exists ctx ctxw,
  das_context_new fr_params eip7594_consts ex_g1s ex_g2s PrecompNo = Ret ctx /\
  das_context_new fr_params eip7594_consts ex_g1s ex_g2s (PrecompYes 8) = Ret ctxw.
Proof.
have [ctx E] := ex_context.
have [ctxw Ew] := @context_exists _ _ ex_g1s ex_g2s ex_S1 ex_S2 (PrecompYes 8) isT.
exists ctx, ctxw; exact: (conj E Ew).
Qed.

Lemma signed_digit0 w i : signed_digit w 0 i = 0%Z.
Proof.
have E k : nearest 0 k = 0%Z.
  rewrite /nearest Z.mul_0_r Z.div_0_l //.
  by have := Z.pow_pos_nonneg 2 (Z.of_nat k); lia.
by rewrite /signed_digit !E Z.mul_0_r.
Qed.

Lemma window_terms_few (V : zmodType) w (pts : seq V) (ss : seq Z) i :
  (size (window_terms w pts ss i) <= count (fun s => negb (Z.eqb s 0)) ss)%N.
Proof.
rewrite /window_terms size_map; elim: pts ss => [|P pts IH] [|s ss] //=.
case: (Z.eqb_spec (signed_digit w s i) 0) => /= Hd; first by apply: leq_trans (IH ss) (leq_addl _ _).
have -> : (s =? 0)%Z = false by apply/Z.eqb_spec => E; case: Hd; rewrite E signed_digit0.
by rewrite ltnS.
Qed.

Lemma one_scalar_regular (V : lmodType Fr) w (pts : seq V) (ss : seq Fr) :
  (count (fun s => s != 0%R) ss <= 1)%N -> no_exceptional_pair w pts ss.
Proof.
move=> Hc; apply: RegularLeaves.
have H : count (fun s => negb (Z.eqb s 0)) (map (zval (p := rZ)) ss) = count (fun s => s != 0%R) ss.
  rewrite count_map; apply: eq_count => s /=; congr negb.
rewrite -map_comp; apply: (@leq_trans 0%N) => //; rewrite leqn0.
elim: (iota _ _) => [|i r IH] //; rewrite map_cons -[sumn _]/(_ + sumn _)%N (eqP IH) addn0.
have := leq_trans (window_terms_few w pts (map (zval (p := rZ)) ss) i); rewrite H => /(_ _ Hc).
rewrite [(_ \o _) i]/=; by case: (window_terms _ _ _ _) => [|P [|Q l]].
Qed.

Lemma const_table_scalars (x : Fr) j : (count (fun s => s != 0%R) (table_scalars x%:P j) <= 1)%N.
Proof.
have H i : (i < 63)%N -> nth 0 (table_scalars x%:P j) i = 0.
  move=> Hi; rewrite nth_mkseq; last by lia.
  have C m : (0 < m)%N -> (x%:P)`_m = 0 by move=> Hm; rewrite coefC; case: m Hm.
  rewrite C; last by rewrite -[(2 ^ 12)%N]/(64 * 64)%N; lia.
  rewrite mulr0 add0r big1 // => b _; rewrite C ?mulr0 //.
  by have Hb := ltn_ord b; rewrite -[(2 ^ 12)%N]/(64 * 64)%N; lia.
have S : size (table_scalars x%:P j) = 63.+1 by exact: size_mkseq.
move: (table_scalars _ _) S H => s S H.
rewrite -(cat_take_drop 63 s) count_cat.
have -> : count (fun s : Fr => s != 0) (take 63 s) = 0%N.
  apply/eqP; rewrite -leqn0 leqNgt -has_count; apply/(has_nthP 0) => -[i].
  rewrite size_take S ltnS leqnn => Hi; rewrite nth_take // H //; by rewrite eqxx.
by apply: leq_trans (count_size _ _) _; rewrite size_drop S.
Qed.

Example ex_tables_blob f : blob_polynomial ex_blob f ->
  forall j, (j < 128)%N -> no_exceptional_pair 8 (table_points ex_g1s j) (table_scalars f j).
Proof.
move=> Hf j _; rewrite (blob_polynomial_unique ex_stdw Hf ex_blob_poly).
exact/one_scalar_regular/const_table_scalars.
Qed.

Example ex_tables_cells f : cells_polynomial ex_half ex_cells64 f ->
  forall j, (j < 128)%N -> no_exceptional_pair 8 (table_points ex_g1s j) (table_scalars f j).
Proof.
move=> Hf j _; have [Sh Sz Hc] := ex_consistent; have [U Ar Mn] := ex_any_half.
have sh : eip_recover_shape ex_half ex_cells64 by split.
rewrite (cells_polynomial_unique ex_stdw Sh sh Hf Hc).
exact/one_scalar_regular/const_table_scalars.
Qed.
