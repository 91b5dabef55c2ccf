(** Proofs about the naive multi-opening scheme. *)

From mathcomp Require Import ssreflect ssrfun ssrbool eqtype ssrnat seq.
From mathcomp Require Import fintype bigop ssralg poly polydiv zify_ssreflect.
From Verif Require Import Base SpecKZG SpecDAS PolyCoeff PolyCoeffProofs Lincomb LincombProofs.
From Verif Require Import BitRev BitRevProofs Domain DomainProofs FK20Verifier FK20VerifierProofs.
From Verif Require Import VerifierSoundness Naive.

Set Implicit Arguments.
Unset Strict Implicit.
Unset Printing Implicit Defensive.

Import GRing.Theory.
Local Open Scope ring_scope.

Section Division.
Lemma ruffini_id (R : comRingType) (q x z r a : R) :
  (q * (x - z) + r) * x + a = (q * x + r) * (x - z) + (a + z * r).
Proof.
rewrite !mulrDl -!mulrA [(x - z) * x]mulrC -!addrA; congr (_ + _).
by rewrite mulrBr [z * r]mulrC [a + _]addrC !addrA subrK.
Qed.

Variable F : fieldType.
Implicit Types (p : seq F) (z : F).

Let step z (st : F * seq F) coeff := let t := coeff + st.1 in (z * t, t :: st.2).

(** The values pushed: the quotient after its remainder. *)
Lemma ruffini z p : exists c, foldl (step z) (0, [::]) (rev p) = (z * head 0 c, c) /\
  size c = size p /\ Poly p = (if c is r :: q then Poly q * ('X - z%:P) + r%:P else 0).
Proof.
elim: p => [|a p [c [E [Sc Pc]]]]; first by exists [::]; rewrite mulr0.
rewrite rev_cons foldl_rcons E /= /step /=; exists (a + z * head 0 c :: c); split=> //.
split; first by rewrite /= Sc.
rewrite /= cons_poly_def Pc; case: c {E Sc Pc} => [|r q] /=.
  by rewrite !mul0r mulr0 addr0.
rewrite cons_poly_def polyCD polyCM.
exact: ruffini_id.
Qed.

Lemma size_divide_by_linear p z : size (divide_by_linear p z) = (size p).-1.
Proof.
by rewrite /divide_by_linear; have [c [-> [Sc _]]] := ruffini z p; rewrite size_behead Sc.
Qed.

(** The quotient, whatever the remainder. *)
Lemma divide_by_linearE p z : exists r, Poly p = Poly (divide_by_linear p z) * ('X - z%:P) + r%:P.
Proof.
rewrite /divide_by_linear; have [c [-> [_ ->]]] := ruffini z p.
case: c => [|r q]; first by exists 0; rewrite /= mul0r addr0.
by exists r.
Qed.

Lemma divide_all zs p : size (foldl (@divide_by_linear F) p zs) = (size p - size zs)%N /\
  Poly (foldl (@divide_by_linear F) p zs) = Poly p %/ \prod_(z <- zs) ('X - z%:P).
Proof.
elim: zs p => [|z zs IH] p; first by rewrite /= subn0 big_nil divp1.
rewrite /=; have [-> ->] := IH (divide_by_linear p z).
rewrite size_divide_by_linear; split; first by lia.
rewrite big_cons -divp_divl; congr (_ %/ _).
have [r ->] := divide_by_linearE p z.
by rewrite divp_addl_mul_small // size_XsubC ltnS size_polyC_leq1.
Qed.
End Division.

Section Scheme.
Variables (F : fieldType) (G1 G2 GT : lmodType F).
Variable pair : G1 -> G2 -> GT.
Implicit Types (poly pts ys : seq F).

(** The polynomial that vanishes on the points. *)
Let Z pts : {poly F} := \prod_(z <- pts) ('X - z%:P).

Lemma size_Z pts : size (Z pts) = (size pts).+1.
Proof. by rewrite /Z size_prod_XsubC. Qed.
Lemma Z_neq0 pts : Z pts != 0.
Proof. by rewrite -size_poly_eq0 size_Z. Qed.

Lemma unzip1_eval (f : F -> F) pts : map fst (zip pts (map f pts)) = pts.
Proof. by rewrite -/(unzip1 _) unzip1_zip ?size_map. Qed.

(** Polynomials that agree on the points have the same quotient when the second is short. *)
Lemma quotient_sub (f i : {poly F}) pts : (size i <= size pts)%N -> (f - i) %/ Z pts = f %/ Z pts.
Proof.
by move=> Si; rewrite divpD divpN (@divp_small _ i) ?subr0 // size_Z ltnS.
Qed.

Theorem naive_computeE (srs : seq G1) poly pts : (2 <= size pts)%N -> uniq pts ->
  naive_compute srs poly pts =
  if (size poly - size pts <= size srs)%N
  then Ret (commit srs (Poly poly %/ Z pts), [seq (Poly poly).[z] | z <- pts]) else Panic.
Proof.
move=> Hn U; rewrite /naive_compute.
have -> : [seq poly_eval poly z | z <- pts] = [seq (Poly poly).[z] | z <- pts].
  by apply: eq_map => z; rewrite poly_eval_spec.
set ev := map _ _; have Sev : size ev = size pts by rewrite size_map.
have [||c -> [Sc Hc]] := @lagrange_interpolate_spec F (zip pts ev).
- by rewrite size_zip Sev minnn.
- by rewrite unzip1_eval.
rewrite size_zip Sev minnn in Sc; rewrite !obind_Ret /ounwrap /oassert.
have -> : all (fun pe => poly_eval c pe.1 == pe.2) (zip pts ev).
  by apply/allP => pe Hpe; rewrite poly_eval_spec Hc.
have [r -> [Sr Pr]] := poly_sub_spec poly c; rewrite obind_Ret.
have [Sq Pq] := divide_all pts r; rewrite commit_g1E Sq Sr Pq Pr.
have -> : (maxn (size poly) (size c) - size pts = size poly - size pts)%N by rewrite Sc; lia.
rewrite (quotient_sub _ (_ : (size (Poly c) <= size pts)%N)); last by rewrite -Sc size_Poly.
by case: leqP.
Qed.

Theorem naive_compute_panic (srs : seq G1) poly pts : (size pts < 2)%N \/ ~~ uniq pts ->
  naive_compute srs poly pts = Panic.
Proof.
move=> H; rewrite /naive_compute lagrange_interpolate_panic //.
by rewrite unzip1_eval size_zip size_map minnn.
Qed.

Lemma vk_commit_g1E (vk : verification_key G1 G2) poly :
  vk_commit_g1 vk poly = if (size poly <= size (vk_g1s vk))%N then Ret (commit (vk_g1s vk) (Poly poly)) else Panic.
Proof.
rewrite -commit_g1E /vk_commit_g1 /commit_g1 /oassert /aslice /=; by case: leqP.
Qed.
Lemma vk_commit_g2E (vk : verification_key G1 G2) poly :
  vk_commit_g2 vk poly = if (size poly <= size (vk_g2s vk))%N then Ret (commit (vk_g2s vk) (Poly poly)) else Panic.
Proof.
rewrite -commit_g1E /vk_commit_g2 /commit_g1 /oassert /aslice /=; by case: leqP.
Qed.

Hypothesis bil : bilinear pair.

(** I is the polynomial through the given values. *)
Theorem naive_verifyE (vk : verification_key G1 G2) C P pts ys (I : {poly F}) :
  (2 <= size pts)%N -> uniq pts -> size ys = size pts ->
  (size pts < size (vk_g2s vk))%N -> (size pts <= size (vk_g1s vk))%N ->
  (size I <= size pts)%N -> [seq I.[z] | z <- pts] = ys ->
  naive_verify pair vk C P pts ys =
  Ret (pair P (commit (vk_g2s vk) (Z pts)) == pair (C - commit (vk_g1s vk) I) (vk_g2_gen vk)).
Proof.
move=> Hn U Sy H2 H1 SI EI; rewrite /naive_verify.
have [||c -> [Sc Hc]] := @lagrange_interpolate_spec F (zip pts ys).
- by rewrite size_zip Sy minnn.
- by rewrite -/(unzip1 _) unzip1_zip ?Sy.
rewrite size_zip Sy minnn in Sc; rewrite !obind_Ret /ounwrap.
have [v -> [Sv Pv]] := vanishing_poly_spec pts; rewrite !obind_Ret.
rewrite vk_commit_g2E Sv H2 obind_Ret vk_commit_g1E Sc H1 obind_Ret Pv -/(Z pts).
have -> : Poly c = I.
  apply/eqP; rewrite -subr_eq0; apply/eqP; apply: (@roots_geq_poly_eq0 _ _ pts) => //.
    apply/allP => z Hz; rewrite rootE hornerD hornerN.
    have Hp : (z, I.[z]) \in zip pts ys.
      apply/(nthP (0, 0)); exists (index z pts); rewrite ?size_zip ?Sy ?minnn ?index_mem //.
      by rewrite nth_zip ?Sy // nth_index // -EI (nth_map 0) ?index_mem // nth_index.
    by rewrite (Hc _ Hp) subrr.
  apply: leq_trans (size_add _ _) _; rewrite size_opp geq_max SI andbT -Sc; exact: size_Poly.
by rewrite /multi_pairings /= addr0 (pairNr bil) subr_eq0.
Qed.

Theorem naive_verify_panic (vk : verification_key G1 G2) C P pts ys : size ys = size pts ->
  (size pts < 2)%N \/ ~~ uniq pts \/
  (size (vk_g2s vk) <= size pts)%N \/ (size (vk_g1s vk) < size pts)%N ->
  naive_verify pair vk C P pts ys = Panic.
Proof.
move=> Sy; case: (leqP 2 (size pts)) => Hn; last first.
  move=> _; rewrite /naive_verify lagrange_interpolate_panic // size_zip Sy minnn; by left.
case: (boolP (uniq pts)) => U; last first.
  move=> _; rewrite /naive_verify lagrange_interpolate_panic // -/(unzip1 _) unzip1_zip ?Sy //; by right.
case=> // [[//|H]]; rewrite /naive_verify.
have [||c -> [Sc _]] := @lagrange_interpolate_spec F (zip pts ys).
- by rewrite size_zip Sy minnn.
- by rewrite -/(unzip1 _) unzip1_zip ?Sy.
rewrite size_zip Sy minnn in Sc; rewrite !obind_Ret /ounwrap.
have [v -> [Sv _]] := vanishing_poly_spec pts; rewrite !obind_Ret vk_commit_g2E Sv.
case: (ltnP (size pts) (size (vk_g2s vk))) H => // H2 [//|H1].
by rewrite obind_Ret vk_commit_g1E Sc leqNgt H1.
Qed.
End Scheme.

(** On a cell the vanishing polynomial is X^L - h^L. *)
Section OnCell.
Variables (F : fieldType) (fp : fparams F) (ok : fp_ok fp) (n l m : nat).
Hypothesis Hn : n = (l + m)%N.
Hypothesis Had : (n <= fp_adicity fp)%N.
Local Notation L := (2 ^ l)%N.
Local Notation w := (omega fp n).

Lemma cell_vanishing k : \prod_(z <- mkseq (cell_point w n l k) L) ('X - z%:P) =
  'X^L - (coset_rep w m k ^+ L)%:P.
Proof.
set p := 'X^L - _; have Sp : size p = L.+1 by rewrite size_XnsubC // expn_gt0.
have Mp : lead_coef p = 1.
  rewrite /lead_coef Sp /= coefB coefXn eqxx coefC expn_eq0 /= subr0 //.
have := @all_roots_prod_XsubC _ p (mkseq (cell_point w n l k) L).
rewrite size_mkseq Sp Mp scale1r => -> //.
- apply/allP => x /mapP[j]; rewrite mem_iota => /andP[_ Hj] ->.
  by rewrite rootE !(hornerE, hornerXn) (cell_point_pow ok Hn Had) // subrr.
- rewrite uniq_rootsE; exact: (cell_points_uniq ok Hn Had k).
Qed.
End OnCell.
