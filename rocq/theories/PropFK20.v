(** Properties C25, C34, C35, C44, C45: linear combinations, Toeplitz products, cosets and the FK20
    prover against its reference implementation. *)

From Coq Require Import ZArith.
From mathcomp Require Import ssreflect ssrfun ssrbool eqtype ssrnat seq div prime.
From mathcomp Require Import fintype bigop ssralg poly polydiv zify_ssreflect.
From Verif Require Import Base Spec SpecKZG BitRev BitRevProofs Domain DomainProofs ZField Fr.
From Verif Require Import PolyCoeffProofs Lincomb LincombProofs FixedBaseMSM Cosets CosetsProofs.
From Verif Require Import Toeplitz ToeplitzProofs FK20Prover FK20ProverProofs.

Set Implicit Arguments.
Unset Strict Implicit.
Unset Printing Implicit Defensive.

Import GRing.Theory.
Local Open Scope ring_scope.

(** ** C25 *)

Theorem C25_lincomb (V : lmodType Fr) (points : seq V) (scalars : seq Fr) :
  g1_lincomb points scalars =
  Some (\sum_(i < minn (size points) (size scalars)) scalars`_i *: points`_i).
Proof. exact: g1_lincombE. Qed.
Print Assumptions C25_lincomb.

(** The documentation promises None when the lengths differ. *)
Theorem C25_none_on_mismatch_refuted :
  exists (points : seq [lmodType Fr of Fr^o]) (scalars : seq Fr),
    size points <> size scalars /\ g1_lincomb points scalars <> None.
Proof. by exists [:: 0], [::]; rewrite g1_lincombE. Qed.
Print Assumptions C25_none_on_mismatch_refuted.

Lemma unsafe_loses_terms (F : fieldType) (points := [:: 0; 1] : seq [lmodType F of F^o])
  (scalars := [:: 1; 1] : seq F) :
  g1_lincomb_unsafe points scalars <> Some (\sum_(i < size points) scalars`_i *: points`_i).
Proof.
rewrite /g1_lincomb_unsafe /multi_exp mem_head /= !big_ord_recr big_ord0 /= add0r.
rewrite scaler0 add0r scale1r; case=> /eqP; by rewrite eq_sym oner_eq0.
Qed.

(** The variant that does not remove identity points does lose the other terms. *)
Theorem C25_unsafe_refuted :
  exists (points : seq [lmodType Fr of Fr^o]) (scalars : seq Fr),
    size points = size scalars /\
    g1_lincomb_unsafe points scalars <> Some (\sum_(i < size points) scalars`_i *: points`_i).
Proof.
exists [:: 0; 1], [:: 1; 1]; split=> //.
exact: unsafe_loses_terms.
Qed.
Print Assumptions C25_unsafe_refuted.

(** ** C34 *)

Section C34.
Variables (V : lmodType Fr) (me : msm_env V) (k : nat).
Hypothesis Hk : (k < 32)%N.

(** The entry of the Toeplitz matrix with the given first row and column. *)
Let T (tm : toeplitz_matrix Fr) (a b : nat) : Fr :=
  if (a < b)%N then (tm_row tm)`_(b - a) else (tm_col tm)`_(a - b).

Let tm0 : toeplitz_matrix Fr := MkToeplitz [::] [::].

(** With tables, under the hypothesis that the multi-scalar multiplications made are exact (C21). *)
Theorem C34_sum_matrix_vector_mul_msm (xs : seq (seq V)) up bt (tms : seq (toeplitz_matrix Fr)) :
  (0 < size xs)%N -> all (fun x => size x == 2 ^ k)%N xs -> size tms = size xs ->
  (forall tm, List.In tm tms -> size (tm_row tm) = (2 ^ k)%N /\ size (tm_col tm) = (2 ^ k)%N) ->
  batch_toeplitz_new fr_params xs up = Ret bt ->
  (forall j, (j < 2 ^ k.+1)%N ->
     msm_runs me up (column_points fr_params k xs j) (column_scalars fr_params k tms j)) ->
  sum_matrix_vector_mul me bt tms =
  Ret (mkseq (fun a => \sum_(i < size xs) \sum_(b < 2 ^ k)
                         T (nth tm0 tms i) a b *: (nth [::] xs i)`_b) (2 ^ k)).
Proof.
move=> x0 Hx St Ht Hbt Hm; rewrite (sum_matrix_vector_mulE fr_ok Hk x0 Hx St Ht Hbt Hm).
congr Ret; apply: eq_map => a; rewrite (big_nth (tm0, [::])) size_zip St minnn big_mkord.
by apply: eq_bigr => i _; rewrite nth_zip.
Qed.

(** Without tables there is no condition. *)
Theorem C34_sum_matrix_vector_mul (xs : seq (seq V)) (tms : seq (toeplitz_matrix Fr)) :
  (0 < size xs)%N -> all (fun x => size x == 2 ^ k)%N xs -> size tms = size xs ->
  (forall tm, List.In tm tms -> size (tm_row tm) = (2 ^ k)%N /\ size (tm_col tm) = (2 ^ k)%N) ->
  (olet bt := batch_toeplitz_new fr_params xs PrecompNo in sum_matrix_vector_mul me bt tms) =
  Ret (mkseq (fun a => \sum_(i < size xs) \sum_(b < 2 ^ k)
                         T (nth tm0 tms i) a b *: (nth [::] xs i)`_b) (2 ^ k)).
Proof.
move=> x0 Hx St Ht.
have [bt Hbt] : exists bt, batch_toeplitz_new fr_params xs PrecompNo = Ret bt.
  rewrite (batch_toeplitz_newE fr_ok Hk) //; set cols := mkseq _ _.
  have [t ->] : exists t, omapM (fun v => fixed_base_msm_new v PrecompNo) cols = Ret t.
    by exists (map (@FBNoPrecomp _ _) cols); apply: omapM_Ret.
  by eexists.
rewrite Hbt obind_Ret; apply: (C34_sum_matrix_vector_mul_msm x0 Hx St Ht Hbt) => j _.
exact: msm_runs_no.
Qed.
End C34.
Print Assumptions C34_sum_matrix_vector_mul_msm.
Print Assumptions C34_sum_matrix_vector_mul.

Theorem C34_transpose_twice (A : Type) (rows cols : nat) (v : seq (seq A)) :
  (0 < rows)%N -> (0 < cols)%N -> size v = rows -> all (fun r => size r == cols) v ->
  (olet t := transpose v in transpose t) = Ret v.
Proof.
move=> r0 c0 Sv Hv.
have [x0 Hx] : exists x0 : A, True.
  case: v Sv Hv => [|[|x r] v] /= Sv Hv; [by rewrite -Sv in r0 | | by exists x].
  by case/andP: Hv => /eqP E; rewrite -E in c0.
rewrite (transposeE x0 c0) ?Sv // obind_Ret (transposeE x0 (c := rows)) //; last 2 first.
- by rewrite size_mkseq.
- by rewrite all_map; apply/allP => j _ /=; rewrite size_map Sv.
congr Ret; apply: (@eq_from_nth _ [::]); rewrite size_mkseq ?Sv // => i Hi.
rewrite nth_mkseq // -map_comp.
have Hr : size (nth [::] v i) = cols by apply/eqP/(all_nthP [::] Hv); rewrite Sv.
apply: (@eq_from_nth _ x0); rewrite size_map size_iota ?Hr // => j Hj.
rewrite (nth_map 0%N) ?size_iota // nth_iota //= (nth_map [::]) ?Sv //.
Qed.
Print Assumptions C34_transpose_twice.

(** ** C35 *)

Section C35.
(** A domain of size 2^d made of cells of size 2^l. *)
Variables (d l : nat).
Hypothesis Hl : (l <= d)%N.
Hypothesis Hd : (d < 32)%N.

(** When an index is given more than once the last cell counts. *)
Theorem C35_regroup (idx : seq nat) (cells : seq (seq Fr)) :
  (0 < size idx)%N -> size idx = size cells -> all (fun i => i < 2 ^ (d - l))%N idx ->
  all (fun c => size c == 2 ^ l)%N cells ->
  exists2 e, recover_evaluations_in_domain_order (2 ^ d) idx cells =
             Ret (Some (map (bitrev (d - l)) idx, e)) &
  [/\ size e = (2 ^ d)%N,
      forall t j, (t < size idx)%N -> (j < 2 ^ l)%N -> nth 0%N idx t \notin drop t.+1 idx ->
        e`_(bitrev d (nth 0%N idx t * 2 ^ l + j)) = (nth [::] cells t)`_j &
      forall k j, (k < 2 ^ (d - l))%N -> (j < 2 ^ l)%N -> k \notin idx ->
        e`_(bitrev d (k * 2 ^ l + j)) = 0].
Proof.
move=> i0 Si Hi Hc; have [e E [Se He]] := recover_evaluationsE Hl Hd i0 Si Hi Hc.
exists e => //; split=> // [t j Ht Hj Hn|k j Hk Hj Hn].
  by rewrite He ?(all_nthP 0%N Hi) ?cell_of_nth.
by rewrite He // cell_of_notin // nth_nseq Hj.
Qed.

(** The positions of cell k are those congruent to the bit reversal of k. *)
Theorem C35_positions (k x : nat) : (k < 2 ^ (d - l))%N -> (x < 2 ^ d)%N ->
  (exists2 j, (j < 2 ^ l)%N & x = bitrev d (k * 2 ^ l + j)) <->
  (x %% 2 ^ (d - l))%N = bitrev (d - l) k.
Proof.
move=> Hk Hx; split.
  by case=> j Hj ->; rewrite bitrev_cell_pos // modnMDl modn_small // bitrev_lt.
move=> E; have Hj : (x %/ 2 ^ (d - l) < 2 ^ l)%N by rewrite ltn_divLR ?expn_gt0 // -expnD subnKC.
exists (bitrev l (x %/ 2 ^ (d - l))); first exact: bitrev_lt.
by rewrite bitrev_cell_pos ?bitrev_lt // bitrev_inv // -E -divn_eq.
Qed.

Theorem C35_none (idx : seq nat) (cells : seq (seq Fr)) :
  size idx = size cells -> all (fun c => 0 < size c)%N cells ->
  recover_evaluations_in_domain_order (2 ^ d) idx cells = Ret None <->
  [\/ size idx = 0%N,
      ~~ all (fun c => size c == size (head [::] cells)) cells |
      ~~ all (fun i => i < 2 ^ d %/ size (head [::] cells))%N idx].
Proof.
move=> Sc H0; split; last first.
  by move=> H; apply: recover_evaluations_none => //; case: H => [->|->|->]; rewrite ?orbT.
rewrite /recover_evaluations_in_domain_order Sc eqxx /oassert.
case: idx Sc => [|i idx]; case: cells H0 => [|c cells] // H0 Sc; try by constructor 1.
have -> : size c != 0%N by case/andP: H0; rewrite -lt0n.
case: ifP => [H _|_]; first by constructor 2.
case: ifP => [H _|_]; first by constructor 3.
case: (ofor _ _ _) => // a; rewrite obind_Ret; case: (reverse_bit_order _) => // b; rewrite obind_Ret.
by case: (log2 _).
Qed.
End C35.
Print Assumptions C35_regroup.
Print Assumptions C35_positions.
Print Assumptions C35_none.

(** ** C44 *)

Section C44.
(** A setup of 2^(l+c) points, cells of size 2^l, an extension by the factor 2^e. *)
Variables (V : lmodType Fr) (me : msm_env V) (l c e : nat).
Hypothesis Hc : (2 <= c)%N.
Hypothesis Hn : (l + c + e < 32)%N.

Let HA : (l + c + e <= fp_adicity fr_params)%N. Proof. exact: ltnW. Qed.
Let HcA : (c < fp_adicity fr_params)%N.
Proof. by apply: leq_ltn_trans Hn; rewrite -addnA addnCA leq_addr. Qed.

(** The FK20 prover computes, for coset k, the commitment to the quotient of f by X^L - h_k^L and
    the evaluations of f on the coset, in bit-reversed order; w is the generator of the evaluation
    domain and the coset k is { w^(bitrev(kL + j)) | j < L }. *)
Let w (n : nat) : Fr := fp_root fr_params ^+ (2 ^ (32 - n)).
Let proofs (srs : seq V) (f : {poly Fr}) : seq V :=
  mkseq (fun k => commit srs (f %/ ('X^(2 ^ l) - (w (c + e) ^+ bitrev (c + e) k)%:P))) (2 ^ (c + e)).
Let evals (f : {poly Fr}) : seq (seq Fr) :=
  mkseq (fun k => mkseq (fun j =>
    f.[w (l + c + e) ^+ bitrev (l + c + e) (k * 2 ^ l + j)]) (2 ^ l)) (2 ^ (c + e)).

Theorem C44_naive (srs : seq V) (poly : seq Fr) :
  size poly = (2 ^ (l + c))%N -> (2 ^ (l + c) <= size srs)%N ->
  open_multi_point fr_params srs poly (2 ^ l) (2 ^ (l + c + e)) =
  Ret (proofs srs (Poly poly), evals (Poly poly)).
Proof. by move=> Sp Ss; rewrite (open_multi_pointE fr_ok Hc HA Hn HcA Sp Ss). Qed.

(** With tables, under the hypothesis that the multi-scalar multiplications made are exact (C21). *)
Theorem C44_fk20_msm up (srs : seq V) (poly : seq Fr) : precomp_width_ok up ->
  size poly = (2 ^ (l + c))%N -> size srs = (2 ^ (l + c))%N ->
  fk20_msm_ok fr_params me l c up srs poly ->
  (olet pr := fk20_prover_new fr_params srs (2 ^ (l + c)) (2 ^ l) (2 ^ (l + c + e)) up in
   compute_multi_opening_proofs me pr (InputPolyCoeff poly)) =
  open_multi_point fr_params srs poly (2 ^ l) (2 ^ (l + c + e)).
Proof.
move=> Hup Sp Ss Hm; rewrite C44_naive ?Ss // (fk20_prover_newE fr_ok Hc HA Hn HcA _ Ss).
have [bt Hbt] := batch_toeplitz_new_srs fr_ok l HcA srs Hup.
by rewrite Hbt /compute_multi_opening_proofs !obind_Ret (multi_opening_coeffE fr_ok Hc HA Hn HcA Ss Sp Hbt Hm).
Qed.

Theorem C44_fk20 (srs : seq V) (poly : seq Fr) :
  size poly = (2 ^ (l + c))%N -> size srs = (2 ^ (l + c))%N ->
  (olet pr := fk20_prover_new fr_params srs (2 ^ (l + c)) (2 ^ l) (2 ^ (l + c + e)) PrecompNo in
   compute_multi_opening_proofs me pr (InputPolyCoeff poly)) =
  open_multi_point fr_params srs poly (2 ^ l) (2 ^ (l + c + e)).
Proof. by move=> Sp Ss; apply: C44_fk20_msm => // j _; apply: msm_runs_no. Qed.

(** [num_proofs] is the number of proofs, and of cosets, that the prover returns. *)
Theorem C44_num_proofs (srs : seq V) (poly : seq Fr) pr ps es :
  size poly = (2 ^ (l + c))%N -> size srs = (2 ^ (l + c))%N ->
  fk20_prover_new fr_params srs (2 ^ (l + c)) (2 ^ l) (2 ^ (l + c + e)) PrecompNo = Ret pr ->
  compute_multi_opening_proofs me pr (InputPolyCoeff poly) = Ret (ps, es) ->
  size ps = fk20_num_proofs pr /\ size es = fk20_num_proofs pr.
Proof.
move=> Sp Ss Epr; have := C44_fk20 Sp Ss; rewrite Epr obind_Ret => ->.
rewrite C44_naive ?Ss // => -[<- <-]; rewrite /proofs /evals !size_mkseq.
move: Epr; rewrite (fk20_prover_newE fr_ok Hc HA Hn HcA _ Ss).
have [bt ->] := batch_toeplitz_new_srs fr_ok l HcA srs (up := PrecompNo) isT.
rewrite obind_Ret => -[<-]; rewrite /fk20_num_proofs /=.
by rewrite -addnA (expnD 2 l) mulKn ?expn_gt0.
Qed.
End C44.
Print Assumptions C44_num_proofs.
Print Assumptions C44_naive.
Print Assumptions C44_fk20_msm.
Print Assumptions C44_fk20.

(** ** C45 *)

(** [FK20Prover::new] accepts a commit key with more points than [polynomial_bound]; the proofs it
    then returns are not the right ones. *)
Definition C45_srs : seq [lmodType Fr of Fr^o] := srs_of (@of_Z rZ 5 : Fr) 1 8.
Definition C45_poly : seq Fr := map (@of_Z rZ) [:: 1; 2; 3; 4]%Z.
Definition first_proof (x : outcome (seq [lmodType Fr of Fr^o] * seq (seq Fr))) : option Z :=
  if x is Ret (p :: _, _) then Some (zval (p := rZ) p) else None.

Lemma C45_check me :
  first_proof (olet pr := fk20_prover_new fr_params C45_srs 4 1 8 PrecompNo in
    compute_multi_opening_proofs me pr (InputPolyCoeff C45_poly)) = Some 259874%Z /\
  first_proof (open_multi_point fr_params C45_srs C45_poly 1 8) = Some 144%Z.
Proof. by split; vm_compute. Qed.

Lemma differ_aux (P : Type) (new : outcome P) (run : P -> outcome _) naive z1 z2 :
  z1 <> z2 -> first_proof (obind new run) = Some z1 -> first_proof naive = Some z2 ->
  exists pr proofs evals, [/\ new = Ret pr, run pr = Ret (proofs, evals) & naive <> Ret (proofs, evals)].
Proof.
move=> Hz; case: new => [pr|] //=; case E: (run pr) => [[ps es]|] // H H0.
exists pr, ps, es; split=> // En; apply: Hz; move: H0 H; rewrite En => -> [].
by move/esym.
Qed.

Theorem C45_long_commit_key_refuted (me : msm_env [lmodType Fr of Fr^o]) :
  exists (srs : seq [lmodType Fr of Fr^o]) (poly : seq Fr) pr proofs evals,
  [/\ (size poly < size srs)%N,
      fk20_prover_new fr_params srs (size poly) 1 8 PrecompNo = Ret pr,
      compute_multi_opening_proofs me pr (InputPolyCoeff poly) = Ret (proofs, evals) &
      open_multi_point fr_params srs poly 1 8 <> Ret (proofs, evals)].
Proof.
have [H1 H2] := C45_check me.
have Hz : 259874%Z <> 144%Z by [].
have [pr [ps [es [E1 E2 E3]]]] := differ_aux Hz H1 H2.
exists C45_srs, C45_poly, pr, ps, es.
exact: (And4 isT E1 E2 E3).
Qed.
Print Assumptions C45_long_commit_key_refuted.
