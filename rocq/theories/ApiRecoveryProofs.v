(** The recovery call in terms of polynomials. *)

From Coq Require Import NArith Init.Byte Strings.Byte.
From mathcomp Require Import ssreflect ssrfun ssrbool eqtype ssrnat seq div prime fintype bigop.
From mathcomp Require Import ssralg poly polydiv zify_ssreflect.
From Verif Require Import Base Bytes Spec SpecKZG SpecDAS BitRev BitRevProofs FFT FFTProofs.
From Verif Require Import Domain DomainProofs PolyCoeff PolyCoeffProofs ReedSolomon.
From Verif Require Import ReedSolomonProofs Lincomb LincombProofs FixedBaseMSM Cosets CosetsProofs.
From Verif Require Import Toeplitz ToeplitzProofs FK20Prover FK20ProverProofs FK20Verifier.
From Verif Require Import FK20VerifierProofs VerifierSoundness TranscriptProofs.
From Verif Require Import Eip7594 Eip7594Proofs ApiProofs.

Set Implicit Arguments.
Unset Strict Implicit.
Unset Printing Implicit Defensive.

Import GRing.Theory.
Local Open Scope ring_scope.

Lemma undup_size_uniq (T : eqType) (s : seq T) : (size (undup s) == size s) = uniq s.
Proof.
apply/idP/idP => [|/undup_id->//].
elim: s => [|x s IH] //=; case: ifP => [_ /eqP E|_ /=]; last by rewrite eqSS => /IH.
by have := size_undup s; rewrite E ltnn.
Qed.

Lemma of_nat_exp2 k : N.of_nat (2 ^ k) = (2 ^ N.of_nat k)%num.
Proof.
elim: k => [|k IH] //; rewrite expnS [LHS](Nat2N.inj_mul 2 (2 ^ k)) IH.
by rewrite [in RHS]Nat2N.inj_succ [RHS]N.pow_succ_r'.
Qed.

(** The index is below 2^m. *)
Definition index_lt (m : nat) (i : BinNums.N) : bool := (i <? 2 ^ N.of_nat m)%num.

Lemma index_ltE m i : index_lt m i = (N.to_nat i < 2 ^ m)%N.
Proof. by rewrite /index_lt -of_nat_exp2; apply/N.ltb_spec0/ltP; lia. Qed.

(** The head of a filtered list is the first element that satisfies the predicate. *)
Lemma filter_head (T : Type) (P : pred T) (x0 : T) (s : seq T) :
  match [seq x <- s | P x] with
  | [::] => forall i, (i < size s)%N -> ~~ P (nth x0 s i)
  | x :: _ => exists2 i, (i < size s)%N &
      [/\ x = nth x0 s i, P x & forall j, (j < i)%N -> ~~ P (nth x0 s j)]
  end.
Proof.
elim: s => [|x s IH] //=; case H: (P x) => /=; first by exists 0%N.
case: [seq _ <- _ | _] IH => [|y r] IH; first by case=> [|i] //=; [rewrite H | apply: IH].
by case: IH => i Hi [-> Py Hj]; exists i.+1 => //; split=> // -[|j] //= Hji; [rewrite H | apply: Hj].
Qed.

Section Recovery.
Variables (F : fieldType) (fp : fparams F) (ok : fp_ok fp).
Variables (l c e : nat).
Hypothesis Had : (l + c + e <= fp_adicity fp)%N.
Hypothesis H32 : (l + c + e < 32)%N.
Hypothesis g0 : fp_mulgen fp != 0.
Hypothesis gN : fp_mulgen fp ^+ (2 ^ (l + c + e)) != 1.

Local Notation K := (MkConsts (2 ^ l) (2 ^ (l + c)) (2 ^ e)).
Local Notation L := (2 ^ l)%N.
Local Notation N := (2 ^ (l + c))%N.
Local Notation n := (l + c + e)%N.
Local Notation m := (c + e)%N.
Local Notation w := (omega fp n).

Let Hn : n = (l + m)%N.
Proof. by rewrite addnA. Qed.
Let Hnl : (n - l = m)%N.
Proof. by rewrite Hn addKn. Qed.
Let Hln : (l <= n)%N.
Proof. by rewrite Hn leq_addr. Qed.
Let Hmn : (m <= n)%N.
Proof. by rewrite Hn leq_addl. Qed.

Variables (idx : seq BinNums.N) (evals : seq (seq F)).
Hypothesis Se : size evals = size idx.
Hypothesis Hidx : all (fun i => (N.to_nat i < 2 ^ m)%N) idx.
Hypothesis Hu : uniq idx.
Hypothesis Hs : (2 ^ c <= size idx)%N.
Hypothesis Hev : all (fun x => size x == L) evals.

Local Notation ix t := (N.to_nat (nth 0%num idx t)).
Local Notation nidx := ([seq N.to_nat i | i <- idx]).

Definition agrees_all (f : {poly F}) : Prop :=
  forall t, (t < size idx)%N -> agrees_on_cell w n l (ix t) (nth [::] evals t) f.

Lemma nidx_uniq : uniq nidx.
Proof. by rewrite map_inj_uniq //; exact: N2Nat.inj. Qed.

Definition missing := [seq i <- iota 0 (2 ^ m) | i \notin [seq bitrev m i | i <- nidx]].

Lemma nidx_lt k : k \in nidx -> (k < 2 ^ m)%N.
Proof. by move=> /mapP[i Hi ->]; exact: (allP Hidx). Qed.

Lemma missing_lt : all (fun i => (i < 2 ^ m)%N) missing.
Proof. by apply/allP => i; rewrite mem_filter mem_iota add0n => /andP[_]. Qed.

Lemma size_missing : (size missing <= rs_max (l + c) e m)%N.
Proof.
have E : (size missing + size idx = 2 ^ m)%N.
  pose br := [seq bitrev m i | i <- nidx].
  have Ub : uniq br.
    rewrite map_inj_in_uniq ?nidx_uniq // => i j Hi Hj; apply: bitrev_inj; exact: nidx_lt.
  have P : perm_eq br [seq i <- iota 0 (2 ^ m) | i \in br].
    apply: uniq_perm => //; first by rewrite filter_uniq ?iota_uniq.
    move=> i; rewrite mem_filter mem_iota add0n; case: (boolP (i \in br)) => //= /mapP[k Hk ->].
    by rewrite bitrev_lt.
  have := count_predC (fun i => i \in br) (iota 0 (2 ^ m)); rewrite size_iota -size_filter.
  by rewrite -(perm_size P) !size_map -size_filter addnC.
have -> : rs_max (l + c) e m = (2 ^ m - 2 ^ m %/ 2 ^ e)%N.
  by apply: (@rs_max_div _ fp) => //; lia.
have -> : (2 ^ m %/ 2 ^ e = 2 ^ c)%N by rewrite expnD mulnK // expn_gt0.
by rewrite -E; lia.
Qed.

Lemma rs_agrees_cells data f :
  (forall k j, (k < 2 ^ (n - l))%N -> (j < L)%N ->
     data`_(bitrev n (k * L + j)) = (cell_of L (zip nidx evals) k)`_j) ->
  rs_agrees fp (l + c) e m missing data f <-> agrees_all f.
Proof.
move=> Hd; split=> [H t Ht j Hj|H i Hi Hmis].
- have Hk : ix t \in nidx by apply: map_f; rewrite mem_nth.
  have := nidx_lt Hk => Hk'.
  rewrite /cell_point H; last first.
  + rewrite (bitrev_cell_pos Hln) // Hnl modnMDl modn_small ?bitrev_lt //.
    by rewrite mem_filter map_f.
  + exact: bitrev_lt.
  rewrite Hd ?Hnl //.
  have E : ix t = nth 0%N nidx t by rewrite (nth_map 0%num).
  rewrite {1}E cell_of_nth ?size_map //.
  have /(nth_uniq 0%N) := nidx_uniq; rewrite size_map => U.
  apply/negP => /(nthP 0%N)[q]; rewrite size_drop size_map nth_drop => Hq /eqP.
  by rewrite U //; lia.
pose k := bitrev m (i %% 2 ^ m); pose j := bitrev l (i %/ 2 ^ m).
have Hi' : (i < 2 ^ l * 2 ^ m)%N by rewrite -expnD -Hn.
have Hq : (i %/ 2 ^ m < 2 ^ l)%N by rewrite ltn_divLR ?expn_gt0.
have Hr : (i %% 2 ^ m < 2 ^ m)%N by rewrite ltn_mod expn_gt0.
have Ei : i = bitrev n (k * L + j).
  rewrite (bitrev_cell_pos Hln) ?bitrev_lt // Hnl !bitrev_inv //.
  exact: divn_eq.
have Hk : k \in nidx.
  move: Hmis; rewrite mem_filter mem_iota add0n Hr leq0n !andbT negbK => /mapP[k' Hk' E].
  by rewrite /k E bitrev_inv // nidx_lt.
have [t Ht Et] := nthP 0%N Hk; rewrite size_map in Ht.
have E : ix t = k by rewrite -Et (nth_map 0%num).
rewrite {2}Ei Hd ?Hnl ?bitrev_lt // -Et cell_of_nth ?size_map //; last first.
  have /(nth_uniq 0%N) := nidx_uniq; rewrite size_map => U.
  apply/negP => /(nthP 0%N)[q]; rewrite size_drop size_map nth_drop => Hq' /eqP.
  by rewrite U //; lia.
by rewrite -H ?bitrev_lt // /cell_point E -Ei.
Qed.

Let Hb : (m <= l + c + e)%N := Hmn.

(** Recovery after validation and decoding. *)
Lemma recover_decoded :
  (olet r := recover_evaluations_in_domain_order (2 ^ n) nidx evals in
   olet p := ounwrap r in
   let: (cin, flat) := p in
   rlift (fun e => ERecovery (RecoveryReedSolomon e))
     (recover_polynomial_coefficient (mkrs fp (l + c) e m) flat
        [seq i <- iota 0 (2 ^ m) | i \notin cin])) =
    Ret (Err (ERecovery (RecoveryReedSolomon (PolynomialHasInvalidLength (2 ^ n) N)))) /\
    (forall f : {poly F}, (size f <= N)%N -> ~ agrees_all f)
  \/ exists2 p,
  (olet r := recover_evaluations_in_domain_order (2 ^ n) nidx evals in
   olet p := ounwrap r in
   let: (cin, flat) := p in
   rlift (fun e => ERecovery (RecoveryReedSolomon e))
     (recover_polynomial_coefficient (mkrs fp (l + c) e m) flat
        [seq i <- iota 0 (2 ^ m) | i \notin cin])) = Ret (Ok p) &
    size p = N /\ agrees_all (Poly p).
Proof.
have S0 : (0 < size nidx)%N by rewrite size_map (leq_trans _ Hs) // expn_gt0.
have Hall : all (fun i => (i < 2 ^ (n - l))%N) nidx by rewrite Hnl all_map.
have [|data -> [Sd Hd]] := recover_evaluationsE Hln H32 S0 _ Hall Hev; first by rewrite size_map.
rewrite obind_Ret /= Hnl -/missing.
have [[p -> [Sp Ap]]|[-> H]] :=
  rs_recover_exact ok Had Hb g0 gN missing_lt size_missing data.
  by right; exists p => //; split=> //; exact: (proj1 (rs_agrees_cells _ Hd) Ap).
by left; split=> // f Sf /(proj2 (rs_agrees_cells f Hd)); exact: H.
Qed.

(** Enough cells determine the polynomial. *)
Lemma agrees_all_unique (f g : {poly F}) : (size f <= N)%N -> (size g <= N)%N ->
  agrees_all f -> agrees_all g -> f = g.
Proof.
have S0 : (0 < size nidx)%N by rewrite size_map (leq_trans _ Hs) // expn_gt0.
have Hall : all (fun i => (i < 2 ^ (n - l))%N) nidx by rewrite Hnl all_map.
have [|data _ [Sd Hd]] := recover_evaluationsE Hln H32 S0 _ Hall Hev; first by rewrite size_map.
move=> Sf Sg /(proj2 (rs_agrees_cells f Hd)) Af /(proj2 (rs_agrees_cells g Hd)) Ag.
exact: (rs_agrees_unique ok Had Hb g0 gN missing_lt size_missing Sf Sg Af Ag).
Qed.

End Recovery.

Section RecoverCall.
Variables (F : fieldType) (G1 G2 GT : lmodType F) (fp : fparams F) (ok : fp_ok fp).
Variables (env : das_env G1 G2 GT) (eok : env_ok env).
Variables (l c e : nat).
Hypothesis Hc : (2 <= c)%N.
Hypothesis Had : (l + c + e <= fp_adicity fp)%N.
Hypothesis H32 : (l + c + e < 32)%N.
Hypothesis Hcad : (c < fp_adicity fp)%N.
Hypothesis g0 : fp_mulgen fp != 0.
Hypothesis gN : fp_mulgen fp ^+ (2 ^ (l + c + e)) != 1.

Local Notation K := (MkConsts (2 ^ l) (2 ^ (l + c)) (2 ^ e)).
Local Notation L := (2 ^ l)%N.
Local Notation N := (2 ^ (l + c))%N.
Local Notation n := (l + c + e)%N.
Local Notation m := (c + e)%N.
Local Notation w := (omega fp n).
Local Notation tob := (te_scalar_to_bytes_be (de_te env)).
Local Notation ofb := (de_scalar_from_bytes_be env).

(** Decoding cells. *)
Lemma cells_cases cells : all (fun x => size x == (L * 32)%N) cells ->
  (exists2 evals, deserialize_cells env cells = Ret (Ok evals) &
     [/\ size evals = size cells, all (fun x => size x == L) evals &
      forall t, (t < size cells)%N -> encodes env (nth [::] cells t) (nth [::] evals t)]) \/
  (exists t i, [/\ (t < size cells)%N, (i < L)%N, ~~ chunk_ok env (nth [::] cells t) i,
      forall j, (j < i)%N -> chunk_ok env (nth [::] cells t) j &
      forall t' j, (t' < t)%N -> (j < L)%N -> chunk_ok env (nth [::] cells t') j] /\
    deserialize_cells env cells =
      Ret (Err (CouldNotDeserializeScalar (chunk (nth [::] cells t) i)))).
Proof.
move=> Sc.
have Sc' t : (t < size cells)%N -> size (nth [::] cells t) = (L * 32)%N.
  by move=> Ht; apply/eqP; exact: (all_nthP [::] Sc).
pose good t := all (chunk_ok env (nth [::] cells t)) (iota 0 L).
have goodP t : good t -> forall j, (j < L)%N -> chunk_ok env (nth [::] cells t) j.
  by move=> /allP H j Hj; apply: H; rewrite mem_iota.
case: (first_fail good (size cells)) => [H|[t Ht [Hbad Hgood]]].
- left.
  have D t : (t < size cells)%N -> exists xs, deserialize_bytes_to_scalars env (nth [::] cells t) = Ret (Ok xs).
    by move=> Ht; have [xs E _] := deserialize_scalars_ok eok (Sc' t Ht) (goodP t (H t Ht)); exists xs.
  pose dec x := if deserialize_bytes_to_scalars env x is Ret (Ok xs) then xs else [::].
  have Hd t : (t < size cells)%N ->
    deserialize_bytes_to_scalars env (nth [::] cells t) = Ret (Ok (dec (nth [::] cells t))) /\
    size (dec (nth [::] cells t)) = L /\ encodes env (nth [::] cells t) (dec (nth [::] cells t)).
    move=> Ht; have [xs E [Sx He]] := deserialize_scalars_ok eok (Sc' t Ht) (goodP t (H t Ht)).
    by rewrite /dec E.
  exists (map dec cells).
    apply: (@ormapM_Ok _ _ _ [::] [::]); first by rewrite size_map.
    by move=> t Ht; rewrite (nth_map [::]) //; exact: (proj1 (Hd t Ht)).
  split; first by rewrite size_map.
    rewrite all_map; apply/(all_nthP [::]) => t Ht /=; have [_ [-> _]] := Hd t Ht; exact: eqxx.
  by move=> t Ht; rewrite (nth_map [::]) //; have [_ []] := Hd t Ht.
right; case: (first_fail (chunk_ok env (nth [::] cells t)) L) => [H|[i Hi [Bi Gi]]].
  by case/negP: Hbad; apply/allP => j; rewrite mem_iota add0n => /andP[_]; exact: H.
exists t, i; split.
  by split=> // t' j Ht'; apply: goodP; apply: Hgood.
apply: (@ormapM_Err _ _ _ [::] [::] _ _ _ t) => //.
  exact: (deserialize_scalars_err (Sc' t Ht) Hi Bi Gi).
move=> t' Ht'; have H' := ltn_trans Ht' Ht.
by have [xs E _] := deserialize_scalars_ok eok (Sc' t' H') (goodP t' (Hgood t' Ht')); exists xs.
Qed.

Variables (g1s : seq G1) (g2s : seq G2).
Hypothesis Sg1 : size g1s = N.
Variables (up : use_precomp) (bt : batch_toeplitz G1).
Hypothesis Hbt : batch_toeplitz_new fp (srs_vectors l c g1s) up = Ret bt.
Local Notation ctx := (mkctx fp l c e g1s g2s bt).

Variables (idx : seq BinNums.N) (cells : seq (seq byte)).
Hypothesis Sc : all (fun x => size x == (L * 32)%N) cells.
Local Notation R := (recover_cells_and_kzg_proofs env K ctx idx cells).
Local Notation max := (2 ^ N.of_nat m)%num.
Local Notation in_range := (index_lt m).

Lemma maxE : N.of_nat (2 ^ m) = max.
Proof. exact: of_nat_exp2. Qed.

Lemma in_rangeE i : in_range i = (N.to_nat i < 2 ^ m)%N.
Proof. exact: index_ltE. Qed.

Lemma out_of_range i : N.leb max i = ~~ in_range i.
Proof. by rewrite /index_lt N.ltb_antisym negbK. Qed.

Lemma recover_len : size idx <> size cells ->
  R = Ret (Err (ERecovery (NumCellIndicesNotEqualToNumCells (size idx) (size cells)))).
Proof.
move=> /eqP ne; rewrite /recover_cells_and_kzg_proofs /recover_polynomial_coeff /validate_recover.
by rewrite ne.
Qed.

Lemma recover_range i : size idx = size cells -> (i < size idx)%N ->
  ~~ in_range (nth 0%num idx i) -> (forall j, (j < i)%N -> in_range (nth 0%num idx j)) ->
  R = Ret (Err (ERecovery (RecoveryCellIndexOutOfRange (nth 0%num idx i) max))).
Proof.
move=> Sz Hi Bi Gi.
rewrite /recover_cells_and_kzg_proofs /recover_polynomial_coeff /validate_recover Sz eqxx CELLSE maxE /=.
have := filter_head (N.leb max) 0%num idx.
case: [seq _ <- idx | _] => [|x s]; first by move=> /(_ i Hi); rewrite out_of_range Bi.
case=> i' Hi' [Ex Px Hx].
suff -> : i = i' by rewrite Ex.
case: (ltngtP i i') => // H; first by have := Hx i H; rewrite out_of_range Bi.
by move: Px; rewrite Ex out_of_range Gi.
Qed.

Lemma validate_in_range : size idx = size cells -> all in_range idx ->
  validate_recover K idx cells =
  Ret (if ~~ uniq idx then Err CellIndicesNotUnique else
       if (size idx < 2 ^ c)%N then Err (NotEnoughCellsToReconstruct (size idx) (2 ^ c)) else Ok tt).
Proof.
move=> Sz Hr; rewrite /validate_recover Sz eqxx CELLSE maxE /=.
have := filter_head (N.leb max) 0%num idx.
case: [seq _ <- idx | _] => [_|x s [i Hi [Ex]]]; last first.
  by rewrite Ex out_of_range => /negP[]; exact: (all_nthP 0%num Hr).
rewrite /oassert /BYTES_PER_CELL /= Sc expn_eq0 /= /are_cell_indices_unique undup_size_uniq.
case U: (uniq idx) => //=.
have -> : (2 ^ m %/ 2 ^ e = 2 ^ c)%N by rewrite expnD mulnK // expn_gt0.
rewrite -Sz; case: ifP => // _.
suff -> : (2 ^ m < size idx)%N = false by [].
apply/negbTE; rewrite -leqNgt.
have U' : uniq [seq N.to_nat i | i <- idx] by rewrite map_inj_uniq //; exact: N2Nat.inj.
have := @uniq_leq_size _ _ (iota 0 (2 ^ m)) U'; rewrite size_map size_iota; apply.
by move=> k /mapP[i Hi ->]; rewrite mem_iota add0n -in_rangeE; exact: (allP Hr).
Qed.

Lemma recover_dup : size idx = size cells -> all in_range idx -> ~~ uniq idx ->
  R = Ret (Err (ERecovery CellIndicesNotUnique)).
Proof.
move=> Sz Hr U; rewrite /recover_cells_and_kzg_proofs /recover_polynomial_coeff.
by rewrite validate_in_range // U.
Qed.

Lemma recover_few : size idx = size cells -> all in_range idx -> uniq idx -> (size idx < 2 ^ c)%N ->
  R = Ret (Err (ERecovery (NotEnoughCellsToReconstruct (size idx) (2 ^ c)))).
Proof.
move=> Sz Hr U Hs; rewrite /recover_cells_and_kzg_proofs /recover_polynomial_coeff.
by rewrite validate_in_range // U Hs.
Qed.

(** The input passes the checks on its shape. *)
Definition recover_shape : Prop :=
  [/\ size idx = size cells, all in_range idx, uniq idx & (2 ^ c <= size idx)%N].
Hypothesis shape : recover_shape.

Lemma recover_shapeE :
  R = rlet evals := rlift ESerialization (deserialize_cells env cells) in
      rlet p := (olet r := recover_evaluations_in_domain_order (2 ^ n) [seq N.to_nat i | i <- idx] evals in
                 olet p := ounwrap r in
                 let: (cin, flat) := p in
                 rlift (fun e => ERecovery (RecoveryReedSolomon e))
                  (recover_polynomial_coefficient (mkrs fp (l + c) e m) flat
                    [seq i <- iota 0 (2 ^ m) | i \notin cin])) in
      olet (proofs, coset_evaluations) :=
        compute_multi_opening_proofs_poly_coeff (de_me env) (pc_prover (dc_prover_ctx ctx)) p in
      olet out := serialize_cells_and_proofs env K coset_evaluations proofs in
      Ret (Ok out).
Proof.
case: shape => Sz Hr U Hs.
rewrite /recover_cells_and_kzg_proofs /recover_polynomial_coeff validate_in_range // U ltnNge Hs /=.
rewrite EXTE /find_missing_cell_indices CELLSE.
by case: deserialize_cells => [[evals|err]|].
Qed.

Lemma recover_bad_chunk t i :
  (t < size cells)%N -> (i < L)%N -> ~~ chunk_ok env (nth [::] cells t) i ->
  (forall j, (j < i)%N -> chunk_ok env (nth [::] cells t) j) ->
  (forall t' j, (t' < t)%N -> (j < L)%N -> chunk_ok env (nth [::] cells t') j) ->
  R = Ret (Err (ESerialization (CouldNotDeserializeScalar (chunk (nth [::] cells t) i)))).
Proof.
move=> Ht Hi Bi Gi Gt; rewrite recover_shapeE.
case: (cells_cases Sc) => [[evals _ [Se Sev He]]|[t' [i' [[Ht' Hi' Bi' Gi' Gt'] ->]]]].
  case/negP: Bi; apply: (chunk_ok_encodes eok (He t Ht)).
  by rewrite (eqP (all_nthP [::] Sev t _)) // Se.
have Et : t = t'.
  case: (ltngtP t t') => // H; first by move: (Gt' t i H Hi); rewrite (negbTE Bi).
  by move: (Gt t' i' H Hi'); rewrite (negbTE Bi').
rewrite -{}Et in Bi' Gi' Gt' Ht' *.
have -> // : i = i'.
case: (ltngtP i i') => // H; first by move: (Gi' i H); rewrite (negbTE Bi).
by move: (Gi i' H); rewrite (negbTE Bi').
Qed.

(** f takes the values that the supplied cells encode. *)
Definition cells_agree (f : {poly F}) : Prop :=
  forall t j, (t < size idx)%N -> (j < L)%N ->
    tob f.[cell_point w n l (N.to_nat (nth 0%num idx t)) j] = chunk (nth [::] cells t) j.

Lemma cells_agree_evals evals f : size evals = size cells -> all (fun x => size x == L) evals ->
  (forall t, (t < size cells)%N -> encodes env (nth [::] cells t) (nth [::] evals t)) ->
  cells_agree f <-> agrees_all fp l c e idx evals f.
Proof.
case: shape => Sz _ _ _ Se Sev He.
have Sx t : (t < size idx)%N -> size (nth [::] evals t) = L.
  by move=> Ht; apply/eqP; apply: (all_nthP [::] Sev); rewrite Se -Sz.
split=> H t; last first.
  by move=> j Ht Hj; rewrite H // He -?Sz // Sx.
by move=> Ht j Hj; apply: (tob_inj eok); rewrite H // He -?Sz // Sx.
Qed.

Lemma idx_lt : all (fun i => (N.to_nat i < 2 ^ m)%N) idx.
Proof. by case: shape => _ Hr _ _; rewrite -(eq_all in_rangeE). Qed.

Definition cells_canonical : Prop :=
  forall t j, (t < size cells)%N -> (j < L)%N -> chunk_ok env (nth [::] cells t) j.

Lemma recover_canonical : cells_canonical ->
  (R = Ret (Err (ERecovery (RecoveryReedSolomon (PolynomialHasInvalidLength (2 ^ n) N)))) /\
    (forall f : {poly F}, (size f <= N)%N -> ~ cells_agree f)) \/
  (exists2 p, size p = N & cells_agree (Poly p) /\
    (fk20_msm_ok fp (de_me env) l c up g1s p ->
     R = Ret (Ok (poly_output fp env l c e g1s (Poly p))))).
Proof.
move=> Hcan; rewrite recover_shapeE.
case: (cells_cases Sc) => [[evals -> [Se Sev He]]|[t [i [[Ht Hi Bi _ _] _]]]]; last first.
  by move: (Hcan t i Ht Hi); rewrite (negbTE Bi).
case: shape => Sz Hr U Hs.
have Se' : size evals = size idx by rewrite Se.
rewrite /rlift /= -/(rlift _ _).
have [[E H]|[p E [Sp Ap]]] := recover_decoded ok Had H32 g0 gN Se' idx_lt U Hs Sev.
  left; split; first by move: E; rewrite /= => ->.
  by move=> f Sf /(cells_agree_evals f Se Sev He); exact: H.
right; exists p => //; split; first by apply/(cells_agree_evals _ Se Sev He).
move=> Hm; move: E; rewrite /= => ->; exact: (prove_coeffs ok eok Hc Had H32 Hcad g2s Sg1 Hbt Sp Hm).
Qed.

Lemma cells_agree_unique (f g : {poly F}) : (size f <= N)%N -> (size g <= N)%N ->
  cells_agree f -> cells_agree g -> f = g.
Proof.
case: (shape) => Sz Hr U Hs Sf Sg Af Ag.
case: (cells_cases Sc) => [[evals _ [Se Sev He]]|[t [i [[Ht Hi Bi _ _] _]]]]; last first.
  by case/negP: Bi; rewrite /chunk_ok -(Af t i) ?Sz // (ofb_tob eok).
have Se' : size evals = size idx by rewrite Se.
apply: (agrees_all_unique ok Had H32 g0 gN Se' idx_lt U Hs Sev Sf Sg).
  exact: (proj1 (cells_agree_evals f Se Sev He) Af).
exact: (proj1 (cells_agree_evals g Se Sev He) Ag).
Qed.

Lemma cells_agree_canonical f : cells_agree f -> cells_canonical.
Proof.
case: shape => Sz _ _ _ Af t j Ht Hj.
by rewrite /chunk_ok -(Af t j) ?Sz // (ofb_tob eok).
Qed.

(** The output of a polynomial contains the cells it agrees with. *)
Lemma cells_agree_output f : cells_agree f ->
  forall t, (t < size idx)%N ->
    cell_bytes fp env l c e f (N.to_nat (nth 0%num idx t)) = nth [::] cells t.
Proof.
case: (shape) => Sz _ _ _ Af t Ht.
apply/esym/(encodes_flatten eok).
  rewrite size_coset_evals; apply/eqP; apply: (all_nthP [::] Sc); by rewrite -Sz.
move=> j; rewrite size_coset_evals => Hj; rewrite -Af // /coset_evals nth_mkseq //.
Qed.

End RecoverCall.
