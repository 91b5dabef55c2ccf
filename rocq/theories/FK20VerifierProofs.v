From Coq Require Import NArith Init.Byte Strings.Byte.
From mathcomp Require Import ssreflect ssrfun ssrbool eqtype ssrnat seq div prime fintype bigop.
From mathcomp Require Import ssralg poly zify_ssreflect.
From Verif Require Import Base Bytes Spec SpecKZG SpecDAS BitRev BitRevProofs FFT FFTProofs.
From Verif Require Import Domain DomainProofs PolyCoeff PolyCoeffProofs Lincomb LincombProofs.
From Verif Require Import Cosets CosetsProofs ToeplitzProofs FK20Verifier.

Set Implicit Arguments.
Unset Strict Implicit.
Unset Printing Implicit Defensive.

Import GRing.Theory.
Local Open Scope ring_scope.

Section Pairing.
Variables (F : fieldType) (G1 G2 GT : lmodType F) (pair : G1 -> G2 -> GT).
Hypothesis bil : bilinear pair.

Lemma pair0l H : pair 0 H = 0.
Proof. by rewrite -(scale0r 0) (pairZl bil) scale0r. Qed.
Lemma pairNl P H : pair (- P) H = - pair P H.
Proof. by rewrite -scaleN1r (pairZl bil) scaleN1r. Qed.
Lemma pairNr P H : pair P (- H) = - pair P H.
Proof. by rewrite -scaleN1r (pairZr bil) scaleN1r. Qed.
Lemma pairBl P Q H : pair (P - Q) H = pair P H - pair Q H.
Proof. by rewrite (pairDl bil) pairNl. Qed.
Lemma pairBr P H K : pair P (H - K) = pair P H - pair P K.
Proof. by rewrite (pairDr bil) pairNr. Qed.
Lemma pair_suml (I : Type) (r : seq I) (P : pred I) (f : I -> G1) H :
  pair (\sum_(i <- r | P i) f i) H = \sum_(i <- r | P i) pair (f i) H.
Proof.
by elim/big_rec2: _ => [|i x y _ <-]; [exact: pair0l | exact: (pairDl bil)].
Qed.
End Pairing.

Section Powers.
Variable F : fieldType.
Lemma compute_powersE (r : F) n : compute_powers r n = mkseq (fun k => r ^+ k) n.
Proof.
rewrite /compute_powers.
suff -> : foldl (fun (st : seq F * F) (_ : nat) => (rcons st.1 st.2, st.2 * r)) ([::], 1) (iota 0 n) =
          (mkseq (fun k => r ^+ k) n, r ^+ n) by [].
elim: n => [|n IH] //; rewrite -{1}(addn1 n) iotaD foldl_cat IH /=.
by rewrite -mkseqS exprSr.
Qed.
End Powers.

Lemma transcript_length_arith d u b x : (d + (8 + (8 + (8 + (8 + u * 48)))) + b * (8 + 8 + x * 32 + 48) =
  d + 8 + 8 + 8 + 8 + u * 48 + b * 8 + b * 8 + b * x * 32 + b * 48)%N.
Proof. nia. Qed.

Section Verifier.
Variables (F : fieldType) (G1 G2 GT : lmodType F) (fp : fparams F) (ok : fp_ok fp).
Variables (pair : G1 -> G2 -> GT) (te : transcript_env G1).
Hypothesis bil : bilinear pair.
(** 2^n points in 2^m cosets of 2^l points. *)
Variables (n l m : nat).
Hypothesis Hn : n = (l + m)%N.
Hypothesis Had : (n <= fp_adicity fp)%N.
Hypothesis H32 : (n < 32)%N.

Local Notation L := (2 ^ l)%N.
Local Notation w := (omega fp n).

Lemma cell_point_coset k j : (j < L)%N ->
  cell_point w n l k j = coset_rep w m k * omega fp l ^+ bitrev l j.
Proof.
move=> Hj; rewrite /cell_point /coset_rep.
rewrite (@omega_sub _ _ l m); last by rewrite -Hn.
rewrite -Hn -exprM -exprD; congr (_ ^+ _).
by rewrite Hn (addnC l m) bitrev_split // mulnC addnC.
Qed.

Lemma coset_rep_neq0 k : coset_rep w m k != 0.
Proof. by rewrite expf_neq0 // (omega_neq0 ok). Qed.

Lemma l_adicity : (l <= fp_adicity fp)%N.
Proof. by rewrite (leq_trans _ Had) // Hn leq_addr. Qed.

Lemma l_lt32 : (l < 32)%N.
Proof. by rewrite (leq_ltn_trans _ H32) // Hn leq_addr. Qed.

Lemma m_lt32 : (m < 32)%N.
Proof. by rewrite (leq_ltn_trans _ H32) // Hn leq_addl. Qed.

(** Interpolation on a cell. *)
Lemma cell_interpolation k (cell : seq F) : size cell = L ->
  exists2 p, (olet ev := reverse_bit_order cell in
     coset_ifft_scalars (mkdom fp l) ev (MkCosetFFT (coset_rep w m k) (coset_rep w m k)^-1)) = Ret p &
  size p = L /\ agrees_on_cell w n l k cell (Poly p).
Proof.
move=> Sc; rewrite (reverse_bit_order_mkseq 0 Sc l_lt32) obind_Ret.
have [p -> [Sp Hp]] := coset_ifft_scalars_interp ok l_adicity (mkseq (fun i => cell`_(bitrev l i)) L)
   (coset_rep_neq0 k).
exists p => //; split=> // j Hj.
by rewrite cell_point_coset // Hp ?bitrev_lt // nth_mkseq ?bitrev_lt // bitrev_inv.
Qed.

Lemma cell_interpolant_exists k (cell : seq F) : size cell = L ->
  exists2 f : {poly F}, (size f <= L)%N & agrees_on_cell w n l k cell f.
Proof.
move=> /(cell_interpolation k)[p _ [Sp Hp]]; exists (Poly p) => //.
by rewrite -Sp size_Poly.
Qed.

Lemma cell_points_uniq k : uniq (mkseq (cell_point w n l k) L).
Proof.
rewrite map_inj_in_uniq ?iota_uniq // => i j.
rewrite !mem_iota !add0n => /andP[_ Hi] /andP[_ Hj].
rewrite !cell_point_coset // => /(mulfI (coset_rep_neq0 k)).
move/(omega_inj ok l_adicity (bitrev_lt _ _) (bitrev_lt _ _)).
exact: bitrev_inj.
Qed.

Lemma agrees_on_cell_unique k (cell : seq F) (f g : {poly F}) :
  (size f <= L)%N -> (size g <= L)%N ->
  agrees_on_cell w n l k cell f -> agrees_on_cell w n l k cell g -> f = g.
Proof.
move=> Sf Sg Hf Hg; apply/eqP; rewrite -subr_eq0; apply/eqP.
apply: (@roots_geq_poly_eq0 _ _ (mkseq (cell_point w n l k) L)).
- apply/allP => x /mapP[j]; rewrite mem_iota => /andP[_ Hj] ->.
  by rewrite rootE hornerD hornerN Hf // Hg // subrr.
- exact: cell_points_uniq.
by rewrite size_mkseq (leq_trans (size_add _ _)) // size_opp geq_max Sf Sg.
Qed.

(** The verifier built from a setup. *)
Variables (g1s : seq G1) (g2s : seq G2) (num_coeff : nat).
Hypothesis Sg2 : (L < size g2s)%N.
Hypothesis Sg1 : (L <= size g1s)%N.

Definition mkvk := MkVK g1s g2s g2s`_0 L num_coeff.

Definition mkverifier := MkFK20Verifier mkvk
  (mkseq (coset_rep w m) (2 ^ m)) (mkdom fp l) g2s`_L (- g2s`_0)
  (mkseq (fun k => coset_rep w m k ^+ L) (2 ^ m))
  (mkseq (fun k => MkCosetFFT (coset_rep w m k) (coset_rep w m k)^-1) (2 ^ m)).

Lemma verification_key_newE : verification_key_new g1s g2s L num_coeff = Ret mkvk.
Proof.
rewrite /verification_key_new (aget_nth 0) ?obind_Ret /oassert ?Sg2 //.
by rewrite (leq_trans _ Sg2).
Qed.

Lemma fk20_verifier_newE : fk20_verifier_new fp mkvk (2 ^ n) (2 ^ m) = Ret mkverifier.
Proof.
rewrite /fk20_verifier_new (coset_gensE ok _ Had m_lt32) obind_Ret.
rewrite /oassert expn_eq0 /=.
rewrite Hn expnD mulnK ?expn_gt0 // -Hn (ltnW Sg2).
rewrite (domain_new_exp ok l_adicity) obind_Ret (aget_nth 0) // obind_Ret.
rewrite (omapM_Ret_in (g := fun h => MkCosetFFT h h^-1)).
  rewrite obind_Ret /mkverifier -!map_comp; congr (Ret (MkFK20Verifier _ _ _ _ _ _ _)).
  by apply: eq_map => k /=; rewrite (pow_vartimeE fp) Nat2N.id.
move=> x /mapP[k _ ->]; rewrite /coset_fft_new /invert_expect.
by rewrite (negbTE (coset_rep_neq0 k)).
Qed.

(** The batch. *)
Variables (commitments : seq G1) (cidx kidx : seq N) (cells : seq (seq F)) (proofs : seq G1).
Local Notation B := (size proofs).
Hypothesis Sci : size cidx = B.
Hypothesis Ski : size kidx = B.
Hypothesis Sce : size cells = B.
Hypothesis Hci : all (fun i => (N.to_nat i < size commitments)%N) cidx.
Hypothesis Hki : all (fun k => (N.to_nat k < 2 ^ m)%N) kidx.
Hypothesis Hce : all (fun c => size c == L) cells.
Hypothesis Hscal : forall x, size (te_scalar_to_bytes_be te x) = 32%N.
Hypothesis Hcomp : forall P, size (te_g1_to_compressed te P) = 48%N.

Local Notation ci t := (N.to_nat (nth 0%num cidx t)).
Local Notation ki t := (N.to_nat (nth 0%num kidx t)).

Lemma ci_lt t : (t < B)%N -> (ci t < size commitments)%N.
Proof. by rewrite -Sci => Ht; exact: (all_nthP 0%num Hci). Qed.
Lemma ki_lt t : (t < B)%N -> (ki t < 2 ^ m)%N.
Proof. by rewrite -Ski => Ht; exact: (all_nthP 0%num Hki). Qed.
Lemma cell_size t : (t < B)%N -> size (nth [::] cells t) = L.
Proof. by rewrite -Sce => Ht; apply/eqP; exact: (all_nthP [::] Hce). Qed.

(** What is hashed for one opening. *)
Definition opening_bytes t : seq byte :=
  u64_be (nth 0%num cidx t) ++ u64_be (nth 0%num kidx t)
  ++ flatten [seq te_scalar_to_bytes_be te e | e <- nth [::] cells t]
  ++ te_g1_to_compressed te proofs`_t.

Definition header_bytes : seq byte :=
  domain_sep ++ u64_be (N.of_nat num_coeff) ++ u64_be (N.of_nat L)
  ++ u64_be (N.of_nat (size commitments)) ++ u64_be (N.of_nat B)
  ++ flatten [seq te_g1_to_compressed te c | c <- commitments].

Definition transcript_bytes : seq byte := header_bytes ++ flatten (mkseq opening_bytes B).

Lemma size_flatten_const (T A : Type) (f : A -> seq T) c (s : seq A) :
  (forall x, size (f x) = c) -> size (flatten [seq f x | x <- s]) = (size s * c)%N.
Proof. by move=> H; elim: s => [|x s IH] //=; rewrite size_cat IH H mulSn. Qed.

Lemma size_u64 x : size (u64_be x) = 8%N.
Proof. exact: size_be_bytes. Qed.

Lemma size_opening_bytes t : (t < B)%N -> size (opening_bytes t) = (8 + 8 + L * 32 + 48)%N.
Proof.
move=> Ht; rewrite !size_cat !size_u64 Hcomp (size_flatten_const _ Hscal) cell_size // !addnA.
Qed.

Lemma fiat_shamir_inputE :
  fiat_shamir_input te mkvk commitments cidx kidx cells proofs = Ret transcript_bytes.
Proof.
rewrite /fiat_shamir_input Ski.
have [|t st Ht|st -> Est] := @ofor_iota_inv _ B (fun k hash_input =>
    olet row := aget cidx k in
    olet coset := aget kidx k in
    olet evals := aget cells k in
    olet proof := aget proofs k in
    Ret (hash_input ++ u64_be row ++ u64_be coset
           ++ flatten [seq te_scalar_to_bytes_be te e | e <- evals]
           ++ te_g1_to_compressed te proof)) header_bytes
  (fun t st => st = header_bytes ++ flatten (mkseq opening_bytes t)).
- by rewrite cats0.
- move=> ->; rewrite (aget_nth 0%num) ?Sci // obind_Ret (aget_nth 0%num) ?Ski // obind_Ret.
  rewrite (aget_nth [::]) ?Sce // obind_Ret (aget_nth 0) // obind_Ret.
  by eexists; first reflexivity; rewrite mkseqS flatten_rcons -catA.
rewrite obind_Ret {}Est /oassert.
suff -> : size transcript_bytes = (size domain_sep + 8 + 8 + 8 + 8 + size commitments * 48 +
     size cidx * 8 + B * 8 + size cells * vk_coset_size mkvk * 32 + B * 48)%N by rewrite eqxx.
rewrite size_cat !size_cat !size_u64 (size_flatten_const _ Hcomp) /=.
have -> : size (flatten (mkseq opening_bytes B)) = (B * (8 + 8 + L * 32 + 48))%N.
  rewrite size_flatten /shape -map_comp.
  rewrite (@eq_in_map _ _ _ (fun=> (8 + 8 + L * 32 + 48)%N) (iota 0 B)).1.
    by rewrite -{2}(size_iota 0 B); elim: iota => [|t s IH] //=; rewrite IH mulSn.
  by move=> t; rewrite mem_iota => /andP[_ Ht]; exact: size_opening_bytes.
rewrite Sci Sce; exact: transcript_length_arith.
Qed.

Local Notation r := (te_reduce_bytes_to_scalar_bias te (te_sha256 te transcript_bytes)).

Lemma challengeE :
  compute_fiat_shamir_challenge te mkvk commitments cidx kidx cells proofs = Ret r.
Proof. by rewrite /compute_fiat_shamir_challenge fiat_shamir_inputE. Qed.

Variable I : nat -> {poly F}.
Hypothesis SI : forall t, (t < B)%N -> (size (I t) <= L)%N.
Hypothesis HI : forall t, (t < B)%N -> agrees_on_cell w n l (ki t) (nth [::] cells t) (I t).

Lemma sum_interpolationE (x : F) :
  exists2 p, compute_sum_interpolation_poly (mkdom fp l)
    (fv_bit_reversed_coset_fft_gens mkverifier) cells kidx (mkseq (fun k => x ^+ k) B) = Ret p &
  (size p <= L)%N /\ Poly p = \sum_(t < B) x ^+ t *: I t.
Proof.
rewrite /compute_sum_interpolation_poly.
match goal with |- context [ofor _ ?b _] => set body := b end.
set l0 := zip _ _.
have Sl : size l0 = B by rewrite !size_zip size_mkseq Sce Ski !minnn.
have [||p E [Sp Hp]] := @ofor_inv _ _ (([::], 0%num), 0) l0 body [::]
   (fun t p => (size p <= L)%N /\ Poly p = \sum_(s < t) x ^+ s *: I s).
- by rewrite big_ord0.
- move=> t p; rewrite Sl => Ht [Sp Hp].
  rewrite /l0 nth_zip ?size_zip ?size_mkseq ?Sce ?Ski ?minnn // nth_zip ?Sce ?Ski //.
  rewrite nth_mkseq // /body.
  have [q Eq [Sq Hq]] := cell_interpolation (ki t) (cell_size Ht).
  move: Eq; case: reverse_bit_order => // ev; rewrite !obind_Ret => Eq.
  rewrite (aget_nth (MkCosetFFT 0 0)) ?size_mkseq ?ki_lt // obind_Ret nth_mkseq ?ki_lt //.
  rewrite Eq obind_Ret.
  have [s -> [Ss Hs]] := poly_add_spec p [seq c * x ^+ t | c <- q].
  exists s => //; split; first by rewrite Ss size_map Sq geq_max Sp leqnn.
  rewrite Hs Hp big_ord_recr /=; congr (_ + _).
  rewrite (agrees_on_cell_unique (SI Ht) _ (HI Ht) Hq); last by rewrite -Sq size_Poly.
  apply/polyP => i; rewrite coefZ !coef_Poly.
  case: (ltnP i (size q)) => Hi; first by rewrite (nth_map 0) // mulrC.
  by rewrite !nth_default ?size_map // mulr0.
exists p; rewrite -?Sl //.
Qed.

Lemma weightsE (x : F) :
  exists2 ws, ofor (zip cidx (mkseq (fun k => x ^+ k) B)) (fun ir weights =>
    olet y := aget weights (N.to_nat ir.1) in
    aset weights (N.to_nat ir.1) (y + ir.2)) (nseq (size commitments) 0) = Ret ws &
  lincomb commitments ws = \sum_(t < B) x ^+ t *: commitments`_(ci t).
Proof.
match goal with |- context [ofor _ ?b _] => set body := b end; set l0 := zip _ _.
have Sl : size l0 = B by rewrite !size_zip size_mkseq Sci !minnn.
have [||ws E [Ss Hs]] := @ofor_inv _ _ (0%num, 0) l0 body (nseq (size commitments) 0)
   (fun t ws => size ws = size commitments /\
      lincomb commitments ws = \sum_(s < t) x ^+ s *: commitments`_(ci s)).
- rewrite size_nseq big_ord0; split=> //.
  rewrite /lincomb big1 // => i _; rewrite nth_nseq if_same scale0r //.
- move=> t ws; rewrite Sl => Ht [Ss Hs].
  rewrite /l0 nth_zip ?size_mkseq ?Sci // nth_mkseq // /body.
  have Hc := ci_lt Ht.
  rewrite (aget_nth 0) ?Ss // obind_Ret (aset_set_nth 0) ?Ss //.
  eexists; first reflexivity.
  split; first by rewrite size_set_nth_in ?Ss.
  rewrite big_ord_recr /= -Hs /lincomb size_set_nth_in ?Ss // !minnn.
  rewrite (eq_bigr (fun i : 'I_(size commitments) => ws`_i *: commitments`_i +
      (if val i == ci t then x ^+ t *: commitments`_(ci t) else 0))).
    rewrite big_split /=; congr (_ + _).
    by rewrite -big_mkcond (big_pred1 (Ordinal Hc)).
  move=> i _; rewrite nth_set_nth /=; case: eqP => [->|_]; last by rewrite addr0.
  by rewrite scalerDl.
exists ws; rewrite -?Sl //.
Qed.

Lemma lincomb_full (V : lmodType F) (ps : seq V) (f : nat -> F) k : size ps = k ->
  lincomb ps (mkseq f k) = \sum_(t < k) f t *: ps`_t.
Proof.
move=> Sp; rewrite /lincomb size_mkseq Sp minnn.
by apply: eq_bigr => i _; rewrite nth_mkseq.
Qed.

Theorem verify_multi_openingE :
  verify_multi_opening pair te mkverifier commitments cidx kidx cells proofs =
  Ret (if \sum_(t < B) r ^+ t *: opening_defect pair g2s`_0 g2s`_L (coset_rep w m (ki t) ^+ L)
             commitments`_(ci t) (commit g1s (I t)) proofs`_t == 0
       then Ok tt else Err InvalidProof).
Proof.
rewrite /verify_multi_opening /oassert Sci Ski Sce eqxx challengeE obind_Ret.
move: r => x; cbv zeta.
rewrite compute_powersE !g1_lincombE /ounwrap obind_Ret (lincomb_full _ (erefl B)).
rewrite (omapM_Ret_in (g := fun ir => ir.2 * coset_rep w m (N.to_nat ir.1) ^+ L)); last first.
  move=> ir /(nthP (0%num, 0))[t]; rewrite size_zip size_mkseq Ski minnn => Ht.
  rewrite nth_zip ?size_mkseq // nth_mkseq // => <- /=.
  by rewrite (aget_nth 0) ?size_mkseq ?ki_lt // obind_Ret nth_mkseq ?ki_lt.
rewrite obind_Ret g1_lincombE obind_Ret.
set wr := [seq _ | ir <- _].
have -> : wr = mkseq (fun t => x ^+ t * coset_rep w m (ki t) ^+ L) B.
  apply: (@eq_from_nth _ 0); rewrite /wr size_map size_zip size_mkseq Ski minnn ?size_mkseq // => t Ht.
  rewrite (nth_map (0%num, 0)) ?size_zip ?size_mkseq ?Ski ?minnn //.
  by rewrite nth_zip ?size_mkseq // !nth_mkseq.
rewrite (lincomb_full _ (erefl B)).
have [ws -> Hws] := weightsE x; rewrite obind_Ret g1_lincombE obind_Ret Hws.
have [p -> [Sp Hp]] := sum_interpolationE x; rewrite obind_Ret.
rewrite /vk_commit_g1 /oassert (leq_trans Sp Sg1) /aslice /= (leq_trans Sp Sg1) obind_Ret.
rewrite g1_lincombE obind_Ret subn0 drop0.
have -> : lincomb (take (size p) g1s) p = \sum_(t < B) x ^+ t *: commit g1s (I t).
  transitivity (commit g1s (Poly p)); last first.
    rewrite Hp commit_sum; apply: eq_bigr => t _; exact: commitZ.
  rewrite (commit_wide _ (size_Poly p)) /lincomb size_takel ?(leq_trans Sp Sg1) // minnn.
  by apply: eq_bigr => i _; rewrite nth_take // coef_Poly.
congr (Ret (if _ then _ else _)).
rewrite /multi_pairings /= addr0 /opening_defect; congr (_ == 0).
rewrite (pairNr bil) -!sumrB -big_split /= !(pair_suml bil) -sumrB.
apply: eq_bigr => t _.
rewrite (pairBr bil) (pairZr bil) -scalerA -!scalerBr -scalerDr !(pairZl bil) -scalerBr.
congr (_ *: _); rewrite [pair (_ + _ *: _) _](pairDl bil) (pairZl bil) opprD addrA.
by rewrite addrAC.
Qed.

End Verifier.
