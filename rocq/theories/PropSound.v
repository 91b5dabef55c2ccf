(** Soundness of verify_cell_kzg_proof_batch (C56): what someone who does not know the secret of the
    setup would have to compute to make it accept wrong cells. The witnesses of each theorem are fixed
    before the secret, the setup, the commitment and the proofs, so they do not depend on them. *)

From Coq Require Import ZArith NArith Init.Byte Strings.Byte.
From mathcomp Require Import ssreflect ssrfun ssrbool eqtype ssrnat seq div fintype bigop.
From mathcomp Require Import ssralg poly polydiv zify_ssreflect.
From Verif Require Import Base Bytes Spec SpecKZG SpecDAS FixedBaseMSM LincombProofs BitRevProofs.
From Verif Require Import FK20Verifier VerifierSoundness Eip7594 Eip7594Proofs ApiVerifyProofs ApiEip.
From Verif Require Import ZField FrPrime Fr SpecFr FrEnv SpecVerify PropProver PropRecover PropVerify SoundnessAlg.

Set Implicit Arguments.
Unset Strict Implicit.
Unset Printing Implicit Defensive.

Import GRing.Theory.
Local Open Scope ring_scope.
Local Opaque w8192 w4096 DomainProofs.omega.

(** A proper setup with secret tau, and a context made from it *)
Definition setup (G1 G2 : lmodType Fr) (tau : Fr) (G : G1) (H : G2) (ctx : das_context G1 G2) : Prop :=
  das_context_new fr_params eip7594_consts (srs_of tau G (2 ^ 12)) (srs_of tau H 65) PrecompNo = Ret ctx.

Lemma w_eq k j : (j < 64)%N -> (w8192 ^+ bitrev 13 (k * 64 + j)) ^+ 64 = coset_point k ^+ 64.
Proof.
move=> Hj; have := @cell_point_pow _ fr_params fr_ok 13 6 7 erefl Had13 k j Hj.
by rewrite /cell_point coset_pointE omega13.
Qed.
Lemma coset_inj k k' : (k < 128)%N -> (k' < 128)%N -> coset_point k ^+ 64 = coset_point k' ^+ 64 -> k = k'.
Proof.
move=> Hk Hk'; rewrite !coset_point64 => E; apply: (@bitrev_inj 7 k k' Hk Hk').
exact (DomainProofs.omega_inj fr_ok (@adicity_le 7 isT) (bitrev_lt 7 k) (bitrev_lt 7 k') E).
Qed.

Lemma types1 (com cell proof : seq byte) : size com = 48%N -> size cell = 2048%N -> size proof = 48%N ->
  call_types [:: com] [:: cell] [:: proof].
Proof. by rewrite /call_types /all_size /= => -> -> ->. Qed.
Lemma shape1 k : all (fun i => (i <? 128)%num) [:: k] -> (k < 128)%num.
Proof. by move=> /= /andP[/N.ltb_spec0 Hk _]. Qed.

Lemma srs_0 (V : lmodType Fr) (tau : Fr) (H : V) : (srs_of tau H 65)`_0 = H.
Proof. by rewrite nth_mkseq // expr0 scale1r. Qed.
Lemma srs_64 (V : lmodType Fr) (tau : Fr) (H : V) : (srs_of tau H 65)`_64 = tau ^+ 64 *: H.
Proof. by rewrite nth_mkseq. Qed.
Lemma small_poly (I : {poly Fr}) : (size I <= 64)%N -> (size I <= 2 ^ 12)%N.
Proof. by move=> SI; apply: leq_trans SI _; rewrite (@leq_pexp2l 2 6 12). Qed.

Section Sound.
Variables (G1 G2 GT : lmodType Fr) (env : das_env G1 G2 GT).
Hypothesis std : env_std env.
Local Notation compress := (te_g1_to_compressed (de_te env)).
Local Notation pair := (de_pair env).
Local Notation accepts ctx com k cell proof :=
  (verify_cell_kzg_proof_batch env eip7594_consts ctx [:: com] [:: k] [:: cell] [:: proof] = Ret (Ok tt)).
Local Notation a k := (coset_point (N.to_nat k) ^+ 64).

Lemma accepted tau G H ctx com k cell proof : setup tau G H ctx ->
  size com = 48%N -> size cell = 2048%N -> size proof = 48%N -> accepts ctx com k cell proof ->
  exists C P I, [/\ compress C = com, compress P = proof, cell_interpolant (N.to_nat k) cell I, (k < 128)%num &
    (tau ^+ 64 - a k) *: pair P H = pair (C - I.[tau] *: G) H].
Proof.
move=> Hctx Sm Sc Sp A.
have S1 : size (srs_of tau G (2 ^ 12)) = (2 ^ 12)%N by exact: size_mkseq.
have S2 : size (srs_of tau H 65) = 65%N by exact: size_mkseq.
have T := types1 Sm Sc Sp.
have [[C [P [I [[_ _ _ sh] O]]]]|[err]] := verify_run std S1 S2 Hctx [:: k] T; last by rewrite A.
have Hk := shape1 sh.
have O0 := O 0%N isT; have := (@C12_single _ _ _ _ std _ _ _ S1 S2 Hctx com k cell proof _ _ _ T Hk O0).1 A.
case: O0 => EC EP EI.
have SI := small_poly (proj1 EI).
rewrite srs_0 srs_64 (commit_srs _ _ SI) -scalerBl (pairZr (es_bil std)) => E.
exists (C 0%N), (P 0%N), (I 0%N); exact (And5 EC EP EI Hk E).
Qed.

Lemma interp_dec k cell : size cell = 2048%N ->
  (exists I, cell_interpolant k cell I) \/ forall I, ~ cell_interpolant k cell I.
Proof.
move=> Sc; case: (altP (allP (a := fun j => canonical (chunk cell j)) (s := iota 0 64))) => [Hc|Nc].
  left; apply: (interpolant_exists std _ Sc) => j Hj; apply: Hc; by rewrite mem_iota.
right=> I [_ HI]; case/negP: Nc; apply/allP => j; rewrite mem_iota => /andP[_ Hj].
rewrite -HI // -canonicalE -/(scalar_to_bytes_be _).
by rewrite ((scalar_from_some _ _).2 erefl) // size_be_bytes.
Qed.
Lemma differ k cell cell' (I I' : {poly Fr}) : size cell = 2048%N -> size cell' = 2048%N -> cell <> cell' ->
  cell_interpolant k cell I -> cell_interpolant k cell' I' ->
  exists2 z, z ^+ 64 = coset_point k ^+ 64 & (I' - I).[z] != 0.
Proof.
move=> Sc Sc' ne [_ HI] [_ HI'].
pose x j := w8192 ^+ bitrev 13 (k * 64 + j).
case: (altP (allP (a := fun j => I.[x j] == I'.[x j]) (s := iota 0 64))) => [He|/allPn[j]].
  case: ne; apply: (@chunks_eq _ _ 64 Sc Sc') => j Hj; rewrite -HI // -HI' //.
  by have /eqP -> : I.[x j] == I'.[x j] by apply: He; rewrite mem_iota.
rewrite mem_iota => /andP[_ Hj] nz; exists (x j); first exact: w_eq.
by rewrite hornerD hornerN subr_eq0 eq_sym.
Qed.

(** ** Two different cells for the same commitment and index *)

(** From the cells alone a point z of the coset, a factor and two polynomials are computed. Whoever has
    proofs of both cells for one commitment computes with them and the public setup an element of the
    target group that is e(G, H) divided by tau - z, which is assumed to be hard without tau (the
    bilinear strong Diffie-Hellman problem). *)
Theorem C56_binding k cell cell' : size cell = 2048%N -> size cell' = 2048%N -> cell <> cell' ->
  exists z c (q Q : {poly Fr}), [/\ z ^+ 64 = a k, (size q <= 64)%N, (size Q <= 64)%N &
    forall tau G H ctx com P P', setup tau G H ctx -> size com = 48%N ->
      accepts ctx com k cell (compress P) -> accepts ctx com k cell' (compress P') ->
      (tau - z) *: (c *: (pair (P - P') (commit (srs_of tau H 65) Q) - pair (commit (srs_of tau G (2 ^ 12)) q) H))
      = pair G H].
Proof.
move=> Sc Sc' ne; have B := es_bil std.
have Bad : (forall I, ~ cell_interpolant (N.to_nat k) cell I) \/ (forall I, ~ cell_interpolant (N.to_nat k) cell' I) ->
  forall tau G H ctx com P P', setup tau G H ctx -> size com = 48%N ->
    accepts ctx com k cell (compress P) -> accepts ctx com k cell' (compress P') -> False.
  move=> N tau G H ctx com P P' Hs Sm A A'.
  have [C1 [P1 [I1 [_ _ H1 _ _]]]] := accepted Hs Sm Sc (es_g1_size std P) A.
  have [C2 [P2 [I2 [_ _ H2 _ _]]]] := accepted Hs Sm Sc' (es_g1_size std P') A'.
  by case: N => N; [exact: (N _ H1)|exact: (N _ H2)].
have Z : forall n, (size (0%R : {poly Fr}) <= n)%N by move=> n; rewrite size_poly0.
have [[I HI]|N] := interp_dec (N.to_nat k) Sc; last first.
  exists (coset_point (N.to_nat k)), 0, 0, 0; apply: (And4 erefl (Z _) (Z _)) => tau G H ctx com P P' Hs Sm A A'.
  by case: (Bad (or_introl N) _ _ _ _ _ _ _ Hs Sm A A').
have [[I' HI']|N] := interp_dec (N.to_nat k) Sc'; last first.
  exists (coset_point (N.to_nat k)), 0, 0, 0; apply: (And4 erefl (Z _) (Z _)) => tau G H ctx com P P' Hs Sm A A'.
  by case: (Bad (or_intror N) _ _ _ _ _ _ _ Hs Sm A A').
have [z Hz nz] := differ Sc Sc' ne HI HI'.
have SR : (size (I' - I)%R <= 64)%N.
  by apply: (leq_trans (size_add _ _)); rewrite geq_max size_opp HI.1 HI'.1.
have [q [Eq Sq]] := split_at (I' - I) z.
have Rz : root ('X^64 - (a k)%:P) z by rewrite rootE hornerD hornerN hornerXn hornerC Hz subrr.
have [Q EQ SQ] := split_root Rz (@size_XnsubC _ (a k) 64 isT).
exists z, ((I' - I).[z])^-1, q, Q; apply: (And4 Hz (leq_trans Sq SR) SQ) => tau G H ctx com P P' Hs Sm A A'.
have [C1 [P1 [I1 [EC1 EP1 HI1 _ E1]]]] := accepted Hs Sm Sc (es_g1_size std P) A.
have [C2 [P2 [I2 [EC2 EP2 HI2 _ E2]]]] := accepted Hs Sm Sc' (es_g1_size std P') A'.
have inj := comp_inj (env_std_ok std).
have E21 : C2 = C1 by apply: inj; rewrite EC2 EC1.
rewrite -(inj _ _ EP1) -(inj _ _ EP2).
rewrite E21 (interpolant_unique std HI2 HI') in E2; rewrite (interpolant_unique std HI1 HI) in E1.
have SQ65 : (size Q <= 65)%N by apply: leq_trans SQ _.
rewrite (commit_srs _ _ SQ65) (commit_srs _ _ (small_poly (leq_trans Sq SR))) (pairZr B) (pairZl B).
apply: (bsdh Eq EQ nz).
rewrite (pair_Bl B) scalerBr !(hornerD, hornerN, hornerXn, hornerC) E1 E2 !(pair_Bl B) !(pairZl B) scalerBl.
by rewrite opprB addrC addrA subrK.
Qed.

(** ** An algebraic prover *)

(** Someone who computes commitment and proof as linear combinations of the points of the setup, that
    is, from polynomials f and p of degree below 4096 chosen before the secret, and sends a cell that is
    not the one of f, is accepted for fewer than 4160 secrets of the setup. *)
Theorem C56_algebraic G H (f p : {poly Fr}) k cell (taus : seq Fr) : pair G H <> 0 ->
  (size f <= 2 ^ 12)%N -> (size p <= 2 ^ 12)%N -> size cell = 2048%N -> cell <> cell_of_poly f (N.to_nat k) ->
  uniq taus ->
  (forall tau, tau \in taus -> exists2 ctx, setup tau G H ctx &
     accepts ctx (compress (commit (srs_of tau G (2 ^ 12)) f)) k cell (compress (commit (srs_of tau G (2 ^ 12)) p))) ->
  (size taus < 2 ^ 12 + 64)%N.
Proof.
move=> GH Sf Sp Sc ne U Hacc; have B := es_bil std; have inj := comp_inj (env_std_ok std).
have pos : (0 < 2 ^ 12 + 64)%N by rewrite addn_gt0 orbT.
have [[I HI]|N] := interp_dec (N.to_nat k) Sc; last first.
  case: taus {U} Hacc => [|tau taus] Hacc //; have [ctx Hs A] := Hacc tau (mem_head _ _).
  by have [C1 [P1 [I1 [_ _ H1 _ _]]]] := accepted Hs (es_g1_size std _) Sc (es_g1_size std _) A; case: (N I1).
pose D := f - I - p * ('X^64 - (a k)%:P).
have SZ : size ('X^64 - (a k)%:P : {poly Fr}) = 65%N := @size_XnsubC _ (a k) 64 isT.
have SD : (size D <= 2 ^ 12 + 64)%N.
  apply: (leq_trans (size_add _ _)); rewrite size_opp geq_max; apply/andP; split.
    apply: (leq_trans (size_add _ _)); rewrite size_opp geq_max (leq_trans Sf (leq_addr _ _)).
    exact: leq_trans HI.1 (leq_addl _ _).
  apply: (leq_trans (size_mul_leq _ _)); rewrite SZ addnS /= leq_add2r; exact: Sp.
have nz : D != 0.
  apply/eqP => E; apply: ne; apply: (@chunks_eq _ _ 64 Sc (size_cell_of_poly _ _)) => j Hj.
  rewrite (chunk_cell_of_poly std _ _ Hj) -(HI.2 j Hj); apply: (f_equal fr_be); apply: (eval_zero E).
  by rewrite vanish_eval (w_eq _ Hj) subrr.
apply: (leq_trans _ SD); apply: (max_poly_roots nz _ U); apply/allP => tau /Hacc[ctx Hs A].
have [C1 [P1 [I1 [EC1 EP1 HI1 _ E1]]]] := accepted Hs (es_g1_size std _) Sc (es_g1_size std _) A.
rewrite (inj _ _ EC1) (inj _ _ EP1) (interpolant_unique std HI1 HI) (commit_srs _ _ Sf) (commit_srs _ _ Sp) in E1.
rewrite (pair_Bl B) !(pairZl B) -vanish_eval in E1; exact: (alg_root GH E1).
Qed.

Lemma one_of_batch g1s g2s ctx (Ks Ps : seq G1) idx cells rs t :
  size g1s = (2 ^ 12)%N -> size g2s = 65%N ->
  das_context_new fr_params eip7594_consts g1s g2s PrecompNo = Ret ctx ->
  all_size 2048 cells -> uniq rs ->
  (forall r, r \in rs -> verify_cell_kzg_proof_batch (with_hash env (fun=> r)) eip7594_consts ctx
     [seq compress C | C <- Ks] idx cells [seq compress P | P <- Ps] = Ret (Ok tt)) ->
  (size Ks <= size rs)%N -> (t < size Ks)%N ->
  accepts ctx (nth [::] [seq compress C | C <- Ks] t) (nth 0%num idx t) (nth [::] cells t)
    (nth [::] [seq compress P | P <- Ps] t).
Proof.
move=> S1 S2 Hctx Ac Ur Hr Sr Ht.
have sz (l : seq G1) : all_size 48 [seq compress C | C <- l].
  by rewrite /all_size all_map; apply/allP => C _ /=; rewrite (es_g1_size std) eqxx.
have := @C13_few_challenges _ _ _ _ std _ _ _ S1 S2 Hctx _ idx cells _ rs t (And3 (sz Ks) Ac (sz Ps)) Ur Hr.
rewrite size_map => /(_ Ht); move: (verify_cell_kzg_proof_batch _ _ _ _ _ _ _) => v few.
have [//|nv] : v = Ret (Ok tt) \/ v <> Ret (Ok tt) by case: v {few} => [[[]|e]|]; [left|right|right].
by have := few nv; rewrite ltnNge Sr.
Qed.

(** The same for a batch: if some cell is not the one of its polynomial, then there are fewer than 4160
    secrets for which the batch is accepted with as many challenges as it has tuples. *)
Theorem C56_algebraic_batch G H (fs ps : seq {poly Fr}) idx cells t (taus : seq Fr) : pair G H <> 0 ->
  all (fun f : {poly Fr} => size f <= 2 ^ 12)%N fs -> all (fun p : {poly Fr} => size p <= 2 ^ 12)%N ps ->
  all_size 2048 cells -> size ps = size fs -> size cells = size fs -> (t < size fs)%N ->
  nth [::] cells t <> cell_of_poly fs`_t (N.to_nat (nth 0%num idx t)) -> uniq taus ->
  (forall tau, tau \in taus -> exists2 ctx, setup tau G H ctx &
     exists2 rs, uniq rs && (size fs <= size rs)%N &
     forall r, r \in rs ->
       verify_cell_kzg_proof_batch (with_hash env (fun=> r)) eip7594_consts ctx
         [seq compress C | C <- [seq commit (srs_of tau G (2 ^ 12)) f | f <- fs]] idx cells
         [seq compress P | P <- [seq commit (srs_of tau G (2 ^ 12)) p | p <- ps]] = Ret (Ok tt)) ->
  (size taus < 2 ^ 12 + 64)%N.
Proof.
move=> GH Af Ap Ac Sp Sc Ht ne U Hacc.
have Sf1 : (size fs`_t <= 2 ^ 12)%N by exact: (all_nthP 0 Af).
have Sp1 : (size ps`_t <= 2 ^ 12)%N by apply: (all_nthP 0 Ap); rewrite Sp.
have Sc1 : size (nth [::] cells t) = 2048%N by apply/eqP; apply: (all_nthP [::] Ac); rewrite Sc.
apply: (C56_algebraic GH Sf1 Sp1 Sc1 ne U) => tau /Hacc[ctx Hs [rs /andP[Ur Sr] Hr]].
exists ctx; first exact Hs.
have S1 : size (srs_of tau G (2 ^ 12)) = (2 ^ 12)%N by exact: size_mkseq.
have S2 : size (srs_of tau H 65) = 65%N by exact: size_mkseq.
have Htp : (t < size ps)%N by rewrite Sp.
have nE (l : seq {poly Fr}) : (t < size l)%N ->
  nth [::] [seq compress C | C <- [seq commit (srs_of tau G (2 ^ 12)) f | f <- l]] t =
  compress (commit (srs_of tau G (2 ^ 12)) l`_t).
  by move=> Hl; rewrite -map_comp (nth_map 0).
have := @one_of_batch _ _ _ _ _ _ _ _ t S1 S2 Hs Ac Ur Hr.
rewrite size_map (nE _ Ht) (nE _ Htp) => W; exact (W Sr Ht).
Qed.

(** ** Cells of one blob under the commitment of another *)

Lemma commitment_of g1s g2s ctx blob f rcom : size g1s = (2 ^ 12)%N -> size g2s = 65%N ->
  das_context_new fr_params eip7594_consts g1s g2s PrecompNo = Ret ctx ->
  size blob = (2 ^ 17)%N -> blob_polynomial blob f ->
  blob_to_kzg_commitment env eip7594_consts ctx blob = Ret (Ok rcom) -> rcom = compress (commit g1s f).
Proof.
move=> S1 S2 Hctx Sb Hf Hcom.
have [[g Hg [_]]|[i _ [_]]] := compute_cases std S1 S2 Hctx Sb; rewrite Hcom => -[] //.
by rewrite (blob_polynomial_unique std Hg Hf).
Qed.
Lemma pos_cs (cs : seq Fr) : size cs = 64%N -> (0 < size cs)%N.
Proof. by move->. Qed.
Lemma size_vanishings (k : nat -> nat) : size (\prod_(t < 64) coset_vanishing (k t)) = (2 ^ 12).+1.
Proof.
have S t : size (coset_vanishing (k t)) = 65%N by exact: size_XnsubC.
rewrite size_prod; last by move=> t _; rewrite -size_poly_eq0 S.
rewrite (eq_bigr (fun=> 65%N)); last by move=> t _; exact: S.
by rewrite sum_nat_const card_ord; lia.
Qed.

Lemma quotient_of k (f I : {poly Fr}) : cell_interpolant k (cell_of_poly f k) I ->
  f - I = (f %/ coset_vanishing k) * coset_vanishing k.
Proof.
move=> [SI HI]; have W := @quotient_minus_interpolant _ fr_params 13 6 7 k f I SI.
rewrite -coset_pointE in W.
have D := @vanishing_dvdp _ _ fr_ok 13 6 7 erefl Had13 k (f - I).
rewrite -coset_pointE W in D; apply: D => j Hj.
apply/eqP; rewrite /cell_point omega13 hornerD hornerN subr_eq0; apply/eqP.
have /esym := HI j Hj; rewrite (chunk_cell_of_poly std f _ Hj); exact: (C36_injective std).
Qed.
Lemma opened_one tau G H ctx C P (f : {poly Fr}) k : setup tau G H ctx -> (size f <= 2 ^ 12)%N ->
  (forall X, pair X H = 0 -> X = 0) ->
  accepts ctx (compress C) k (cell_of_poly f (N.to_nat k)) (compress P) ->
  (tau ^+ 64 - a k) *: (P - commit (srs_of tau G (2 ^ 12)) (f %/ coset_vanishing (N.to_nat k))) =
  C - commit (srs_of tau G (2 ^ 12)) f.
Proof.
move=> Hs Sf nd A; have B := es_bil std; have inj := comp_inj (env_std_ok std).
have [C1 [P1 [I [EC1 EP1 HI _ E]]]] := accepted Hs (es_g1_size std _) (size_cell_of_poly _ _) (es_g1_size std _) A.
rewrite (inj _ _ EC1) (inj _ _ EP1) in E.
rewrite (commit_srs _ _ Sf) (commit_srs _ _ (leq_trans (leq_divp _ _) Sf)).
rewrite -(vanish_eval 64 (a k) tau) in E *.
exact (opened_alg B nd (quotient_of HI) E).
Qed.

(** [idx] names at least 64 cells of a blob. Whoever has proofs of them for a commitment that is not the
    blob's computes with them and the public setup a point B other than 0, and M(tau) B, where M is of
    degree 4096; the setup has the powers of tau up to 4095 only. *)
Theorem C56_commitment idx blob f : size blob = (2 ^ 17)%N -> blob_polynomial blob f ->
  uniq idx -> all (fun i => (i <? 128)%num) idx -> (64 <= size idx)%N ->
  let M := \prod_(t < 64) coset_vanishing (N.to_nat (nth 0%num idx t)) in
  size M = (2 ^ 12).+1 /\
  exists (c : seq Fr) (q : nat -> {poly Fr}), (forall t, size (q t) <= 2 ^ 12)%N /\
    forall tau G H ctx C (P : nat -> G1) rcom, setup tau G H ctx -> (forall X, pair X H = 0 -> X = 0) ->
      (forall t, (t < 64)%N -> let k := nth 0%num idx t in
         accepts ctx (compress C) k (cell_of_poly f (N.to_nat k)) (compress (P t))) ->
      blob_to_kzg_commitment env eip7594_consts ctx blob = Ret (Ok rcom) ->
      let B := \sum_(t < 64) c`_t *: (P t - commit (srs_of tau G (2 ^ 12)) (q t)) in
      exists R, [/\ compress R = rcom, M.[tau] *: B = C - R & compress C <> rcom -> B <> 0].
Proof.
move=> Sb Hf U Ar Si M.
have lt t : (t < 64)%N -> (N.to_nat (nth 0%num idx t) < 128)%N.
  by move=> Ht; have /N.ltb_spec0 := all_nthP 0%num Ar t (leq_trans Ht Si); lia.
pose cs := mkseq (fun t => a (nth 0%num idx t)) 64.
have Sz : size cs = 64%N by rewrite size_mkseq.
have Uc : uniq cs.
  rewrite map_inj_in_uniq ?iota_uniq // => t s; rewrite !mem_iota => /andP[_ Ht] /andP[_ Hs'].
  move=> /(coset_inj (lt t Ht) (lt s Hs'))/N2Nat.inj/eqP; rewrite nth_uniq //; last exact: leq_trans Si.
    by move/eqP.
  exact: leq_trans Si.
have cE t : (t < 64)%N -> cs`_t = a (nth 0%num idx t) by move=> Ht; rewrite nth_mkseq.
have [c [_ Hc]] := partition Uc (pos_cs Sz).
have Mt tau : M.[tau] = \prod_(t < size cs) (tau ^+ 64 - cs`_t).
  rewrite Sz horner_prod; apply: eq_bigr => t _; rewrite vanish_eval (cE _ (ltn_ord t)); exact: erefl.
split.
  exact (size_vanishings (fun t => N.to_nat (nth 0%num idx t))).
exists c, (fun t => f %/ coset_vanishing (N.to_nat (nth 0%num idx t))); split.
  by move=> t; apply: leq_trans (leq_divp _ _) Hf.1.
move=> tau G H ctx C P rcom Hs nd Hacc Hcom B.
have S1 : size (srs_of tau G (2 ^ 12)) = (2 ^ 12)%N by exact: size_mkseq.
have S2 : size (srs_of tau H 65) = 65%N by exact: size_mkseq.
have Ec : rcom = compress (commit (srs_of tau G (2 ^ 12)) f).
  by exact (commitment_of S1 S2 Hs Sb Hf Hcom).
exists (commit (srs_of tau G (2 ^ 12)) f).
have E : M.[tau] *: B = C - commit (srs_of tau G (2 ^ 12)) f.
  pose W t := P t - commit (srs_of tau G (2 ^ 12)) (f %/ coset_vanishing (N.to_nat (nth 0%num idx t))).
  have HW t : (t < size cs)%N -> (tau ^+ 64 - cs`_t) *: W t = C - commit (srs_of tau G (2 ^ 12)) f.
    rewrite Sz => Ht; rewrite (cE _ Ht).
    exact (opened_one Hs Hf.1 nd (Hacc t Ht)).
  have Em := opened_many Hc HW; rewrite -Mt Sz in Em; exact Em.
apply: And3; [by rewrite Ec|exact E|] => ne E0; apply: ne.
move: E; rewrite E0 scaler0 => /esym/eqP; rewrite subr_eq0 => /eqP ->; by rewrite Ec.
Qed.
End Sound.

Print Assumptions C56_binding.
Print Assumptions C56_algebraic.
Print Assumptions C56_algebraic_batch.
Print Assumptions C56_commitment.
