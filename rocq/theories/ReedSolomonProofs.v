From Coq Require Import NArith.
From mathcomp Require Import ssreflect ssrfun ssrbool eqtype ssrnat seq div prime.
From mathcomp Require Import fintype bigop ssralg poly zify_ssreflect.
From Verif Require Import Base Spec FFT Domain DomainProofs PolyCoeff PolyCoeffProofs ReedSolomon.

Set Implicit Arguments.
Unset Strict Implicit.
Unset Printing Implicit Defensive.

Import GRing.Theory.
Local Open Scope ring_scope.

Section RS.
Variables (F : fieldType) (fp : fparams F).
Hypothesis ok : fp_ok fp.
Variables (p e b : nat).
Let k := (p + e)%N.
Hypothesis Hk : (k <= fp_adicity fp)%N.
Hypothesis Hb : (b <= k)%N.
Let g := fp_mulgen fp.
Hypothesis g0 : g != 0.
Hypothesis gN : g ^+ (2 ^ k) != 1.

Let P := (2 ^ p)%N.
Let N := (2 ^ k)%N.
Let B := (2 ^ b)%N.
Let nb := (2 ^ (k - b))%N.
Let w := omega fp k.

Let NB : N = (B * nb)%N.
Proof. by rewrite /N /B /nb -expnD subnKC. Qed.
Let NPE : N = (P * 2 ^ e)%N.
Proof. by rewrite /N /P -expnD. Qed.
Let P0 : (0 < P)%N. Proof. by rewrite expn_gt0. Qed.
Let B0 : (0 < B)%N. Proof. by rewrite expn_gt0. Qed.
Let nb0 : (0 < nb)%N. Proof. by rewrite expn_gt0. Qed.
Let PN : (P <= N)%N.
Proof. by rewrite NPE leq_pmulr // expn_gt0. Qed.
Let Hb' : (b <= fp_adicity fp)%N := leq_trans Hb Hk.

Definition mkrs : reed_solomon F :=
  MkRS (2 ^ e) (2 ^ p) (mkdom fp k) (2 ^ b) (2 ^ (k - b)) (mkdom fp b) (MkCosetFFT g g^-1).

Lemma rs_new_exp : rs_new fp (2 ^ p) (2 ^ e) (2 ^ b) = Ret mkrs.
Proof.
rewrite /rs_new !is_power_of_two_exp /= -expnD -/k domain_new_exp //= domain_new_exp //=.
rewrite /coset_fft_new /invert_expect -/g (negbTE g0) /=.
by rewrite -/N NB -/B mulKn.
Qed.

(** The tolerated number of block erasures. *)
Definition rs_max : nat := ((N - P) %/ nb)%N.

Lemma acceptableE : acceptable_num_block_erasures mkrs = Ret rs_max.
Proof.
rewrite /acceptable_num_block_erasures /acceptable_num_random_erasures /= -/P -NPE PN /=.
by rewrite -lt0n -/nb nb0.
Qed.

Lemma rs_max_lt : (rs_max < B)%N.
Proof. by rewrite /rs_max ltn_divLR // -NB; lia. Qed.

Lemma rs_max_deg n : (n <= rs_max)%N -> (n * nb + P <= N)%N.
Proof. by rewrite /rs_max leq_divRL // => H; lia. Qed.

(** Expansion of a polynomial in X^nb. *)
Lemma expand_loop (v : seq F) : (size v <= B)%N ->
  exists2 z, ofor (zip (iota 0 (size v)) v)
      (fun ic z_x => aset z_x (ic.1 * nb)%N ic.2) (nseq N 0) = Ret z &
    size z = N /\ Poly z = \sum_(i < size v) v`_i *: 'X^(i * nb).
Proof.
move=> Sv.
set body := (X in ofor _ X _).
pose Q j (z : seq F) := size z = N /\ Poly z = \sum_(i < j) v`_i *: 'X^(i * nb).
have [||z -> [Sz Pz]] := @ofor_enum_inv F (seq F) 0 v body (nseq N 0) Q.
- by split; [rewrite size_nseq | rewrite big_ord0 Poly_nseq0].
- move=> j z Hj [Sz Pz]; rewrite /body /=.
  have Hjn : (j * nb < size z)%N by rewrite Sz NB ltn_pmul2r // (leq_trans Hj Sv).
  have z0 : z`_(j * nb) = 0.
    rewrite -coef_Poly Pz coef_sum big1 // => -[i /= Hi] _.
    by rewrite coefZ coefXn eqn_pmul2r // gtn_eqF // mulr0.
  rewrite (aset_set_nth 0) //; eexists; first by [].
  split; first by rewrite size_set_nth_in.
  rewrite big_ord_recr /= -Pz; apply/polyP => i.
  rewrite coefD coefZ coefXn !coef_Poly nth_set_nth /=.
  by case: eqP => [->|_]; rewrite ?z0 ?mulr1 ?mulr0 ?addr0 ?add0r.
by exists z.
Qed.

Section Erasures.
Variable idx : seq nat.
Hypothesis idx_lt : all (fun i => (i < B)%N) idx.
Hypothesis idx_size : (size idx <= rs_max)%N.

(** The polynomial vanishing on the erased positions. *)
Let V : {poly F} := \prod_(i <- idx) ('X - (omega fp b ^+ i)%:P).
Let Z : {poly F} := V \Po 'X^nb.

Let size_V : size V = (size idx).+1.
Proof.
rewrite /V -(big_map (fun i => omega fp b ^+ i) xpredT (fun x => 'X - x%:P)).
by rewrite size_prod_XsubC size_map.
Qed.

Let V0 : V != 0.
Proof. by rewrite -size_poly_gt0 size_V. Qed.

Let size_Xnb : size ('X^nb : {poly F}) = nb.+1.
Proof. exact: size_polyXn. Qed.

Let Z0 : Z != 0.
Proof. by rewrite /Z comp_poly_eq0 // size_Xnb. Qed.

Let size_Z : size Z = (size idx * nb).+1.
Proof. by rewrite (polySpred Z0) /Z size_comp_poly size_Xnb size_V. Qed.

Let Zhorner x : Z.[x] = \prod_(i <- idx) (x ^+ nb - omega fp b ^+ i).
Proof.
rewrite /Z horner_comp hornerXn /V horner_prod.
by apply: eq_bigr => i _; rewrite hornerXsubC.
Qed.

Let wnb : w ^+ nb = omega fp b.
Proof.
have Hs : (b + (k - b) <= fp_adicity fp)%N by rewrite subnKC.
by have := omega_sub Hs; rewrite subnKC // => ->.
Qed.

Let Zdom i : (i < N)%N -> (Z.[w ^+ i] == 0) = ((i %% B)%N \in idx).
Proof.
move=> Hi; rewrite Zhorner exprAC wnb -(expr_mod _ (omega_order ok Hb')) -/B.
rewrite prodf_seq_eq0.
apply/hasP/idP => [[j Hj]|Hj].
  rewrite /= subr_eq0 => /eqP E.
  by rewrite (@omega_inj _ _ ok b _ _ Hb' _ _ E) //; [exact: ltn_pmod | exact: (allP idx_lt)].
by exists (i %% B)%N => //=; rewrite subrr.
Qed.

Let Zcoset i : Z.[g * w ^+ i] != 0.
Proof.
rewrite Zhorner prodf_seq_neq0; apply/allP => j Hj; apply/implyP => _.
rewrite subr_eq0; apply/eqP => E; move/eqP: gN; apply.
have : ((g * w ^+ i) ^+ nb) ^+ B = 1.
  by rewrite E exprAC (omega_order ok Hb') expr1n.
rewrite -exprM mulnC -NB exprMn exprAC (omega_order ok Hk) expr1n mulr1 //.
Qed.

Lemma construct_vanishingE :
  exists2 z, construct_vanishing_poly_from_erasure_pattern mkrs idx = Ret (Ok z) &
    size z = N /\ Poly z = Z.
Proof.
rewrite /construct_vanishing_poly_from_erasure_pattern.
have -> : [seq i <- idx | (rs_block_size mkrs <= i)%N] = [::].
  rewrite (eq_in_filter (a2 := pred0)) ?filter_pred0 // => i Hi.
  by rewrite /= leqNgt (allP idx_lt).
rewrite acceptableE /= ltnNge idx_size /=.
rewrite /construct_vanishing_poly_from_block_erasures /=.
have -> : (size idx != 2 ^ b)%N by have := rs_max_lt; rewrite /B; lia.
rewrite /= (@omapM_Ret_in _ _ _ (fun i => omega fp b ^+ i)); last first.
  move=> i Hi; rewrite (aget_nth 0) ?size_mkseq ?nth_mkseq //; exact: (allP idx_lt).
rewrite /= size_mkseq.
have [v -> [Sv Pv]] /= := vanishing_poly_spec [seq omega fp b ^+ i | i <- idx].
rewrite size_map in Sv.
have [|z -> [Sz Pz]] := @expand_loop v; first by rewrite Sv; apply: leq_ltn_trans idx_size rs_max_lt.
exists z => //; split=> //; rewrite Pz /Z /V.
rewrite -(big_map (fun i => omega fp b ^+ i) xpredT (fun x => 'X - x%:P)) -Pv.
rewrite Poly_sum raddf_sum; apply: eq_bigr => i _ /=.
by rewrite comp_polyZ rmorphX /= comp_polyX -exprM mulnC.
Qed.

(** Agreement with the data outside the erased positions. *)
Definition rs_agrees (data : seq F) (f : {poly F}) : Prop :=
  forall i, (i < N)%N -> (i %% B)%N \notin idx -> f.[w ^+ i] = data`_i.

Lemma rs_agrees_unique data (f1 f2 : {poly F}) : (size f1 <= P)%N -> (size f2 <= P)%N ->
  rs_agrees data f1 -> rs_agrees data f2 -> f1 = f2.
Proof.
move=> S1 S2 A1 A2.
suff : f1 * Z = f2 * Z by apply: mulIf.
have Sm (f : {poly F}) : (size f <= P)%N -> (size (f * Z)%R <= N)%N.
  move=> Sf; apply: leq_trans (size_mul_leq _ _) _; rewrite size_Z.
  by have := rs_max_deg idx_size; lia.
apply: (poly_eq_on_domain ok Hk); [exact: Sm | exact: Sm |].
move=> i Hi; rewrite !hornerM; case: (boolP ((i %% B)%N \in idx)) => Hin.
  by have := Zdom Hi; rewrite Hin => /eqP ->; rewrite !mulr0.
by rewrite A1 ?A2.
Qed.

Theorem rs_recover_exact data :
  (exists2 c, recover_polynomial_coefficient mkrs data idx = Ret (Ok c) &
      size c = P /\ rs_agrees data (Poly c))
  \/ (recover_polynomial_coefficient mkrs data idx = Ret (Err (PolynomialHasInvalidLength N P))
      /\ forall f : {poly F}, (size f <= P)%N -> ~ rs_agrees data f).
Proof.
rewrite /recover_polynomial_coefficient /recover_polynomial_coefficient_erasure_pattern.
have [z -> [Sz Pz]] := construct_vanishingE.
rewrite obind_Ret; cbv zeta iota beta.
rewrite [rs_evaluation_domain _]/= [rs_fft_coset_gen _]/=.
rewrite (fft_scalars_eval ok Hk) obind_Ret take_oversize ?Sz // Pz.
set ez := map _ (zip _ data).
have Eez i : (i < N)%N -> ez`_i = Z.[w ^+ i] * data`_i.
  move=> Hi; rewrite /ez; case: (ltnP i (size data)) => Hd.
    rewrite (nth_map (0, 0)) ?nth_zip_cond ?size_zip ?size_mkseq ?leq_min ?Hi ?Hd //=.
    by rewrite nth_mkseq.
  by rewrite [data`_i]nth_default // mulr0 nth_default // size_map size_zip size_mkseq geq_min Hd orbT.
have [dz -> [Sdz Hdz]] := ifft_scalars_interp ok Hk ez.
rewrite obind_Ret !(coset_fft_scalars_eval ok Hk) !obind_Ret !take_oversize ?Sz ?Sdz // Pz.
rewrite [cf_generator _]/= batch_inverse_spec ?obind_Ret; last first.
  by apply/allP => x /mapP [i _ ->]; apply: Zcoset.
set q := map _ (zip _ _).
have Eq i : (i < N)%N -> q`_i = (Poly dz).[g * w ^+ i] / Z.[g * w ^+ i].
  move=> Hi; rewrite /q (nth_map (0, 0)) ?nth_zip ?size_zip ?size_map ?size_iota ?minnn //=.
  rewrite nth_mkseq //; congr (_ * _).
  by rewrite (nth_map 0) ?size_mkseq // nth_mkseq.
have [c -> [Sc Hc]] := coset_ifft_scalars_interp ok Hk q g0.
rewrite obind_Ret [rs_poly_len _]/= -/P -/N in Sc Hc *.
have Hdz' i : (i < N)%N -> (Poly dz).[w ^+ i] = Z.[w ^+ i] * data`_i.
  by move=> Hi; rewrite Hdz // Eez.
have Hc' i : (i < N)%N -> (Poly c).[g * w ^+ i] = (Poly dz).[g * w ^+ i] / Z.[g * w ^+ i].
  by move=> Hi; rewrite Hc // Eq.
have Sm (f : {poly F}) : (size f <= P)%N -> (size (f * Z)%R <= N)%N.
  move=> Sf; apply: leq_trans (size_mul_leq _ _) _; rewrite size_Z.
  by have := rs_max_deg idx_size; lia.
have SPdz : (size (Poly dz) <= N)%N by rewrite /N -Sdz size_Poly.
case: ifP => Hhas.
  right; rewrite Sc; split=> // f Sf Af.
  have E1 : f * Z = Poly dz.
    apply: (poly_eq_on_domain ok Hk) => //; first exact: Sm.
    move=> i Hi; rewrite hornerM Hdz' // mulrC.
    case: (boolP ((i %% B)%N \in idx)) => Hin; last by rewrite Af.
    by have := Zdom Hi; rewrite Hin => /eqP ->; rewrite !mul0r.
  have E2 : Poly c = f.
    apply: (poly_eq_on_coset ok Hk g0).
    - by rewrite -/N -Sc size_Poly.
    - exact: leq_trans Sf PN.
    - by move=> i Hi; rewrite Hc' // -E1 hornerM mulfK.
  case/hasP: Hhas => x /(nthP 0) [i]; rewrite size_drop Sc => Hi <-.
  rewrite nth_drop -coef_Poly E2 nth_default ?eqxx //.
  by apply: leq_trans Sf (leq_addr _ _).
left; rewrite /aslice Sc leq0n PN /= drop0 subn0.
exists (take P c) => //; split; first by rewrite size_takel // Sc.
have Ec : Poly (take P c) = Poly c.
  apply/polyP => i; rewrite !coef_Poly; case: (ltnP i P) => Hi; first by rewrite nth_take.
  rewrite [LHS]nth_default ?size_takel ?Sc //.
  case: (ltnP i N) => HiN; last by rewrite nth_default // Sc.
  apply/esym/eqP; apply: contraFT Hhas => Hne; apply/hasP; exists c`_i => //.
  by rewrite -(subnKC Hi) -nth_drop mem_nth // size_drop Sc; lia.
have Scp : (size (Poly c) <= P)%N.
  by rewrite -Ec; apply: leq_trans (size_Poly _) _; rewrite size_take Sc; case: ltnP PN; lia.
have E1 : Poly c * Z = Poly dz.
  apply: (poly_eq_on_coset ok Hk g0) => //; first exact: Sm.
  by move=> i Hi; rewrite hornerM Hc' // mulfVK.
rewrite Ec => i Hi Hin.
have Zi : Z.[w ^+ i] != 0 by rewrite Zdom.
by apply: (mulIf Zi); rewrite -hornerM E1 Hdz' // mulrC.
Qed.

Corollary rs_recover_ok data (f : {poly F}) : (size f <= P)%N -> rs_agrees data f ->
  recover_polynomial_coefficient mkrs data idx = Ret (Ok (resize P 0 f)).
Proof.
move=> Sf Af; case: (rs_recover_exact data) => [[c -> [Sc Ac]]|[_ H]]; last by case: (H f).
congr (Ret (Ok _)); apply: Poly_inj_size; rewrite ?size_resize // Poly_resize // polyseqK.
by apply: (rs_agrees_unique _ Sf Ac Af); rewrite -Sc size_Poly.
Qed.
End Erasures.

Lemma rs_recover_bad_index data idx : ~~ all (fun i => (i < B)%N) idx ->
  exists2 i, recover_polynomial_coefficient mkrs data idx = Ret (Err (InvalidBlockIndex i B)) &
    (B <= i)%N /\ exists pre post, idx = pre ++ i :: post /\ all (fun j => (j < B)%N) pre.
Proof.
move=> H; rewrite /recover_polynomial_coefficient /recover_polynomial_coefficient_erasure_pattern.
rewrite /construct_vanishing_poly_from_erasure_pattern /= -/B.
have : [seq i <- idx | (B <= i)%N] <> [::].
  by move/eqP; rewrite -size_eq0 size_filter -leqn0 leqNgt -has_count; move: H;
     rewrite -has_predC => H; rewrite (eq_has (a2 := predC (fun i => (i < B)%N))) ?H // => i /=;
     rewrite leqNgt.
case E : [seq i <- idx | (B <= i)%N] => [//|i l] _; exists i => //.
elim: idx E {H} => [//|j idx IH] /=; case: leqP => Hj.
  by case=> <- _; split=> //; exists [::], idx.
move=> /IH [Hi [pre [post [-> Hpre]]]]; split=> //.
by exists (j :: pre), post; rewrite /= Hj.
Qed.

Lemma rs_recover_too_many data idx : all (fun i => (i < B)%N) idx -> (rs_max < size idx)%N ->
  recover_polynomial_coefficient mkrs data idx = Ret (Err (TooManyBlockErasures (size idx) rs_max)).
Proof.
move=> Hall Hs; rewrite /recover_polynomial_coefficient /recover_polynomial_coefficient_erasure_pattern.
rewrite /construct_vanishing_poly_from_erasure_pattern.
have -> : [seq i <- idx | (rs_block_size mkrs <= i)%N] = [::].
  rewrite (eq_in_filter (a2 := pred0)) ?filter_pred0 // => i Hi.
  by rewrite /= leqNgt (allP Hall).
by rewrite acceptableE /= Hs.
Qed.

Theorem rs_encode_spec (poly : seq F) :
  rs_encode mkrs poly =
  if (size poly <= P)%N then Ret (Ok (mkseq (fun i => (Poly poly).[w ^+ i]) N))
  else Ret (Err (PolynomialHasTooManyCoefficients (size poly) P)).
Proof.
rewrite /rs_encode /= -/P; case: leqP => H //.
by rewrite (fft_scalars_eval ok Hk) take_oversize // (leq_trans H PN).
Qed.

(** Capacity for blocks dividing the message. *)
Lemma rs_max_div : (e <= b)%N -> rs_max = (B - B %/ 2 ^ e)%N.
Proof.
move=> He; rewrite /rs_max NB.
have -> : (P = B %/ 2 ^ e * nb)%N.
  by rewrite /P /B /nb -expnB // -expnD; congr (_ ^ _)%N; have := Hb; rewrite /k; lia.
by rewrite -mulnBl mulnK.
Qed.

End RS.
