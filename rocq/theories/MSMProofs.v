(** The multi-scalar multiplication with tables gives the linear combination. *)

From Coq Require Import NArith ZArith Init.Byte Strings.Byte.
From mathcomp Require Import ssreflect ssrfun ssrbool eqtype ssrnat seq div fintype bigop ssralg.
From mathcomp Require Import zify_ssreflect.
From Verif Require Import Base PolyCoeffProofs SpecKZG Lincomb FixedBaseMSM SpecMSM BoothProofs.

Set Implicit Arguments.
Unset Strict Implicit.
Unset Printing Implicit Defensive.

Import GRing.Theory.
Local Open Scope ring_scope.

Section ZMul.
Variable V : zmodType.
Implicit Types (P : V) (z : Z).

Lemma zmul_sub_nat (a b : nat) P : zmul (Z.of_nat a - Z.of_nat b) P = P *+ a - P *+ b.
Proof.
case: (leqP b a) => H.
  rewrite -mulrnBr //.
  have -> : (Z.of_nat a - Z.of_nat b)%Z = Z.of_nat (a - b) by lia.
  by case: (a - b)%N => [|n] //=; rewrite SuccNat2Pos.id_succ.
have -> : (Z.of_nat a - Z.of_nat b)%Z = (- Z.of_nat (b - a))%Z by lia.
rewrite -[RHS]opprK opprB -mulrnBr ?(ltnW H) //.
have : (0 < b - a)%N by lia.
by case: (b - a)%N => [|n] //= _; rewrite SuccNat2Pos.id_succ.
Qed.

Lemma zmul_nat (n : nat) P : zmul (Z.of_nat n) P = P *+ n.
Proof. by have := zmul_sub_nat n 0 P; rewrite Z.sub_0_r mulr0n subr0. Qed.

Lemma Z_nat_sub z : exists a b : nat, z = (Z.of_nat a - Z.of_nat b)%Z.
Proof. by exists (Z.to_nat z), (Z.to_nat (- z)); lia. Qed.

Lemma zmulD z1 z2 P : zmul (z1 + z2) P = zmul z1 P + zmul z2 P.
Proof.
have [a [b ->]] := Z_nat_sub z1; have [c [d ->]] := Z_nat_sub z2.
have -> : (Z.of_nat a - Z.of_nat b + (Z.of_nat c - Z.of_nat d) =
  Z.of_nat (a + c) - Z.of_nat (b + d))%Z by lia.
by rewrite !zmul_sub_nat !mulrnDr opprD addrACA.
Qed.

Lemma zmul_double z P : zmul (2 * z) P = zmul z P + zmul z P.
Proof. by rewrite -zmulD; congr zmul; lia. Qed.

Lemma zmul_shift w z P : zmul (2 ^ Z.of_nat w * z) P = iter w (fun r => r + r) (zmul z P).
Proof.
elim: w => [|w IH]; first by rewrite Z.pow_0_r Z.mul_1_l.
rewrite iterS -IH -zmul_double; congr zmul.
by rewrite Nat2Z.inj_succ Z.pow_succ_r; lia.
Qed.

Lemma zmul0 z : zmul z (0 : V) = 0.
Proof. by case: z => [|n|n] //=; rewrite mul0rn ?oppr0. Qed.

Lemma iter_doubleD w (P Q : V) :
  iter w (fun r => r + r) (P + Q) = iter w (fun r => r + r) P + iter w (fun r => r + r) Q.
Proof. by elim: w => [|w IH] //; rewrite !iterS IH addrACA. Qed.

Lemma iter_double0 w : iter w (fun r : V => r + r) 0 = 0.
Proof. by elim: w => [|w IH] //; rewrite iterS IH addr0. Qed.

(** Horner accumulation of the windows. *)
Definition horner (w : nat) (acc : seq V) : V :=
  foldr (fun p r => iter w (fun r => r + r) r + p) 0 acc.

Lemma hornerD w (I : Type) (f g : I -> V) (r : seq I) :
  horner w [seq f i + g i | i <- r] = horner w (map f r) + horner w (map g r).
Proof.
elim: r => [|i r IH] /=; first by rewrite addr0.
by rewrite IH iter_doubleD addrACA.
Qed.

Lemma horner0 w (I : Type) (r : seq I) : horner w [seq 0 | i <- r] = 0.
Proof. by elim: r => [|i r IH] //=; rewrite IH iter_double0 addr0. Qed.

Lemma horner_digits w n s P : (0 <= 2 * s < 2 ^ Z.of_nat (n * w))%Z ->
  horner w [seq zmul (signed_digit w s i) P | i <- iota 0 n] = zmul s P.
Proof.
move=> Hs; rewrite {2}(signed_digits_telescope w n s) nearest_small //.
elim: (iota 0 n) => [|i r IH] //=.
by rewrite zmulD zmul_shift IH addrC.
Qed.

End ZMul.

Section MSM.
Variables (F : fieldType) (V : lmodType F) (me : msm_env V).

Lemma precompute_pointsE w (P : V) : (0 < w)%N ->
  precompute_points w P = Ret (mkseq (fun k => P *+ k.+1) (2 ^ w.-1)).
Proof.
move=> Hw; rewrite /precompute_points Hw /=; congr Ret.
move: (2 ^ w.-1)%N => n; rewrite /mkseq.
suff H m pre : (foldl (fun (st : seq V * V) _ => (rcons st.1 st.2, st.2 + P))
    (pre, P *+ m.+1) (iota m n)).1 = pre ++ [seq P *+ k.+1 | k <- iota m n] by apply: (H 0%N).
elim: n m pre => [|n IH] m pre; first by rewrite /= cats0.
by rewrite [iota _ _]/= [foldl _ _ _]/= -mulrSr IH cat_rcons.
Qed.

(** The value of the encoding of a scalar. *)
Definition scalar_int (s : F) : Z := le_val (me_to_bytes_le me s).

Lemma window_pointsE w (pts : seq V) (ss : seq F) i : (0 < w <= 24)%N -> size pts = size ss ->
  forall pw, precomp_window_new pts w = Ret pw ->
  window_points pw (map (me_to_bytes_le me) ss) i =
  Ret (window_terms w pts (map scalar_int ss) i).
Proof.
move=> Hw S pw; have Hw0 : (0 < w)%N by lia.
rewrite /precomp_window_new (omapM_Ret (g := fun P => mkseq (fun k => P *+ k.+1) (2 ^ w.-1)));
  last by move=> P; exact: precompute_pointsE.
move=> [<-]; rewrite /window_points /=.
match goal with |- ofor _ ?b _ = _ => set body := b end.
rewrite size_map /window_terms.
suff H k (acc : seq V) (pre ps : seq V) (bs : seq F) : size ps = size bs -> size pre = k ->
    pts = pre ++ ps ->
    ofor (zip (iota k (size bs)) (map (me_to_bytes_le me) bs)) body acc =
    Ret (acc ++ [seq zmul (signed_digit w ps.2 i) ps.1
        | ps <- [seq ps <- zip ps (map scalar_int bs) | ~~ (signed_digit w ps.2 i =? 0)%Z]]).
  by rewrite (H 0%N [::] [::] pts ss).
elim: ps bs k acc pre => [|P ps IH] [|s bs] // k acc pre Sb Sk Ep; first by rewrite /= cats0.
case: Sb => Sb.
rewrite [size _]/= [iota _ _]/= [zip _ _]/= [ofor _ _ _]/=.
have Sk1 : size (rcons pre P) = k.+1 by rewrite size_rcons Sk.
have Ep1 : pts = rcons pre P ++ ps by rewrite cat_rcons.
rewrite {1}/body (aget_nth [::]); last by rewrite size_map Ep size_cat /= Sk; lia.
rewrite (nth_map 0); last by rewrite Ep size_cat /= Sk; lia.
rewrite {1}Ep nth_cat Sk ltnn subnn [nth _ _ _]/= obind_Ret get_booth_index_digit // obind_Ret.
rewrite -/(scalar_int s).
set d := signed_digit w (scalar_int s) i.
have Ed : [seq ps <- zip (P :: ps) (map scalar_int (s :: bs)) | ~~ (signed_digit w ps.2 i =? 0)%Z] =
  if (d =? 0)%Z then [seq ps <- zip ps (map scalar_int bs) | ~~ (signed_digit w ps.2 i =? 0)%Z]
  else (P, scalar_int s) :: [seq ps <- zip ps (map scalar_int bs) | ~~ (signed_digit w ps.2 i =? 0)%Z].
  by rewrite /= -/d; case: (d =? 0)%Z.
rewrite Ed; case: (Z.eqb_spec d 0) => [_|Hd]; first by rewrite obind_Ret (IH bs k.+1 _ (rcons pre P)).
have Hb : (Z.abs d <= 2 ^ (Z.of_nat w - 1))%Z.
  by apply: signed_digit_bound; [lia|exact: le_val_ge0].
have Hi : (Z.to_nat (Z.abs d) - 1 < 2 ^ w.-1)%N.
  have E : Z.of_nat (2 ^ w.-1) = (2 ^ (Z.of_nat w - 1))%Z.
    by rewrite -nat_N_Z N_of_nat_expn2 N2Z.inj_pow; congr Z.pow; lia.
  by move: E Hb Hd; clearbody d; clear; move: (2 ^ w.-1)%N (2 ^ (Z.of_nat w - 1))%Z => a b; lia.
rewrite (aget_nth 0) ?size_mkseq // nth_mkseq // !obind_Ret (IH bs k.+1 _ (rcons pre P)) //.
rewrite cat_rcons map_cons; congr (Ret (acc ++ _ :: _)); rewrite -/d [(_, _).1]/=.
have -> : (Z.to_nat (Z.abs d) - 1).+1 = Z.to_nat (Z.abs d) by move: Hd; clearbody d; clear; lia.
clearbody d; case: d Hd {Hb Hi Ed} => [|p|p] //= _; by rewrite Pos2Nat.id.
Qed.

Lemma sum_window_terms w (pts : seq V) (ss : seq Z) i :
  \sum_(P <- window_terms w pts ss i) P =
  \sum_(ps <- zip pts ss) zmul (signed_digit w ps.2 i) ps.1.
Proof.
rewrite /window_terms big_map big_filter big_mkcond; apply: eq_bigr => ps _.
by case: Z.eqb_spec => //= ->.
Qed.

Lemma horner_sum (I : Type) w (z : seq I) (f : I -> nat -> V) (r : seq nat) :
  horner w [seq \sum_(x <- z) f x i | i <- r] = \sum_(x <- z) horner w [seq f x i | i <- r].
Proof.
elim: z => [|x z IH].
  rewrite big_nil -[RHS](horner0 V w r); congr horner; apply: eq_map => i; exact: big_nil.
rewrite big_cons -IH -hornerD; congr horner; apply: eq_map => i; exact: big_cons.
Qed.

(** The encoding of scalars: [num_bits] bits, and the integer stands for the scalar. *)
Definition encoding_ok : Prop :=
  forall s : F, (le_val (me_to_bytes_le me s) < 2 ^ Z.of_nat (me_num_bits me))%Z /\
    (Z.to_nat (le_val (me_to_bytes_le me s)))%:R = s.

Lemma sum_zip_lincomb (pts : seq V) (ss : seq F) : size pts = size ss ->
  \sum_(ps <- zip pts ss) ps.2 *: ps.1 = lincomb pts ss.
Proof.
move=> S; rewrite /lincomb -S minnn (big_nth (0, 0)) size_zip -S minnn big_mkord.
by apply: eq_bigr => i _; rewrite nth_zip.
Qed.

Lemma precomp_window_msmE w (pts : seq V) (ss : seq F) : (0 < w <= 24)%N -> encoding_ok ->
  size pts = size ss ->
  let ws := [seq window_terms w pts (map scalar_int ss) i | i <- iota 0 (me_num_bits me %/ w).+1] in
  me_multi_batch_addition me ws = Ret [seq \sum_(P <- l) P | l <- ws] ->
  forall pw, precomp_window_new pts w = Ret pw ->
  precomp_window_msm me pw ss = Ret (lincomb pts ss).
Proof.
move=> Hw He S ws Hb pw Epw; rewrite /precomp_window_msm.
have Ew : pw_wbits pw = w by move: Epw; rewrite /precomp_window_new; case: (omapM _ _) => // t [<-].
rewrite Ew; have -> : w != 0%N by lia.
cbv zeta; rewrite /oassert.
rewrite (omapM_Ret (g := window_terms w pts (map scalar_int ss))); last first.
  by move=> i; exact: (window_pointsE i Hw S Epw).
rewrite obind_Ret -/ws Hb obind_Ret.
set acc := [seq \sum_(P <- l) P | l <- ws].
have Hacc : acc = [seq \sum_(ps <- zip pts (map scalar_int ss)) zmul (signed_digit w ps.2 i) ps.1
     | i <- iota 0 (me_num_bits me %/ w).+1].
  by rewrite /acc /ws -map_comp; apply: eq_map => i /=; exact: sum_window_terms.
have Hne : size acc = (me_num_bits me %/ w).+1 by rewrite Hacc size_map size_iota.
case E: (rev acc) => [|x rest]; first by move: Hne; rewrite -size_rev E.
have -> : foldl (fun result point => iter w (fun r => r + r) result + point) x rest = horner w acc.
  rewrite -[acc]revK E rev_cons /horner -cats1 foldr_cat /= iter_double0 add0r.
  by rewrite -[rest in LHS]revK foldl_rev.
congr Ret; rewrite Hacc (horner_sum w (zip pts (map scalar_int ss)) (fun ps i => zmul (signed_digit w ps.2 i) ps.1)).
rewrite -(sum_zip_lincomb S).
have -> : zip pts (map scalar_int ss) = [seq (ps.1, scalar_int ps.2) | ps <- zip pts ss].
  by elim: (pts) (ss) => [|P l IH] [|s l'] //=; rewrite IH.
rewrite big_map; apply: eq_bigr => -[P s] _.
rewrite -[RHS]/(s *: P) -[LHS]/(horner w [seq zmul (signed_digit w (scalar_int s) i) P
  | i <- iota 0 (me_num_bits me %/ w).+1]).
have [H1 H2] := He s; have H0 := @le_val_ge0 (me_to_bytes_le me s).
rewrite horner_digits.
  by rewrite -{2}H2 scaler_nat -zmul_nat Z2Nat.id.
have Hn : ((me_num_bits me).+1 <= (me_num_bits me %/ w).+1 * w)%N.
  have H0w : (0 < w)%N by lia.
  by have := ltn_ceil (me_num_bits me) H0w; rewrite mulSn.
have Hp : (2 * 2 ^ Z.of_nat (me_num_bits me) <= 2 ^ Z.of_nat ((me_num_bits me %/ w).+1 * w))%Z.
  by rewrite -Z.pow_succ_r; [apply: Z.pow_le_mono_r; lia|lia].
by move: H1 H0 Hp; rewrite /scalar_int; clear; lia.
Qed.

End MSM.
