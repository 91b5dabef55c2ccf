(** Proofs for TrustedSetup.v. *)

From Coq Require Import NArith Init.Byte Strings.Byte Lia.
From mathcomp Require Import ssreflect ssrfun ssrbool eqtype ssrnat seq ssralg.
From mathcomp Require Import zify_ssreflect.
From Verif Require Import Base Bytes SpecSetup TrustedSetup Eip7594 PolyCoeffProofs.
From Verif Require Import Lincomb FixedBaseMSM FK20Prover FK20Verifier Domain.

Set Implicit Arguments.
Unset Strict Implicit.
Unset Printing Implicit Defensive.

Lemma hex_valP c d : hex_val c = Some d <-> hex_digit c d.
Proof.
split; first by case: c => //= -[<-].
rewrite /hex_digit => /andP [].
by move: (N.to_nat d) (N2Nat.id d) => k <-; do 16!(case: k => [|k]; first by move=> _ /orP [] /eqP ->).
Qed.

Lemma hex_digit_lt c d : hex_digit c d -> (d < 16)%num.
Proof. by rewrite /hex_digit => /andP [H _]; lia. Qed.

Lemma hex_digit_fun c d d' : hex_digit c d -> hex_digit c d' -> d = d'.
Proof. by move=> /hex_valP H /hex_valP; rewrite H => -[]. Qed.

(** The digits after the prefix. *)
Definition hex_digits (s b : seq byte) : Prop :=
  size s = 2 * size b /\
  forall i, i < size b ->
    hex_digit (nth "000"%byte s (2 * i)) (Byte.to_N (nth "000"%byte b i) / 16) /\
    hex_digit (nth "000"%byte s (1 + 2 * i)) (Byte.to_N (nth "000"%byte b i) mod 16).

Lemma hex_digits_cons c1 c0 s y b : hex_digits (c1 :: c0 :: s) (y :: b) <->
  [/\ hex_digit c1 (Byte.to_N y / 16), hex_digit c0 (Byte.to_N y mod 16) & hex_digits s b].
Proof.
split=> [[Hs H]|[H1 H0 [Hs H]]].
  have [? ?] := H 0 isT; split=> //; split=> [|i Hi]; first by move: Hs => /=; lia.
  have := H i.+1 Hi; rewrite [nth _ (y :: b) _]/=.
  have -> : 2 * i.+1 = (2 * i).+2 by lia.
  by rewrite add1n.
split=> [|[|i] Hi]; [by rewrite /= Hs; lia | by [] |].
have -> : 2 * i.+1 = (2 * i).+2 by lia.
by have := H i Hi; rewrite !add1n.
Qed.

Lemma byte_split h l y : (h < 16)%num -> (l < 16)%num ->
  byte_of (h * 16 + l) = y <-> h = (Byte.to_N y / 16)%num /\ l = (Byte.to_N y mod 16)%num.
Proof.
move=> Hh Hl; split=> [<-|[-> ->]].
  rewrite to_N_byte_of N.mod_small; last by lia.
  rewrite N.div_add_l // N.div_small // N.add_0_r; split=> //.
  by rewrite N.add_comm N.mod_add // N.mod_small.
by rewrite -[RHS]byte_of_to_N; congr byte_of; rewrite N.mul_comm -N.div_mod'.
Qed.

Lemma hex_decodeP s b : hex_decode s = Some b <-> hex_digits s b.
Proof.
have [n Hn] : exists n, size s <= n by exists (size s).
elim: n s b Hn => [|n IH] [|c1 [|c0 s]] b //= Hn.
- by split=> [[<-]|[+ _]]; last case: b.
- by split=> [[<-]|[+ _]]; last case: b.
- by split=> // -[/= H _]; lia.
have Hs : size s <= n by lia.
case: b => [|y b].
  split=> [|[] //]; by case: (hex_val c1) => // ?; case: (hex_val c0) => // ?; case: (hex_decode s).
rewrite hex_digits_cons; split.
  case E1: (hex_val c1) => [h|] //; case E0: (hex_val c0) => [l|] //.
  case Es: (hex_decode s) => [b'|] // -[Ey <-].
  move/hex_valP: E1 => E1; move/hex_valP: E0 => E0.
  have [<- <-] := (byte_split _ (hex_digit_lt E1) (hex_digit_lt E0)).1 Ey.
  by split=> //; apply/IH.
case=> /hex_valP E1 /hex_valP E0 /(IH _ _ Hs) ->; rewrite E1 E0.
congr (Some (_ :: _)); apply/byte_split => //.
- exact/hex_digit_lt/hex_valP/E1.
- exact/hex_digit_lt/hex_valP/E0.
Qed.

Lemma hex_stringE s b : hex_string s b <->
  exists2 rest, strip_prefix_0x s = Some rest & hex_decode rest = Some b.
Proof.
split.
  case: s => [|c0 [|c1 s]] [Hs Hp H] //=; case: Hp => -> ->; rewrite !eqxx /=.
  exists s => //; apply/hex_decodeP; split=> [|i Hi]; first by move: Hs => /=; lia.
  exact: H.
case: s => [|c0 [|c1 s]] [rest] //=.
case: andP => [[/eqP -> /eqP ->]|] // [<-] /hex_decodeP [Hs H].
split=> //=; first by rewrite Hs.
by case: s {Hs} H => //= ? ? H _; rewrite take0.
Qed.

Lemma deserialize_pointP (P : Type) n (dec : seq byte -> option P) s p :
  deserialize_point n dec s = Ret p <-> point_string n dec s p.
Proof.
rewrite /deserialize_point; split.
  case E: (strip_prefix_0x s) => [rest|] //=; case E': (hex_decode rest) => [b|] //=.
  case: eqP => // Hs; rewrite /oassert; case Ed: (dec b) => [q|] //= [<-].
  by exists b; split=> //; apply/hex_stringE; exists rest.
case=> b [Hs /hex_stringE [rest -> /= ->] Hd] /=.
by rewrite Hs eqxx /oassert Hd.
Qed.

Lemma omapM_Forall2 (A B : Type) (f : A -> outcome B) (R : A -> B -> Prop) l r :
  (forall a b, f a = Ret b <-> R a b) -> omapM f l = Ret r <-> List.Forall2 R l r.
Proof.
move=> H; elim: l r => [|a l IH] r /=.
  by split=> [[<-] //|HF]; inversion HF.
split.
  case E: (f a) => [b|] //=; case El: (omapM f l) => [bs|] //= [<-].
  by constructor; [apply/H|apply/IH].
move=> HF; inversion HF as [|? b ? bs Hb Hbs]; subst.
by move/H: Hb => ->; move/IH: Hbs => ->.
Qed.

Lemma Forall2_size (A B : Type) (R : A -> B -> Prop) l r : List.Forall2 R l r -> size l = size r.
Proof. by elim=> //= ? ? ? ? _ _ ->. Qed.

Lemma Forall2_take (A B : Type) (R : A -> B -> Prop) l r k :
  List.Forall2 R l r -> List.Forall2 R (take k l) (take k r).
Proof. by move=> H; elim: H k => [|x y l' r' H _ IH] [|k] //=; constructor. Qed.

Section Keys.
Variables (P1 P2 : Type).
Variables (d1 u1 : seq byte -> option P1) (d2 u2 : seq byte -> option P2).
Definition sel1 (c : subgroup_check) := match c with Check => d1 | NoCheck => u1 end.
Definition sel2 (c : subgroup_check) := match c with Check => d2 | NoCheck => u2 end.

Lemma deserialize_g1_pointsP ss c ps :
  deserialize_g1_points d1 u1 ss c = Ret ps <-> point_strings 48 (sel1 c) ss ps.
Proof. by apply: omapM_Forall2 => s p; case: c; apply: deserialize_pointP. Qed.

Lemma deserialize_g2_pointsP ss c ps :
  deserialize_g2_points d2 u2 ss c = Ret ps <-> point_strings 96 (sel2 c) ss ps.
Proof. by apply: omapM_Forall2 => s p; case: c; apply: deserialize_pointP. Qed.

Lemma to_commit_keyP ts c ps : to_commit_key d1 u1 ts c = Ret ps <->
  point_strings 48 (sel1 c) (ts_g1_monomial ts) ps /\ 0 < size ps.
Proof.
rewrite /to_commit_key; split.
  case E: (deserialize_g1_points d1 u1 _ c) => [qs|] //=; case: qs E => //= q qs E [<-].
  by split=> //; apply/deserialize_g1_pointsP.
by move=> [/deserialize_g1_pointsP ->]; case: ps.
Qed.

Lemma setup_verification_keyP K ts c v : setup_verification_key d1 u1 d2 u2 K ts c = Ret v <->
  [/\ point_strings 96 (sel2 c) (ts_g2_monomial ts) (vp_g2s v),
      size (ts_g2_monomial ts) <= size (ts_g1_monomial ts),
      point_strings 48 (sel1 c) (take (size (ts_g2_monomial ts)) (ts_g1_monomial ts)) (vp_g1s v),
      FIELD_ELEMENTS_PER_CELL K < size (ts_g2_monomial ts) &
      [/\ aget (vp_g2s v) 0 = Ret (vp_g2_gen v), vp_coset_size v = FIELD_ELEMENTS_PER_CELL K
        & vp_num_coefficients v = FIELD_ELEMENTS_PER_BLOB K]].
Proof.
rewrite /setup_verification_key; split.
  case E2: (deserialize_g2_points d2 u2 (ts_g2_monomial ts) c) => [q2|] //=.
  move/deserialize_g2_pointsP: E2 => E2; have S2 := Forall2_size E2.
  rewrite /aslice /= subn0 drop0; case Hle: (size q2 <= size (ts_g1_monomial ts)) => //=.
  case E1: (deserialize_g1_points d1 u1 (take (size q2) (ts_g1_monomial ts)) c) => [q1|] //=.
  case Eg: (aget q2 0) => [g|] //=; case Hlt: (FIELD_ELEMENTS_PER_CELL K < size q2) => //= -[<-] /=.
  move/deserialize_g1_pointsP: E1; rewrite -S2 => E1.
  by split=> //; rewrite S2.
case: v => g1s g2s gen cs nc /= [E2 Hle E1 Hlt [Eg -> ->]]; have S2 := Forall2_size E2.
move/deserialize_g2_pointsP: E2 => -> /=.
rewrite /aslice /= subn0 drop0 -S2 Hle /=.
move/deserialize_g1_pointsP: E1 => -> /=; rewrite Eg /=.
by rewrite Hlt.
Qed.

End Keys.

Lemma das_context_from_setupE (F : fieldType) (G1 G2 : lmodType F) (fp : fparams F) (K : consts)
  (g1_dec : seq byte -> option G1) (g2_dec : seq byte -> option G2) ts (g1s : seq G1) (g2s : seq G2) up :
  point_strings 48 g1_dec (ts_g1_monomial ts) g1s ->
  point_strings 96 g2_dec (ts_g2_monomial ts) g2s ->
  das_context_from_setup fp K g1_dec g2_dec ts up = das_context_new fp K g1s g2s up.
Proof.
move=> H1 H2; rewrite /das_context_from_setup /das_context_new /prover_context_new.
rewrite /verifier_context_new /to_verification_key /to_commit_key /setup_verification_key.
have S1 := Forall2_size H1; have S2 := Forall2_size H2.
have -> : deserialize_g1_points g1_dec g1_dec (ts_g1_monomial ts) NoCheck = Ret g1s.
  exact/deserialize_g1_pointsP.
have -> : deserialize_g2_points g2_dec g2_dec (ts_g2_monomial ts) NoCheck = Ret g2s.
  exact/deserialize_g2_pointsP.
rewrite /commit_key_new /verification_key_new !obind_Ret.
case: (~~ nilp g1s); rewrite /oassert; last by [].
rewrite !obind_Ret; move: (fk20_prover_new _ _ _ _ _ _) => [pr|]; last by [].
rewrite !obind_Ret; move: (ReedSolomon.rs_new _ _ _ _) => [rs|]; last by [].
rewrite !obind_Ret /aslice S1; case: ((0 <= size g2s) && (size g2s <= size g1s)); last by [].
rewrite !obind_Ret !subn0 !drop0.
have -> : deserialize_g1_points g1_dec g1_dec (take (size g2s) (ts_g1_monomial ts)) NoCheck =
    Ret (take (size g2s) g1s) by apply/deserialize_g1_pointsP; apply: Forall2_take.
rewrite !obind_Ret; case: (aget g2s 0) => [g|]; last by [].
rewrite !obind_Ret; case: (_ < _); last by [].
by rewrite !obind_Ret.
Qed.
