(** C43: what a trusted setup must look like, and what is loaded from it. *)

From Coq Require Import NArith Init.Byte Strings.Byte.
From mathcomp Require Import ssreflect ssrfun ssrbool eqtype ssrnat seq ssralg.
From mathcomp Require Import zify_ssreflect.
From Verif Require Import Base Bytes SpecSetup TrustedSetup TrustedSetupProofs PolyCoeffProofs.
From Verif Require Import Lincomb FixedBaseMSM FK20Prover FK20Verifier Eip7594 Domain Fr PropVerify.

Set Implicit Arguments.
Unset Strict Implicit.
Unset Printing Implicit Defensive.

(** A string is the text of at most one byte array. *)
Theorem C43_hex_unique s b b' : hex_string s b -> hex_string s b' -> b = b'.
Proof.
move=> /hex_stringE [r E H] /hex_stringE [r' E' H'].
by move: H'; rewrite E in E'; case: E' => <-; rewrite H => -[].
Qed.

Section Keys.
Variables (P1 P2 : Type).
Variables (g1_dec g1_dec_unchecked : seq byte -> option P1).
Variables (g2_dec g2_dec_unchecked : seq byte -> option P2).
Local Notation commit_key := (to_commit_key g1_dec g1_dec_unchecked).
Local Notation verification_key :=
  (setup_verification_key g1_dec g1_dec_unchecked g2_dec g2_dec_unchecked eip7594_consts).
Definition dec1 (c : subgroup_check) := match c with Check => g1_dec | NoCheck => g1_dec_unchecked end.
Definition dec2 (c : subgroup_check) := match c with Check => g2_dec | NoCheck => g2_dec_unchecked end.

Lemma exists_Forall2 (A B : Type) (R : A -> B -> Prop) (l : seq A) :
  (exists r, List.Forall2 R l r) <-> List.Forall (fun a => exists b, R a b) l.
Proof.
split=> [[r]|]; first by elim=> [|a b l' r' H _ IH]; constructor=> //; exists b.
elim=> [|a l' [b H] _ [r IH]]; first by exists [::].
by exists (b :: r); constructor.
Qed.

(** The commit key can be loaded exactly if there is a string and every string is 0x and 96 hex
    digits of a point that the chosen decompression accepts. Otherwise loading panics. *)
Theorem C43_commit_key ts c :
  (exists key, commit_key ts c = Ret key) <->
  0 < size (ts_g1_monomial ts) /\
  List.Forall (fun s => exists p, point_string 48 (dec1 c) s p) (ts_g1_monomial ts).
Proof.
rewrite -exists_Forall2; split.
  move=> [key /to_commit_keyP [H Hs]]; split; last by exists key.
  by rewrite (Forall2_size H).
move=> [Hs [key H]]; exists key; apply/to_commit_keyP; split=> //.
by rewrite -(Forall2_size H).
Qed.

(** Both keys can be loaded exactly if moreover every G2 string is 0x and 192 hex digits of an
    accepted point, there are more than 64 of them and not more than G1 strings. *)
Theorem C43_keys ts c :
  ((exists key, commit_key ts c = Ret key) /\ (exists vk, verification_key ts c = Ret vk)) <->
  [/\ List.Forall (fun s => exists p, point_string 48 (dec1 c) s p) (ts_g1_monomial ts),
      List.Forall (fun s => exists p, point_string 96 (dec2 c) s p) (ts_g2_monomial ts),
      64 < size (ts_g2_monomial ts) &
      size (ts_g2_monomial ts) <= size (ts_g1_monomial ts)].
Proof.
rewrite C43_commit_key; split.
  move=> [[Hs H1] [vk /setup_verification_keyP [H2 Hle _ Hlt _]]]; split=> //.
  by apply/exists_Forall2; exists (vp_g2s vk).
move=> [H1 H2 Hlt Hle]; split; first by split=> //; lia.
have [q1 F1] := (exists_Forall2 _ _).2 H1; have [q2 F2] := (exists_Forall2 _ _).2 H2.
have [g2 E] : exists g2, aget q2 0 = Ret g2.
  by have := Forall2_size F2; case: q2 F2 => [|x q] _ H; [rewrite H in Hlt|exists x].
exists (MkVkPoints (take (size (ts_g2_monomial ts)) q1) q2 g2 64 (2 ^ 12)).
by apply/setup_verification_keyP; split=> //; apply: Forall2_take.
Qed.

(** What is loaded: the i-th element of a key is the point of the i-th string; the commit key has
    all G1 points, the verification key all G2 points and as many G1 points. *)
Theorem C43_commit_key_points ts c key : commit_key ts c = Ret key ->
  size key = size (ts_g1_monomial ts) /\
  forall i p0, i < size key ->
    point_string 48 (dec1 c) (nth [::] (ts_g1_monomial ts) i) (nth p0 key i).
Proof.
move=> /to_commit_keyP [H _]; split; first by rewrite (Forall2_size H).
move=> i p0; elim: H i => [|s p ss ps Hp _ IH] [|i] //= Hi; exact: IH.
Qed.

Theorem C43_verification_key_points ts c vk : verification_key ts c = Ret vk ->
  [/\ size (vp_g2s vk) = size (ts_g2_monomial ts), size (vp_g1s vk) = size (ts_g2_monomial ts),
      vp_coset_size vk = 64 & vp_num_coefficients vk = (2 ^ 12)] /\
  [/\ forall p0, vp_g2_gen vk = nth p0 (vp_g2s vk) 0,
      forall i p0, i < size (vp_g2s vk) ->
        point_string 96 (dec2 c) (nth [::] (ts_g2_monomial ts) i) (nth p0 (vp_g2s vk) i) &
      forall i p0, i < size (vp_g1s vk) ->
        point_string 48 (dec1 c) (nth [::] (ts_g1_monomial ts) i) (nth p0 (vp_g1s vk) i)].
Proof.
move=> /setup_verification_keyP [H2 Hle H1 Hlt [Eg Ec En]].
have S1 := Forall2_size H1; have S2 := Forall2_size H2.
have St : size (vp_g1s vk) = size (ts_g2_monomial ts) by rewrite -S1 size_takel.
split; first exact: (And4 (esym S2) St Ec En).
split.
- by move=> p0; move: Eg; rewrite (aget_nth p0) => [[]//|]; rewrite -S2; apply: leq_trans Hlt.
- by move=> i p0; elim: H2 i => [|s p ss ps Hp _ IH] [|i] //= Hi; apply: IH.
move=> i p0 Hi; rewrite -(@nth_take (size (ts_g2_monomial ts))); last by rewrite -St.
by elim: H1 i Hi => [|s p ss ps Hp _ IH] [|i] //= Hi; apply: IH.
Qed.

(** [from_json] accepts exactly the setups whose keys can be loaded with subgroup checks. If a point
    accepted with the check is the same without, the keys then loaded without checks (as a
    [DASContext] does) are the checked ones. *)
Theorem C43_from_json parse json ts :
  from_json g1_dec g1_dec_unchecked g2_dec g2_dec_unchecked eip7594_consts parse json = Ret ts <->
  [/\ parse json = Some ts, exists key, commit_key ts Check = Ret key
    & exists vk, verification_key ts Check = Ret vk].
Proof.
rewrite /from_json /from_json_unchecked; split.
  case: (parse json) => [t|] //=; rewrite /validate_trusted_setup.
  case E: (commit_key t Check) => [k|] //=; case E': (verification_key t Check) => [v|] //= -[<-].
  by split=> //; [exists k|exists v].
by move=> [-> [k E] [v E']]; rewrite /= /validate_trusted_setup E /= E'.
Qed.

Theorem C43_checked_then_unchecked ts key vk :
  (forall b p, g1_dec b = Some p -> g1_dec_unchecked b = Some p) ->
  (forall b p, g2_dec b = Some p -> g2_dec_unchecked b = Some p) ->
  commit_key ts Check = Ret key -> verification_key ts Check = Ret vk ->
  commit_key ts NoCheck = Ret key /\ verification_key ts NoCheck = Ret vk.
Proof.
move=> D1 D2.
have L (P : Type) n (d d' : seq byte -> option P) ss ps : (forall b p, d b = Some p -> d' b = Some p) ->
    point_strings n d ss ps -> point_strings n d' ss ps.
  move=> D; elim=> [|s p ss' ps' [b [Hs Hh Hd]] _ IH]; first by constructor.
  by constructor=> //; exists b; split=> //; apply: D.
move=> /to_commit_keyP [H Hs] /setup_verification_keyP [H2 Hle H1 Hlt Hr]; split.
  by apply/to_commit_keyP; split=> //; apply: L H.
by apply/setup_verification_keyP; split=> //; [apply: L H2|apply: L H1].
Qed.

(** The list g1_lagrange is never looked at. *)
Theorem C43_lagrange_unused g1 l l' g2 c :
  commit_key (MkTrustedSetup g1 l g2) c = commit_key (MkTrustedSetup g1 l' g2) c /\
  verification_key (MkTrustedSetup g1 l g2) c = verification_key (MkTrustedSetup g1 l' g2) c.
Proof. by []. Qed.

End Keys.

Section Context.
Variables (G1 G2 : lmodType Fr) (g1_dec : seq byte -> option G1) (g2_dec : seq byte -> option G2).

(** The context of a setup with these points is the context of the points. *)
Theorem C43_context_points ts (g1s : seq G1) (g2s : seq G2) up :
  point_strings 48 g1_dec (ts_g1_monomial ts) g1s ->
  point_strings 96 g2_dec (ts_g2_monomial ts) g2s ->
  das_context_from_setup fr_params eip7594_consts g1_dec g2_dec ts up =
  das_context_new fr_params eip7594_consts g1s g2s up.
Proof. exact: das_context_from_setupE. Qed.

(** 4096 and 65 well-formed strings are enough for a context. *)
Theorem C43_context ts :
  List.Forall (fun s => exists p, point_string 48 g1_dec s p) (ts_g1_monomial ts) ->
  List.Forall (fun s => exists p, point_string 96 g2_dec s p) (ts_g2_monomial ts) ->
  size (ts_g1_monomial ts) = 2 ^ 12 -> size (ts_g2_monomial ts) = 65 ->
  exists ctx, das_context_from_setup fr_params eip7594_consts g1_dec g2_dec ts PrecompNo = Ret ctx.
Proof.
move=> /exists_Forall2 [g1s H1] /exists_Forall2 [g2s H2] S1 S2.
have [ctx E] : exists ctx, das_context_new fr_params eip7594_consts g1s g2s PrecompNo = Ret ctx.
  by apply: C18_context; [rewrite -(Forall2_size H1)|rewrite -(Forall2_size H2)].
exists ctx; rewrite -E; exact: (C43_context_points PrecompNo H1 H2).
Qed.

End Context.

Print Assumptions C43_keys.
Print Assumptions C43_context.
