(** From the hash of the transcript to the challenge, and how many hash values let a wrong batch pass (C57). *)

From Coq Require Import ZArith NArith Init.Byte Strings.Byte.
From mathcomp Require Import ssreflect ssrfun ssrbool eqtype ssrnat seq div fintype bigop.
From mathcomp Require Import ssralg poly polydiv zify_ssreflect.
From Verif Require Import Base Bytes Spec SpecKZG SpecDAS FixedBaseMSM LincombProofs.
From Verif Require Import FK20Verifier VerifierSoundness Eip7594 Eip7594Proofs ApiVerifyProofs ApiEip.
From Verif Require Import ZField FrPrime Fr SpecFr FrEnv SpecVerify PropProver PropRecover PropVerify Reduce.

Set Implicit Arguments.
Unset Strict Implicit.
Unset Printing Implicit Defensive.

Import GRing.Theory.
Local Open Scope ring_scope.

Lemma reduceE b : reduce_bytes_to_scalar_bias b = @of_Z rZ (Z.of_N (be_val b)).
Proof. by rewrite /reduce_bytes_to_scalar_bias /blst_fr_from_scalar /blst_scalar_from_bendian revK. Qed.

(** ** Counting *)
Lemma size_fibres (T U : eqType) (f : T -> U) m (us : seq U) (s : seq T) :
  (forall x, count (fun y => f y == x) s <= m)%N -> {subset map f s <= us} -> (size s <= m * size us)%N.
Proof.
elim: us s => [|u us IH] s Hm Hs.
  case: s Hs {Hm} => [|y s] // Hs; by have := Hs (f y) (mem_head _ _).
have -> : size s = (count (fun y => f y == u) s + size [seq y <- s | f y != u])%N.
  by rewrite size_filter; exact: (esym (count_predC _ s)).
rewrite [size (_ :: _)]/= mulnS leq_add // IH // => [x|x /mapP[y]].
  by apply: leq_trans (Hm x); rewrite count_filter; apply: sub_count => y /= /andP[].
rewrite mem_filter => /andP[ne Hy] E.
by have := Hs x; rewrite E inE (negbTE ne) /=; apply; exact: map_f.
Qed.

Section Values.
Local Open Scope Z_scope.
(** The strings of 32 bytes whose value is x, x + r, x + 2 r *)
Definition lift_ (r : Z) (x k : Z) : seq byte := be_bytes 32 (Z.to_N (x + k * r)).
Lemma lift_val (r M x k : Z) : M = Z.of_N (256 ^ N.of_nat 32) -> 0 <= x -> 0 <= k -> 0 < r -> x + k * r < M ->
  Z.of_N (be_val (lift_ r x k)) = x + k * r.
Proof. by move=> EM Hx Hk Hr H; rewrite be_val_bytes N.mod_small ?Z2N.id //; nia. Qed.
Lemma few_values (r M x v : Z) : 0 < r -> M <= 3 * r -> 0 <= v < M -> v mod r = x ->
  exists2 k, (k = 0 \/ k = 1 \/ k = 2) & v = x + k * r.
Proof.
move=> Hr HM Hv Hx; have := Z.div_mod v r; rewrite Hx => /(_ ltac:(lia)) E.
exists (v / r); last lia.
have H0 : 0 <= v / r by apply: Z.div_pos; lia.
have : v / r < 3 by apply: Z.div_lt_upper_bound; lia.
lia.
Qed.
End Values.

Definition two256 : Z := (2 ^ 256)%Z.
Lemma two256E : two256 = Z.of_N (256 ^ N.of_nat 32). Proof. by []. Qed.
Lemma r_size : (2 * r_modulus < two256 < 3 * r_modulus)%Z. Proof. by []. Qed.
Lemma r_pos : (0 < r_modulus)%Z. Proof. by []. Qed.

Section Generic.
Local Open Scope Z_scope.
Variables (r M : Z).
Hypotheses (Hr : 0 < r) (HM2 : 2 * r < M) (HM3 : M < 3 * r) (EM : M = Z.of_N (256 ^ N.of_nat 32)).
Definition preimages (x : Z) : seq (seq byte) :=
  if x <? M - 2 * r then [:: lift_ r x 0; lift_ r x 1; lift_ r x 2] else [:: lift_ r x 0; lift_ r x 1].

Lemma lift_neq x k l : 0 <= x < r -> 0 <= k -> 0 <= l -> x + k * r < M -> x + l * r < M -> k <> l ->
  lift_ r x k != lift_ r x l.
Proof.
move=> Hx Hk Hl Bk Bl ne; apply/eqP => E; apply: ne.
have Vk := @lift_val r M x k EM (proj1 Hx) Hk Hr Bk.
have Vl := @lift_val r M x l EM (proj1 Hx) Hl Hr Bl.
rewrite E in Vk; nia.
Qed.
Lemma preimages_uniq x : 0 <= x < r -> uniq (preimages x).
Proof.
move=> Hx; rewrite /preimages; case: Z.ltb_spec0 => H.
  by rewrite /= !inE !negb_or !lift_neq //; lia.
by rewrite /= !inE !lift_neq //; lia.
Qed.
Lemma preimages_mem x h : 0 <= x < r ->
  (h \in preimages x) = (size h == 32%N) && (Z.of_N (be_val h) mod r =? x).
Proof.
move=> Hx.
have mem k : 0 <= k -> x + k * r < M -> (size (lift_ r x k) == 32%N) && (Z.of_N (be_val (lift_ r x k)) mod r =? x).
  move=> Hk B; rewrite size_be_bytes eqxx (@lift_val r M x k EM (proj1 Hx) Hk Hr B) Z_mod_plus_full.
  by rewrite Z.mod_small //; apply/Z.eqb_spec.
apply/idP/idP.
  rewrite /preimages; case: Z.ltb_spec0 => H; rewrite !inE.
    by case/or3P => /eqP ->; apply: mem; lia.
  by case/orP => /eqP ->; apply: mem; lia.
case/andP => /eqP Sh /Z.eqb_spec Hv.
have B : 0 <= Z.of_N (be_val h) < M by have := be_val_lt h; rewrite Sh EM; lia.
have [k Hk E] := few_values Hr (Z.lt_le_incl _ _ HM3) B Hv.
have -> : h = lift_ r x k by rewrite /lift_ -E N2Z.id (be_bytes_val Sh).
rewrite /preimages; case: Z.ltb_spec0 => H; rewrite !inE.
  by case: Hk => [->|[->|->]]; rewrite eqxx ?orbT.
by case: Hk => [->|[->|Hk]]; rewrite ?eqxx ?orbT //; exfalso; lia.
Qed.
End Generic.

(** ** The reduction *)

(** The scalar is the hash, read as a number with the most significant byte first, modulo r *)
Theorem C57_reduction b : zval (reduce_bytes_to_scalar_bias b) = (Z.of_N (be_val b) mod r_modulus)%Z.
Proof. by rewrite reduceE zval_of_Z. Qed.

(** It agrees with the decoding of scalars where that is defined. *)
Theorem C57_canonical b : canonical b -> scalar_from_bytes_be b = Some (reduce_bytes_to_scalar_bias b).
Proof. by rewrite -canonicalE reduceE /scalar_from_bytes_be; case: ifP. Qed.

(** Every scalar is the reduction of two or three of the 2^256 hashes, and it is known of which scalar. *)
Theorem C57_preimages x : exists hs : seq (seq byte),
  [/\ uniq hs, forall h, h \in hs <-> size h = 32%N /\ reduce_bytes_to_scalar_bias h = x &
      size hs = if (zval x <? 2 ^ 256 - 2 * r_modulus)%Z then 3%N else 2%N].
Proof.
have Hx := zval_rZ x; have [H2 H3] := r_size.
exists (preimages r_modulus two256 (zval x)).
apply: And3; [exact (preimages_uniq r_pos H2 H3 two256E Hx) | | by rewrite /preimages; case: Z.ltb].
move=> h; rewrite (preimages_mem r_pos H2 H3 two256E h Hx); split.
  case/andP => /eqP Sh /Z.eqb_spec Hv; split; first exact Sh.
  apply: zval_inj; rewrite C57_reduction; exact Hv.
by case=> Sh Hv; rewrite Sh eqxx -C57_reduction Hv; apply/Z.eqb_spec.
Qed.

Lemma fibre x (hs : seq (seq byte)) : uniq hs -> all_size 32 hs ->
  (count (fun h => reduce_bytes_to_scalar_bias h == x) hs <= 3)%N.
Proof.
move=> U A; have [ps [Up Hp Sp]] := C57_preimages x.
have Sp3 : (size ps <= 3)%N by rewrite Sp; case: ifP.
apply: leq_trans Sp3; rewrite -size_filter; apply: uniq_leq_size; first exact: filter_uniq.
move=> h; rewrite mem_filter => /andP[/eqP E Hh]; apply/Hp; split; last exact E.
by apply/eqP; exact: (allP A).
Qed.

(** ** The verifier with a given hash of the transcript *)
Definition with_digest (G1 G2 GT : lmodType Fr) (env : das_env G1 G2 GT) (h : seq byte) : das_env G1 G2 GT :=
  MkDasEnv
    (MkTranscriptEnv (te_scalar_to_bytes_be (de_te env)) (te_g1_to_compressed (de_te env)) (fun=> h)
       reduce_bytes_to_scalar_bias)
    (de_scalar_from_bytes_be env) (de_g1_from_compressed env) (de_pair env) (de_me env).
Lemma with_digest_std (G1 G2 GT : lmodType Fr) (env : das_env G1 G2 GT) h :
  env_std env -> env_std (with_digest env h).
Proof. by case=> A B C D E; split. Qed.

Section Digest.
Variables (G1 G2 GT : lmodType Fr) (env : das_env G1 G2 GT).
Hypothesis std : env_std env.
Variables (g1s : seq G1) (g2s : seq G2) (ctx : das_context G1 G2).
Hypothesis S1 : size g1s = (2 ^ 12)%N.
Hypothesis S2 : size g2s = 65%N.
Hypothesis Hctx : das_context_new fr_params eip7594_consts g1s g2s PrecompNo = Ret ctx.
Local Notation verify env := (verify_cell_kzg_proof_batch env eip7594_consts ctx).

Lemma digest_hash coms idx cells proofs h : call_types coms cells proofs ->
  verify (with_digest env h) coms idx cells proofs = Ret (Ok tt) ->
  verify (with_hash env (fun=> reduce_bytes_to_scalar_bias h)) coms idx cells proofs = Ret (Ok tt).
Proof.
move=> T A.
have [[C [P [I [sh O]]]]|[err]] := verify_run (with_digest_std h std) S1 S2 Hctx idx T; last by rewrite A.
have E1 := @C11_batch _ _ _ _ (with_digest_std h std) g1s g2s ctx S1 S2 Hctx coms idx cells proofs C P I T sh O.
have E2 := @C11_batch _ _ _ _ (with_hash_std (fun=> reduce_bytes_to_scalar_bias h) std) g1s g2s ctx S1 S2 Hctx
  coms idx cells proofs C P I T sh O.
cbv zeta in E1, E2; rewrite E2 -A E1; exact erefl.
Qed.

(** A batch of n tuples, one of which is not accepted alone, is accepted for at most 3 (n - 1) of the
    2^256 values that the hash of the transcript can have. *)
Theorem C57_false_acceptance coms idx cells proofs (hs : seq (seq byte)) t :
  call_types coms cells proofs -> uniq hs -> all_size 32 hs ->
  (forall h, h \in hs -> verify (with_digest env h) coms idx cells proofs = Ret (Ok tt)) ->
  (t < size coms)%N ->
  verify env [:: nth [::] coms t] [:: nth 0%num idx t] [:: nth [::] cells t] [:: nth [::] proofs t]
    <> Ret (Ok tt) ->
  (size hs <= 3 * (size coms - 1))%N.
Proof.
move=> T U A Hacc Ht bad.
pose rs := undup [seq reduce_bytes_to_scalar_bias h | h <- hs].
have few : (size rs < size coms)%N.
  apply: (@C13_few_challenges _ _ _ _ std _ _ _ S1 S2 Hctx coms idx cells proofs rs t T (undup_uniq _) _ Ht bad).
  move=> r; rewrite mem_undup => /mapP[h Hh ->]; exact (digest_hash T (Hacc h Hh)).
apply: (@leq_trans (3 * size rs)); last by rewrite leq_mul2l; move: few; move: (size rs) (size coms) => a b; lia.
apply: (@size_fibres _ _ reduce_bytes_to_scalar_bias); first by move=> x; exact: fibre.
by move=> x; rewrite mem_undup.
Qed.
End Digest.

Print Assumptions C57_reduction.
Print Assumptions C57_canonical.
Print Assumptions C57_preimages.
Print Assumptions C57_false_acceptance.
