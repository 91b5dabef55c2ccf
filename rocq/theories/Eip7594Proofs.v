From Coq Require Import NArith Init.Byte Strings.Byte.
From mathcomp Require Import ssreflect ssrfun ssrbool eqtype ssrnat seq div prime fintype bigop.
From mathcomp Require Import ssralg poly polydiv zify_ssreflect.
From Verif Require Import Base Bytes Spec SpecKZG SpecDAS BitRev BitRevProofs FFT FFTProofs.
From Verif Require Import Domain DomainProofs PolyCoeff PolyCoeffProofs ReedSolomon.
From Verif Require Import ReedSolomonProofs Lincomb LincombProofs FixedBaseMSM Cosets CosetsProofs.
From Verif Require Import Toeplitz ToeplitzProofs FK20Prover FK20ProverProofs FK20Verifier.
From Verif Require Import FK20VerifierProofs VerifierSoundness TranscriptProofs Eip7594.

Set Implicit Arguments.
Unset Strict Implicit.
Unset Printing Implicit Defensive.

Import GRing.Theory.
Local Open Scope ring_scope.

(** ** Loops that can fail *)
Section Loops.
Variables (A B E : Type).

Lemma ormapM_Ok (a0 : A) (b0 : B) (f : A -> outcome (result B E)) (l : seq A) (ys : seq B) :
  size ys = size l ->
  (forall i, (i < size l)%N -> f (nth a0 l i) = Ret (Ok (nth b0 ys i))) ->
  ormapM f l = Ret (Ok ys).
Proof.
elim: l ys => [|x l IH] [|y ys] //= [Sy] H.
have -> := H 0%N erefl; rewrite (IH _ Sy) // => i Hi; exact: (H i.+1).
Qed.

(** The first failure decides. *)
Lemma ormapM_Err (a0 : A) (b0 : B) (f : A -> outcome (result B E)) (l : seq A) (e : E) i :
  (i < size l)%N -> f (nth a0 l i) = Ret (Err e) ->
  (forall j, (j < i)%N -> exists y, f (nth a0 l j) = Ret (Ok y)) ->
  ormapM f l = Ret (Err e).
Proof.
elim: l i => [|x l IH] [|i] //=; first by move=> _ ->.
move=> Hi Hf H; have [y ->] := H 0%N erefl.
by rewrite /= (IH i) // => j Hj; exact: (H j.+1).
Qed.

Lemma rmapM_Ok (a0 : A) (b0 : B) (f : A -> result B E) (l : seq A) (ys : seq B) :
  size ys = size l ->
  (forall i, (i < size l)%N -> f (nth a0 l i) = Ok (nth b0 ys i)) ->
  rmapM f l = Ok ys.
Proof.
elim: l ys => [|x l IH] [|y ys] //= [Sy] H.
have -> := H 0%N erefl; rewrite (IH _ Sy) // => i Hi; exact: (H i.+1).
Qed.

Lemma rmapM_Err (a0 : A) (b0 : B) (f : A -> result B E) (l : seq A) (e : E) i :
  (i < size l)%N -> f (nth a0 l i) = Err e ->
  (forall j, (j < i)%N -> exists y, f (nth a0 l j) = Ok y) ->
  rmapM f l = Err e.
Proof.
elim: l i => [|x l IH] [|i] //=; first by move=> _ ->.
move=> Hi Hf H; have [y ->] := H 0%N erefl.
by rewrite /= (IH i) // => j Hj; exact: (H j.+1).
Qed.
End Loops.

(** The first position at which a boolean property fails, if any. *)
Lemma first_fail (P : pred nat) n :
  (forall i, (i < n)%N -> P i) \/ (exists2 i, (i < n)%N & ~~ P i /\ forall j, (j < i)%N -> P j).
Proof.
elim: n => [|n [IH|[i Hi H]]]; [by left | | by right; exists i; first exact: ltnW].
case H: (P n); last by right; exists n; rewrite ?H.
by left=> i; rewrite ltnS leq_eqVlt => /orP[/eqP->|/IH].
Qed.

(** ** The environment *)
Record env_ok (F : fieldType) (G1 G2 GT : lmodType F) (env : das_env G1 G2 GT) : Prop := EnvOk {
  eo_scalar_size : forall x, size (te_scalar_to_bytes_be (de_te env) x) = 32%N;
  eo_g1_size : forall P, size (te_g1_to_compressed (de_te env) P) = 48%N;
  eo_scalar_from : forall b x, size b = 32%N ->
    de_scalar_from_bytes_be env b = Some x <-> te_scalar_to_bytes_be (de_te env) x = b;
  eo_g1_from : forall b P, size b = 48%N ->
    de_g1_from_compressed env b = Some P <-> te_g1_to_compressed (de_te env) P = b;
  eo_bil : bilinear (de_pair env)
}.

Section Serialization.
Variables (F : fieldType) (G1 G2 GT : lmodType F) (env : das_env G1 G2 GT).
Hypothesis eok : env_ok env.
Local Notation tob := (te_scalar_to_bytes_be (de_te env)).
Local Notation ofb := (de_scalar_from_bytes_be env).
Local Notation comp := (te_g1_to_compressed (de_te env)).

Lemma ofb_tob x : ofb (tob x) = Some x.
Proof. by apply/(eo_scalar_from eok) => //; exact: (eo_scalar_size eok). Qed.

Lemma tob_inj : injective tob.
Proof. by move=> x y E; have := ofb_tob x; rewrite E ofb_tob => -[]. Qed.

Lemma fromc_comp P : de_g1_from_compressed env (comp P) = Some P.
Proof. by apply/(eo_g1_from eok) => //; exact: (eo_g1_size eok). Qed.

Lemma comp_inj : injective comp.
Proof. by move=> x y E; have := fromc_comp x; rewrite E fromc_comp => -[]. Qed.

Lemma size_chunk bytes i k : size bytes = (k * 32)%N -> (i < k)%N -> size (chunk bytes i) = 32%N.
Proof. by move=> Sb Hi; rewrite size_takel // size_drop Sb -mulnBl; lia. Qed.

(** The bytes encode the scalars. *)
Definition encodes (bytes : seq byte) (xs : seq F) : Prop :=
  forall i, (i < size xs)%N -> tob xs`_i = chunk bytes i.

Definition chunk_ok (bytes : seq byte) (i : nat) : bool := isSome (ofb (chunk bytes i)).

Lemma deserialize_chunk bytes i k : size bytes = (k * 32)%N -> (i < k)%N ->
  deserialize_bytes_to_scalar env (nth [::] (chunks_exact 32 bytes) i) =
  Ret (if ofb (chunk bytes i) is Some x then Ok x else Err (CouldNotDeserializeScalar (chunk bytes i))).
Proof.
move=> Sb Hi; rewrite chunks_exactE Sb mulnK // nth_mkseq // -/(chunk bytes i).
by rewrite /deserialize_bytes_to_scalar (size_chunk Sb Hi).
Qed.

Lemma deserialize_scalars_ok bytes k : size bytes = (k * 32)%N ->
  (forall i, (i < k)%N -> chunk_ok bytes i) ->
  exists2 xs, deserialize_bytes_to_scalars env bytes = Ret (Ok xs) &
    size xs = k /\ encodes bytes xs.
Proof.
move=> Sb H; rewrite /deserialize_bytes_to_scalars Sb modnMl eqxx /=.
pose xs := mkseq (fun i => odflt 0 (ofb (chunk bytes i))) k.
have Hx i : (i < k)%N -> ofb (chunk bytes i) = Some xs`_i.
  by move=> Hi; rewrite nth_mkseq //; have := H i Hi; rewrite /chunk_ok; case: (ofb _).
exists xs.
  apply: (@ormapM_Ok _ _ _ [::] 0); first by rewrite size_chunks_exact Sb mulnK // size_mkseq.
  rewrite size_chunks_exact Sb mulnK // => i Hi.
  by rewrite (deserialize_chunk Sb Hi) Hx.
rewrite size_mkseq; split=> // i; rewrite size_mkseq => Hi.
by apply/(eo_scalar_from eok); [exact: (size_chunk Sb Hi) | exact: Hx].
Qed.

Lemma deserialize_scalars_err bytes k i : size bytes = (k * 32)%N -> (i < k)%N ->
  ~~ chunk_ok bytes i -> (forall j, (j < i)%N -> chunk_ok bytes j) ->
  deserialize_bytes_to_scalars env bytes = Ret (Err (CouldNotDeserializeScalar (chunk bytes i))).
Proof.
move=> Sb Hi Hbad Hgood; rewrite /deserialize_bytes_to_scalars Sb modnMl eqxx /=.
apply: (@ormapM_Err _ _ _ [::] 0 _ _ _ i); first by rewrite size_chunks_exact Sb mulnK.
  by rewrite (deserialize_chunk Sb Hi); move: Hbad; rewrite /chunk_ok; case: (ofb _).
move=> j Hj; rewrite (deserialize_chunk Sb (ltn_trans Hj Hi)).
by have := Hgood j Hj; rewrite /chunk_ok; case: (ofb _) => // x _; exists x.
Qed.

(** Bytes and scalars determine each other. *)
Lemma chunks_eq (a b : seq byte) k : size a = (k * 32)%N -> size b = (k * 32)%N ->
  (forall i, (i < k)%N -> chunk a i = chunk b i) -> a = b.
Proof.
elim: k a b => [|k IH] a b; first by move=> /size0nil-> /size0nil->.
move=> Sa Sb H.
rewrite -(cat_take_drop 32 a) -(cat_take_drop 32 b).
have := H 0%N erefl; rewrite /chunk !drop0 => ->; congr (_ ++ _).
apply: IH; rewrite ?size_drop ?Sa ?Sb ?mulSn ?addKn // => i Hi.
by have := H i.+1 Hi; rewrite /chunk !drop_drop mulSn addnC.
Qed.

Lemma size_flatten_tob (xs : seq F) : size (flatten (map tob xs)) = (size xs * 32)%N.
Proof. exact: (size_flatten_const _ (eo_scalar_size eok)). Qed.

Lemma chunk_flatten (xs : seq F) i : (i < size xs)%N -> chunk (flatten (map tob xs)) i = tob xs`_i.
Proof.
rewrite /chunk; elim: xs i => [|x xs IH] [|i] //= Hi.
  by rewrite drop0 take_size_cat // (eo_scalar_size eok).
rewrite -IH // mulSn; congr (take _ _).
by rewrite drop_cat (eo_scalar_size eok) ltnNge leq_addr /= addKn.
Qed.

Lemma encodes_flatten bytes xs : size bytes = (size xs * 32)%N ->
  encodes bytes xs <-> bytes = flatten (map tob xs).
Proof.
move=> Sb; split=> [H|->]; last by move=> i Hi; rewrite chunk_flatten.
apply: (chunks_eq Sb (size_flatten_tob xs)) => i Hi.
by rewrite chunk_flatten // H.
Qed.

Lemma chunk_ok_encodes bytes xs : encodes bytes xs -> forall i, (i < size xs)%N -> chunk_ok bytes i.
Proof. by move=> H i Hi; rewrite /chunk_ok -H // ofb_tob. Qed.

Lemma encodes_inj bytes xs ys : size xs = size ys -> encodes bytes xs -> encodes bytes ys -> xs = ys.
Proof.
move=> S Hx Hy; apply: (@eq_from_nth _ 0) => // i Hi.
by apply: tob_inj; rewrite Hx // Hy // -S.
Qed.

Lemma deserialize_scalarsE bytes xs : size bytes = (size xs * 32)%N -> encodes bytes xs ->
  deserialize_bytes_to_scalars env bytes = Ret (Ok xs).
Proof.
move=> Sb He; have [ys -> [Sy Hy]] := deserialize_scalars_ok Sb (chunk_ok_encodes He).
by rewrite (encodes_inj Sy Hy He).
Qed.

(** Serialisation of cells. *)
Variables (l c e : nat).
Local Notation K := (MkConsts (2 ^ l) (2 ^ (l + c)) (2 ^ e)).

Lemma EXTE : FIELD_ELEMENTS_PER_EXT_BLOB K = (2 ^ (l + c + e))%N.
Proof. by rewrite /FIELD_ELEMENTS_PER_EXT_BLOB /= -expnD addnC. Qed.
Lemma CELLSE : CELLS_PER_EXT_BLOB K = (2 ^ (c + e))%N.
Proof. by rewrite /CELLS_PER_EXT_BLOB EXTE /= -addnA expnD mulKn // expn_gt0. Qed.

Lemma serialize_cellE (xs : seq F) : size xs = (2 ^ l)%N ->
  serialize_scalars_to_cell env K xs = Ret (flatten (map tob xs)).
Proof.
move=> Sx; rewrite /serialize_scalars_to_cell /= Sx eqxx /=; congr Ret.
rewrite -[RHS]cat0s; elim: xs [::] {Sx} => [|x xs IH] acc /=; first by rewrite cats0.
by rewrite IH catA.
Qed.

Lemma serialize_cells_and_proofsE (evals : nat -> seq F) (proofs : nat -> G1) :
  (forall k, size (evals k) = 2 ^ l)%N ->
  serialize_cells_and_proofs env K (mkseq evals (2 ^ (c + e))) (mkseq proofs (2 ^ (c + e))) =
  Ret (mkseq (fun k => flatten (map tob (evals k))) (2 ^ (c + e)),
       mkseq (fun k => comp (proofs k)) (2 ^ (c + e))).
Proof.
move=> Se; rewrite /serialize_cells_and_proofs /coset_evaluations_to_cells CELLSE.
rewrite (omapM_Ret_in (A := seq_eqType F) (g := fun xs => flatten (map tob xs))); last first.
  move=> xs /mapP[k _ ->]; rewrite serialize_cellE // obind_Ret /oassert.
  by rewrite size_flatten_tob Se eqxx.
rewrite obind_Ret size_map size_mkseq /oassert eqxx obind_Ret size_map size_mkseq eqxx.
by rewrite /mkseq -!map_comp.
Qed.

End Serialization.
