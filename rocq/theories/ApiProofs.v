(** The four calls of the library in terms of polynomials. *)

From Coq Require Import NArith Init.Byte Strings.Byte.
From mathcomp Require Import ssreflect ssrfun ssrbool eqtype ssrnat seq div prime fintype bigop.
From mathcomp Require Import ssralg poly polydiv zify_ssreflect.
From Verif Require Import Base Bytes Spec SpecKZG SpecDAS BitRev BitRevProofs FFT FFTProofs.
From Verif Require Import Domain DomainProofs PolyCoeff PolyCoeffProofs ReedSolomon.
From Verif Require Import ReedSolomonProofs Lincomb LincombProofs FixedBaseMSM Cosets CosetsProofs.
From Verif Require Import Toeplitz ToeplitzProofs FK20Prover FK20ProverProofs FK20Verifier.
From Verif Require Import FK20VerifierProofs VerifierSoundness TranscriptProofs.
From Verif Require Import Eip7594 Eip7594Proofs.

Set Implicit Arguments.
Unset Strict Implicit.
Unset Printing Implicit Defensive.

Import GRing.Theory.
Local Open Scope ring_scope.

Section Api.
Variables (F : fieldType) (G1 G2 GT : lmodType F) (fp : fparams F) (ok : fp_ok fp).
Variables (env : das_env G1 G2 GT) (eok : env_ok env).
Variables (l c e : nat).
Hypothesis Hc : (2 <= c)%N.
Hypothesis Had : (l + c + e <= fp_adicity fp)%N.
Hypothesis H32 : (l + c + e < 32)%N.
Hypothesis Hcad : (c < fp_adicity fp)%N.
Hypothesis g0 : fp_mulgen fp != 0.
Hypothesis gN : fp_mulgen fp ^+ (2 ^ (l + c + e)) != 1.

Local Notation K := (MkConsts (2 ^ l) (2 ^ (l + c)) (2 ^ e)).
Local Notation L := (2 ^ l)%N.
Local Notation N := (2 ^ (l + c))%N.
Local Notation n := (l + c + e)%N.
Local Notation m := (c + e)%N.
Local Notation w := (omega fp n).
Local Notation tob := (te_scalar_to_bytes_be (de_te env)).
Local Notation ofb := (de_scalar_from_bytes_be env).
Local Notation comp := (te_g1_to_compressed (de_te env)).

Variables (g1s : seq G1) (g2s : seq G2).
Hypothesis Sg1 : size g1s = N.
Hypothesis Sg2 : (L < size g2s)%N.
Hypothesis Sg2' : (size g2s <= N)%N.

Let Hn : n = (l + m)%N.
Proof. by rewrite addnA. Qed.

Definition vk_points := take (size g2s) g1s.

Definition mkctx bt : das_context G1 G2 :=
  MkDASContext (MkProverContext (mkprover fp l c e g1s bt) (mkrs fp (l + c) e m))
               (mkverifier fp n l m vk_points g2s N).

Lemma size_vk_points : size vk_points = size g2s.
Proof. by rewrite size_takel // Sg1. Qed.

Lemma das_context_newE up :
  das_context_new fp K g1s g2s up =
  olet bt := batch_toeplitz_new fp (srs_vectors l c g1s) up in Ret (mkctx bt).
Proof.
rewrite /das_context_new /prover_context_new /commit_key_new.
have -> : ~~ nilp g1s by rewrite /nilp Sg1 expn_eq0.
rewrite /oassert obind_Ret EXTE CELLSE /= (fk20_prover_newE ok Hc Had) //.
case: batch_toeplitz_new => [bt|] //; rewrite !obind_Ret.
rewrite (rs_new_exp ok Had) ?obind_Ret //; last by rewrite Hn leq_addl.
rewrite /verifier_context_new /to_verification_key EXTE CELLSE /aslice /= Sg1 Sg2' obind_Ret.
rewrite subn0 drop0 -/vk_points verification_key_newE // obind_Ret.
by rewrite (fk20_verifier_newE ok Hn Had H32) // size_vk_points.
Qed.

Lemma das_context_new_ret up : precomp_width_ok up ->
  exists2 bt, batch_toeplitz_new fp (srs_vectors l c g1s) up = Ret bt &
    das_context_new fp K g1s g2s up = Ret (mkctx bt).
Proof.
move=> Hw; have [bt E] := batch_toeplitz_new_srs ok l Hcad g1s Hw.
by exists bt => //; rewrite das_context_newE E.
Qed.

Variables (up : use_precomp) (bt : batch_toeplitz G1).
Hypothesis Hbt : batch_toeplitz_new fp (srs_vectors l c g1s) up = Ret bt.
Local Notation ctx := (mkctx bt).

(** f has the field elements of the blob as its values. *)
Definition blob_poly (blob : seq byte) (f : {poly F}) : Prop :=
  (size f <= N)%N /\
  forall i, (i < N)%N -> tob f.[omega fp (l + c) ^+ bitrev (l + c) i] = chunk blob i.

(** The output for a polynomial. *)
Definition cell_bytes (f : {poly F}) (k : nat) : seq byte := flatten (map tob (coset_evals fp l c e f k)).
Definition proof_bytes (f : {poly F}) (k : nat) : seq byte := comp (coset_proof fp l c e g1s f k).
Definition poly_output (f : {poly F}) : seq (seq byte) * seq (seq byte) :=
  (mkseq (cell_bytes f) (2 ^ m), mkseq (proof_bytes f) (2 ^ m)).

Lemma size_coset_evals f k : size (coset_evals fp l c e f k) = L.
Proof. exact: size_mkseq. Qed.

(** Decoding a blob. *)
Lemma blob_cases blob : size blob = BYTES_PER_BLOB K ->
  (exists2 data, deserialize_blob_to_scalars env K blob = Ret (Ok data) &
     size data = N /\ encodes env blob data) \/
  (exists2 i, deserialize_blob_to_scalars env K blob =
                Ret (Err (CouldNotDeserializeScalar (chunk blob i))) &
     [/\ (i < N)%N, ~~ chunk_ok env blob i & forall j, (j < i)%N -> chunk_ok env blob j]).
Proof.
move=> Sb; rewrite /deserialize_blob_to_scalars Sb eqxx /=.
case: (first_fail (chunk_ok env blob) N) => [H|[i Hi [Hbad Hgood]]].
  by left; have [xs E H1] := deserialize_scalars_ok eok Sb H; exists xs.
right; exists i => //; exact: (deserialize_scalars_err Sb Hi Hbad Hgood).
Qed.

Lemma data_poly (data : seq F) : size data = N ->
  exists2 poly, input_coeffs (pc_prover (dc_prover_ctx ctx)) (InputData data) = Ret poly &
    size poly = N /\ forall i, (i < N)%N ->
      (Poly poly).[omega fp (l + c) ^+ bitrev (l + c) i] = data`_i.
Proof. exact: (input_coeffs_data ok Hc Had H32 Hcad g1s bt). Qed.

(** Proof computation for given coefficients. *)
Lemma prove_coeffs (poly : seq F) : size poly = N -> fk20_msm_ok fp (de_me env) l c up g1s poly ->
  (olet pc := compute_multi_opening_proofs_poly_coeff (de_me env) (pc_prover (dc_prover_ctx ctx)) poly in
   let: (proofs, cells) := pc in
   olet out := serialize_cells_and_proofs env K cells proofs in Ret (Ok out)) =
  Ret (@Ok _ error (poly_output (Poly poly))).
Proof.
move=> Sp Hm.
rewrite (multi_opening_coeffE ok Hc Had H32 Hcad Sg1 Sp Hbt Hm) obind_Ret.
rewrite (serialize_cells_and_proofsE eok) ?obind_Ret //; first exact: size_coset_evals.
Qed.

Theorem compute_cells_cases blob : size blob = BYTES_PER_BLOB K ->
  (exists2 poly, size poly = N & blob_poly blob (Poly poly) /\
     (fk20_msm_ok fp (de_me env) l c up g1s poly ->
      compute_cells_and_kzg_proofs env K ctx blob = Ret (Ok (poly_output (Poly poly)))) /\
     blob_to_kzg_commitment env K ctx blob = Ret (Ok (comp (commit g1s (Poly poly))))) \/
  (exists2 i, [/\ (i < N)%N, ~~ chunk_ok env blob i & forall j, (j < i)%N -> chunk_ok env blob j] &
     compute_cells_and_kzg_proofs env K ctx blob =
       Ret (Err (ESerialization (CouldNotDeserializeScalar (chunk blob i)))) /\
     blob_to_kzg_commitment env K ctx blob =
       Ret (Err (ESerialization (CouldNotDeserializeScalar (chunk blob i))))).
Proof.
move=> Sb; rewrite /compute_cells_and_kzg_proofs /blob_to_kzg_commitment.
case: (blob_cases Sb) => [[data -> [Sd He]]|[i -> Hi]]; last by right; exists i.
left; have [poly Ei [Sp Hp]] := data_poly Sd; exists poly => //; split; last split.
- split; first by rewrite -Sp size_Poly.
  by move=> i Hi; rewrite Hp // He // Sd.
- move=> Hm; rewrite /= /compute_multi_opening_proofs Ei obind_Ret; exact: prove_coeffs.
by rewrite /= (fk20_commitE Sg1 Sp Ei).
Qed.

Lemma blob_poly_unique blob f g : blob_poly blob f -> blob_poly blob g -> f = g.
Proof.
move=> [Sf Hf] [Sg Hg].
have Hlc : (l + c <= fp_adicity fp)%N by rewrite (leq_trans _ Had) // leq_addr.
apply: (poly_eq_on_domain ok Hlc Sf Sg) => i Hi.
apply: (tob_inj eok); rewrite -[i](bitrev_inv Hi) Hf ?bitrev_lt // Hg ?bitrev_lt //.
Qed.

(** The first cells are the blob. *)
Lemma omega_systematic i : (i < N)%N -> w ^+ bitrev n i = omega fp (l + c) ^+ bitrev (l + c) i.
Proof.
move=> Hi; rewrite (@omega_sub _ fp (l + c) e) // -exprM mulnC; congr (_ ^+ _).
have := @bitrev_split e (l + c) 0 i Hi; rewrite mul0n add0n (addnC e) => ->.
by rewrite bitrev0 addn0.
Qed.

Lemma systematic blob f : size blob = BYTES_PER_BLOB K -> blob_poly blob f ->
  flatten (mkseq (cell_bytes f) (2 ^ c)) = blob.
Proof.
move=> Sb [Sf Hf].
have -> : flatten (mkseq (cell_bytes f) (2 ^ c)) = flatten (map tob (mkseq (fun i => f.[w ^+ bitrev n i]) N)).
  have -> : N = (2 ^ c * L)%N by rewrite expnD mulnC.
  elim: (2 ^ c)%N => [|q IH]; first by rewrite mul0n.
  rewrite mkseqS flatten_rcons IH mulSnr /mkseq iotaD !map_cat flatten_cat; congr (_ ++ _).
  rewrite /cell_bytes /coset_evals /mkseq -!map_comp; congr flatten.
  by rewrite -[(0 + q * L)%N]addnC iotaDl -map_comp; apply: eq_map => i /=; rewrite ?addn0.
have S : size (mkseq (fun i => f.[w ^+ bitrev n i]) N) = N by rewrite size_mkseq.
apply/esym/(encodes_flatten eok); rewrite ?size_mkseq // => i; rewrite size_mkseq => Hi.
by rewrite nth_mkseq // omega_systematic // Hf.
Qed.

End Api.
