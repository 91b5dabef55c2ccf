(** C36 for byte strings of every length: the decoders of serialization.rs. *)

From Coq Require Import ZArith NArith Init.Byte Strings.Byte.
From mathcomp Require Import ssreflect ssrfun ssrbool eqtype ssrnat seq div fintype bigop ssralg.
From Verif Require Import Base Bytes Spec SpecKZG SpecDAS FK20Verifier Eip7594 Eip7594Proofs ApiEip.
From Verif Require Import ApiProofs ZField FrPrime Fr SpecFr FrEnv PropProver.

Set Implicit Arguments.
Unset Strict Implicit.
Unset Printing Implicit Defensive.

Import GRing.Theory.

Section Codec.
Variables (G1 G2 GT : lmodType Fr) (env : das_env G1 G2 GT).
Hypothesis std : env_std env.

(** The answer for n chunks of 32 bytes: the scalars, or an error with the first chunk that is not
    canonical. *)
Definition decodes_chunks (bytes : seq byte) (n : nat)
  (res : outcome (result (seq Fr) serialization_error)) : Prop :=
  (exists2 xs, res = Ret (Ok xs) & size xs = n /\ bytes = flatten [seq fr_be x | x <- xs]) \/
  (exists2 i, res = Ret (Err (CouldNotDeserializeScalar (chunk bytes i))) &
     [/\ (i < n)%N, ~~ canonical (chunk bytes i) & forall j, (j < i)%N -> canonical (chunk bytes j)]).

Lemma decode_chunks bytes n : size bytes = (n * 32)%N ->
  decodes_chunks bytes n (deserialize_bytes_to_scalars env bytes).
Proof.
move=> Sb; have eok := env_std_ok std.
case: (first_fail (fun i => canonical (chunk bytes i)) n) => [Hg|[i Hi [Bi Gi]]].
  have [|xs E [Sx He]] := @deserialize_scalars_ok _ _ _ _ env eok bytes n Sb.
    by move=> i Hi; rewrite (chunk_okE std); exact: Hg.
  left; exists xs; first exact: E.
  split; first exact: Sx.
  by rewrite -Sx in Sb; have := (encodes_flatten eok Sb).1 He; rewrite (es_to std).
right; exists i; last by split.
apply: (deserialize_scalars_err Sb Hi); first by rewrite (chunk_okE std).
by move=> j Hj; rewrite (chunk_okE std); exact: Gi.
Qed.

Theorem C36_any_cell bytes :
  if (32 %| size bytes)%N then decodes_chunks bytes (size bytes %/ 32) (deserialize_cell_to_scalars env bytes)
  else deserialize_cell_to_scalars env bytes = Ret (Err (ScalarHasInvalidLength bytes (size bytes))).
Proof.
case: ifP => H; first by apply: decode_chunks; rewrite divnK.
by rewrite /deserialize_cell_to_scalars /deserialize_bytes_to_scalars -/(dvdn _ _) H.
Qed.

Theorem C36_any_blob bytes :
  (size bytes = (2 ^ 17)%N ->
     decodes_chunks bytes (2 ^ 12) (deserialize_blob_to_scalars env eip7594_consts bytes)) /\
  (size bytes <> (2 ^ 17)%N ->
     deserialize_blob_to_scalars env eip7594_consts bytes = Ret (Err (BlobHasInvalidLength bytes (size bytes)))).
Proof.
split=> [Sb|/eqP Sb]; rewrite /deserialize_blob_to_scalars eip_blob.
  by rewrite Sb eqxx; apply: decode_chunks; rewrite Sb -blob_bytesE.
by rewrite Sb.
Qed.

Theorem C36_any_point bytes :
  (size bytes = 48%N ->
     (exists2 P, deserialize_compressed_g1 env bytes = Ok P & te_g1_to_compressed (de_te env) P = bytes) \/
     ((forall P, te_g1_to_compressed (de_te env) P <> bytes) /\
      deserialize_compressed_g1 env bytes = Err (CouldNotDeserializeG1Point bytes))) /\
  (size bytes <> 48%N ->
     deserialize_compressed_g1 env bytes = Err (G1PointHasInvalidLength bytes (size bytes))).
Proof.
split=> [Sb|/eqP Sb]; rewrite /deserialize_compressed_g1; last by rewrite Sb.
rewrite Sb eqxx /=; case E: (de_g1_from_compressed env bytes) => [P|].
  by left; exists P => //; apply/(es_g1_from std _ Sb).
right; split=> // P /(es_g1_from std _ Sb); by rewrite E.
Qed.
End Codec.
