(** Concrete instances for PropCodec.v, in the environment of ExApi.v. *)

From Coq Require Import ZArith NArith Init.Byte Strings.Byte.
From mathcomp Require Import ssreflect ssrfun ssrbool eqtype ssrnat seq div fintype bigop ssralg.
From Verif Require Import Base Bytes Spec SpecKZG SpecDAS FK20Verifier Eip7594 Eip7594Proofs ApiEip.
From Verif Require Import ZField FrPrime Fr SpecFr FrEnv PropProver PropCodec ExApi.

Set Implicit Arguments.
Unset Strict Implicit.
Unset Printing Implicit Defensive.

(** 33 bytes, one byte and 47 bytes are refused with their length. *)
Example C36_lengths_apply :
  [/\ deserialize_cell_to_scalars ex_env (nseq 33 "000"%byte) =
        Ret (Err (ScalarHasInvalidLength (nseq 33 "000"%byte) 33)),
      deserialize_blob_to_scalars ex_env eip7594_consts [:: "000"%byte] =
        Ret (Err (BlobHasInvalidLength [:: "000"%byte] 1)) &
      deserialize_compressed_g1 ex_env (nseq 47 "000"%byte) =
        Err (G1PointHasInvalidLength (nseq 47 "000"%byte) 47)].
Proof.
split.
- exact: (C36_any_cell ex_std (nseq 33 "000"%byte)).
- apply: (C36_any_blob ex_std [:: "000"%byte]).2 => E.
  by have := expn_gt0 2 17; rewrite -{1}E => _; move: E; rewrite expnS mul2n => /(congr1 odd); rewrite odd_double.
exact: (C36_any_point ex_std (nseq 47 "000"%byte)).2.
Qed.

Local Opaque be_bytes be_val.

(** Two chunks, and two chunks of which the second is too large. *)
Example C36_chunks_apply : exists2 xs,
  deserialize_cell_to_scalars ex_env (fr_be five ++ fr_be six) = Ret (Ok xs) & size xs = 2%N.
Proof.
have S : size (fr_be five ++ fr_be six) = 64%N by rewrite size_cat !size_fr_be.
have := C36_any_cell ex_std (fr_be five ++ fr_be six); rewrite S -[(64 %/ 32)%N]/2%N.
case=> [[xs E [Sx _]]|[i _ [Hi B _]]]; first by exists xs.
by case/negP: B; case: i Hi => [|[|i]].
Qed.
Example C36_bad_chunk_applies :
  deserialize_cell_to_scalars ex_env (fr_be five ++ bad_value) = Ret (Err (CouldNotDeserializeScalar bad_value)).
Proof.
have S : size (fr_be five ++ bad_value) = 64%N by rewrite size_cat size_fr_be.
have C0 : chunk (fr_be five ++ bad_value) 0 = fr_be five by rewrite /chunk drop0 take_size_cat ?size_fr_be.
have C1 : chunk (fr_be five ++ bad_value) 1 = bad_value by rewrite /chunk drop_size_cat ?size_fr_be.
have := C36_any_cell ex_std (fr_be five ++ bad_value); rewrite S -[(64 %/ 32)%N]/2%N.
case=> [[xs E [Sx Ef]]|[i -> [Hi B _]]]; last first.
  case: i Hi B => [|[|i]] Hi B; last by discriminate Hi.
    by move: B; rewrite C0 fr_be_canonical.
  by rewrite C1.
exfalso; case: xs Sx Ef E => [|x [|y [|z zs]]] Sx Ef _; try discriminate Sx.
have E : chunk (fr_be five ++ bad_value) 1 = fr_be y.
  rewrite Ef /chunk [map _ _]/= [flatten _]/= drop_size_cat ?size_fr_be ?cats0; last exact: erefl.
  rewrite -[in LHS](size_fr_be y); exact: take_size.
rewrite C1 in E; have := canonical_all_ff; rewrite -/bad_value E; apply/negP/negPn; exact: fr_be_canonical.
Qed.
