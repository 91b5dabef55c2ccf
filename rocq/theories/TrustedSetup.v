(** Model of /repo/eip7594/src/trusted_setup.rs. Strings are their UTF-8 bytes. The JSON parser and
    the decompression of points are arguments; hex::decode is the function of the hex crate. *)

From Coq Require Import NArith Init.Byte Strings.Byte.
From mathcomp Require Import ssreflect ssrfun ssrbool eqtype ssrnat seq ssralg.
From Verif Require Import Base Bytes Lincomb FixedBaseMSM FK20Prover FK20Verifier Eip7594 Domain.

Set Implicit Arguments.
Unset Strict Implicit.
Unset Printing Implicit Defensive.

Definition string := seq byte.

(** [str::strip_prefix("0x")] *)
Definition strip_prefix_0x (s : string) : option string :=
  match s with
  | c0 :: c1 :: rest => if (c0 == "0"%byte) && (c1 == "x"%byte) then Some rest else None
  | _ => None
  end.

(** The hex crate: [val], one digit. *)
Definition hex_val (c : byte) : option N :=
  let x := Byte.to_N c in
  if (65 <=? x)%num && (x <=? 70)%num then Some (x - 65 + 10)%num        (* A..F *)
  else if (97 <=? x)%num && (x <=? 102)%num then Some (x - 97 + 10)%num  (* a..f *)
  else if (48 <=? x)%num && (x <=? 57)%num then Some (x - 48)%num        (* 0..9 *)
  else None.

(** The hex crate: [decode]; an odd length is an error, as is a bad digit. *)
Fixpoint hex_decode (s : string) : option (seq byte) :=
  match s with
  | [::] => Some [::]
  | [:: _] => None
  | c1 :: c0 :: rest =>
      match hex_val c1, hex_val c0, hex_decode rest with
      | Some h, Some l, Some bytes => Some (byte_of (h * 16 + l) :: bytes)
      | _, _, _ => None
      end
  end.

(** trusted_setup.rs lines 9-30 [TrustedSetup]. *)
Record trusted_setup := MkTrustedSetup {
  ts_g1_monomial : seq string;
  ts_g1_lagrange : seq string;
  ts_g2_monomial : seq string
}.

(** trusted_setup.rs lines 38-43 [SubgroupCheck]. *)
Inductive subgroup_check := Check | NoCheck.

(** One string: lines 138-156 with 48 bytes, lines 171-184 with 96. *)
Definition deserialize_point (P : Type) (num_bytes : nat) (decode : seq byte -> option P)
  (hex_str : string) : outcome P :=
  olet hex_str_without_0x := ounwrap (strip_prefix_0x hex_str) in
  olet point_bytes := ounwrap (hex_decode hex_str_without_0x) in
  oassert (size point_bytes == num_bytes) (ounwrap (decode point_bytes)).

Section Setup.
Variables (P1 P2 : Type).
(** [from_compressed] and [from_compressed_unchecked] of both groups *)
Variables (g1_dec g1_dec_unchecked : seq byte -> option P1).
Variables (g2_dec g2_dec_unchecked : seq byte -> option P2).

(** lines 131-160 [deserialize_g1_points] *)
Definition deserialize_g1_points (hex_strs : seq string) (check : subgroup_check)
  : outcome (seq P1) :=
  omapM (deserialize_point 48 (match check with Check => g1_dec | NoCheck => g1_dec_unchecked end))
    hex_strs.

(** lines 164-189 [deserialize_g2_points] *)
Definition deserialize_g2_points (hex_strs : seq string) (check : subgroup_check)
  : outcome (seq P2) :=
  omapM (deserialize_point 96 (match check with Check => g2_dec | NoCheck => g2_dec_unchecked end))
    hex_strs.

(** lines 103-106 [to_commit_key]; commit_key.rs lines 15-22 [new] *)
Definition to_commit_key (ts : trusted_setup) (check : subgroup_check) : outcome (seq P1) :=
  olet points := deserialize_g1_points (ts_g1_monomial ts) check in
  oassert (~~ nilp points) (Ret points).

(** lines 108-121 [to_verification_key]: the points, coset size and number of coefficients that are
    given to [VerificationKey::new] with its two checks (verification_key.rs lines 36-56). *)
Record vk_points := MkVkPoints {
  vp_g1s : seq P1;
  vp_g2s : seq P2;
  vp_g2_gen : P2;
  vp_coset_size : nat;
  vp_num_coefficients : nat
}.
Definition setup_verification_key (K : consts) (ts : trusted_setup) (check : subgroup_check)
  : outcome vk_points :=
  olet g2_points := deserialize_g2_points (ts_g2_monomial ts) check in
  let num_g2_points := size g2_points in
  olet g1_strs := aslice (ts_g1_monomial ts) 0 num_g2_points in
  olet g1_points := deserialize_g1_points g1_strs check in
  olet g2_gen := aget g2_points 0 in
  oassert (FIELD_ELEMENTS_PER_CELL K < size g2_points)
    (Ret (MkVkPoints g1_points g2_points g2_gen (FIELD_ELEMENTS_PER_CELL K)
            (FIELD_ELEMENTS_PER_BLOB K))).

(** lines 98-101 [validate_trusted_setup] *)
Definition validate_trusted_setup (K : consts) (ts : trusted_setup) : outcome unit :=
  olet _ := to_commit_key ts Check in
  olet _ := setup_verification_key K ts Check in
  Ret tt.

(** lines 88-93 [from_json_unchecked] and 80-84 [from_json] *)
Definition from_json_unchecked (parse : string -> option trusted_setup) (json : string)
  : outcome trusted_setup := ounwrap (parse json).
Definition from_json (K : consts) (parse : string -> option trusted_setup) (json : string)
  : outcome trusted_setup :=
  olet ts := from_json_unchecked parse json in
  olet _ := validate_trusted_setup K ts in
  Ret ts.

End Setup.

(** lib.rs lines 127-146: the context from a setup, whose points are not checked (lines 45-55), here
    for a decompression into the groups themselves. *)
Definition das_context_from_setup (F : fieldType) (G1 G2 : lmodType F) (fp : fparams F) (K : consts)
  (g1_dec : seq byte -> option G1) (g2_dec : seq byte -> option G2)
  (ts : trusted_setup) (up : use_precomp) : outcome (das_context G1 G2) :=
  olet commit_key := to_commit_key g1_dec g1_dec ts NoCheck in
  olet prover := fk20_prover_new fp commit_key (FIELD_ELEMENTS_PER_BLOB K)
    (FIELD_ELEMENTS_PER_CELL K) (FIELD_ELEMENTS_PER_EXT_BLOB K) up in
  olet rs := ReedSolomon.rs_new fp (FIELD_ELEMENTS_PER_BLOB K) (EXPANSION_FACTOR K)
    (CELLS_PER_EXT_BLOB K) in
  olet v := setup_verification_key g1_dec g1_dec g2_dec g2_dec K ts NoCheck in
  olet verifier_ctx := fk20_verifier_new fp
    (MkVK (vp_g1s v) (vp_g2s v) (vp_g2_gen v) (vp_coset_size v) (vp_num_coefficients v))
    (FIELD_ELEMENTS_PER_EXT_BLOB K) (CELLS_PER_EXT_BLOB K) in
  Ret (MkDASContext (MkProverContext prover rs) verifier_ctx).
