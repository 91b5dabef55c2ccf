(** Model of /repo/cryptography/kzg_multi_open/src/fk20/toeplitz.rs, batch_toeplitz.rs and
    h_poly.rs.  The iterators that may run in parallel are order preserving maps
    (maybe_rayon; see Rayon.v), written [omapM] here. *)

From mathcomp Require Import ssreflect ssrfun ssrbool eqtype ssrnat seq div ssralg.
From Verif Require Import Base BitRev Domain Lincomb FixedBaseMSM.

Set Implicit Arguments.
Unset Strict Implicit.
Unset Printing Implicit Defensive.

Import GRing.Theory.
Local Open Scope ring_scope.

(** batch_toeplitz.rs lines 139-156 [transpose]. *)
Definition transpose (T : Type) (v : seq (seq T)) : outcome (seq (seq T)) :=
  match v with
  | [::] | [::] :: _ => Ret [::]
  | row0 :: _ =>
      let cols := size row0 in
      ofor v (fun row result =>
        ofor (zip (iota 0 (size row)) row) (fun ie result =>
          olet c := aget result ie.1 in aset result ie.1 (rcons c ie.2)) result)
        (nseq cols [::])
  end.

(** h_poly.rs lines 65-69 [take_every_nth]: [iter().skip(i).step_by(n)] for i < n. *)
Definition take_every_nth (T : Type) (list : seq T) (n : nat) : seq (seq T) :=
  [seq pmap (oget (drop i list)) (step_by (size (drop i list)) n) | i <- iota 0 n].

Section Toeplitz.
Variables (F : fieldType) (V : lmodType F) (fp : fparams F) (me : msm_env V).

(** toeplitz.rs lines 38-45 and 105-114: [ToeplitzMatrix], [new]. *)
Record toeplitz_matrix := MkToeplitz { tm_row : seq F; tm_col : seq F }.
Definition toeplitz_new (row col : seq F) : outcome toeplitz_matrix :=
  oassert (~~ nilp row && ~~ nilp col) (Ret (MkToeplitz row col)).

(** toeplitz.rs lines 120-128 [CirculantMatrix::from_toeplitz]: the row of the circulant matrix.
    [rotate_left(1)] is [rot 1]; it panics on an empty row. *)
Definition circulant_from_toeplitz (tm : toeplitz_matrix) : outcome (seq F) :=
  oassert (1 <= size (tm_row tm))%N (Ret (tm_col tm ++ rev (rot 1 (tm_row tm)))).

(** batch_toeplitz.rs lines 15-28: the struct. *)
Record batch_toeplitz := MkBatchToeplitz {
  bt_batch_size : nat;
  bt_precomputed_fft_vectors : seq (fixed_base_msm V);
  bt_size_of_vector : nat;
  bt_circulant_domain : domain F
}.

(** batch_toeplitz.rs lines 31-74 [new]. *)
Definition batch_toeplitz_new (vectors : seq (seq V)) (up : use_precomp) : outcome batch_toeplitz :=
  olet v0 := aget vectors 0 in
  let size_of_vector := size v0 in
  oassert (all (fun v => size v == size_of_vector) vectors) (
  oassert (is_power_of_two size_of_vector) (
  olet circulant_domain := domain_new fp (size_of_vector * 2) in
  olet vectors := omapM (fft_g1 circulant_domain) vectors in
  let batch_size := size vectors in
  olet transposed_msm_vectors := transpose vectors in
  olet precomputed_table := omapM (fun v => fixed_base_msm_new v up) transposed_msm_vectors in
  Ret (MkBatchToeplitz batch_size precomputed_table size_of_vector circulant_domain))).

(** batch_toeplitz.rs lines 82-116 [sum_matrix_vector_mul]. *)
Definition sum_matrix_vector_mul (bt : batch_toeplitz) (matrices : seq toeplitz_matrix)
  : outcome (seq V) :=
  oassert (size matrices == bt_batch_size bt) (
  olet circulant_matrices := omapM circulant_from_toeplitz matrices in
  olet col_ffts := omapM (fft_scalars (bt_circulant_domain bt)) circulant_matrices in
  olet msm_scalars := transpose col_ffts in
  olet result := omapM (fun ps => fixed_base_msm_run me ps.1 ps.2)
                   (zip (bt_precomputed_fft_vectors bt) msm_scalars) in
  ifft_g1_take_n (bt_circulant_domain bt) result (Some (bt_size_of_vector bt))).

(** h_poly.rs lines 17-58 [compute_h_poly_commitments]. *)
Definition compute_h_poly_commitments (bt : batch_toeplitz) (polynomial : seq F) (coset_size : nat)
  : outcome (seq V) :=
  oassert (is_power_of_two coset_size) (
  oassert (is_power_of_two (size polynomial)) (
  let polynomial := rev polynomial in
  let toeplitz_rows := take_every_nth polynomial coset_size in
  olet matrices := omapM (fun row =>
    olet row0 := aget row 0 in
    olet toeplitz_column := aset (nseq (size row) (0 : F)) 0 row0 in
    toeplitz_new row toeplitz_column) toeplitz_rows in
  sum_matrix_vector_mul bt matrices)).

End Toeplitz.
