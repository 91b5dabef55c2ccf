(** Model of the struct FixedBaseMSMPrecompBLST of /repo/cryptography/bls12_381/src/fixed_base_msm.rs
    lines 8-13 and 56-119. The library itself uses FixedBaseMSM (FixedBaseMSM.v), the struct is public.
    The four functions of blst are given by what they compute and which memory they read and write. *)

From Coq Require Import NArith ZArith Init.Byte Strings.Byte.
From mathcomp Require Import ssreflect ssrfun ssrbool eqtype ssrnat seq div ssralg.
From Verif Require Import Base Bytes ZField FrPrime Fr FrEnv FixedBaseMSM FrMsm.

Set Implicit Arguments.
Unset Strict Implicit.
Unset Printing Implicit Defensive.

Import GRing.Theory.
Local Open Scope ring_scope.

(** The outcome of code with raw pointers: a value, or memory is accessed outside of the objects that
    were handed over (or a call is outside of what blst defines) *)
Inductive mem_result (T : Type) := MOk (x : T) | MFault.
Arguments MFault {T}.
Definition mbind (A B : Type) (x : mem_result A) (k : A -> mem_result B) : mem_result B :=
  match x with MOk a => k a | MFault => MFault end.
Notation "'mlet' x := e 'in' k" := (mbind e (fun x => k)) (at level 200, x name, right associativity).
Definition massert (T : Type) (b : bool) (k : mem_result T) : mem_result T := if b then k else MFault.

(** Reading element i behind a pointer to the first element of s *)
Definition mread (T : Type) (s : seq T) (i : nat) : mem_result T :=
  match drop i s with x :: _ => MOk x | [::] => MFault end.

Section Blst.
Variable V : lmodType Fr.
(** [blst_p1s_mult_wbits_scratch_sizeof]: a number of bytes *)
Variable scratch_sizeof : nat -> nat.

(** [std::mem::size_of::<blst::blst_p1_affine>()]: two field elements of 48 bytes *)
Definition p1_affine_size : nat := 96.
(** [std::mem::size_of::<blst::limb_t>()] *)
Definition limb_size : nat := 8.

(** [blst_p1s_mult_wbits_precompute_sizeof]: 2^(wbits-1) affine points for each point; the shift is
    undefined for wbits = 0. *)
Definition precompute_sizeof (wbits npoints : nat) : mem_result nat :=
  massert (0 < wbits)%N (MOk (p1_affine_size * npoints * 2 ^ wbits.-1)%N).

(** [blst_p1s_mult_wbits_precompute]: reads npoints pointers, writes for each point the multiples 1 to
    2^(wbits-1); [room]: the number of points that fit into the table *)
Definition blst_precompute (room wbits : nat) (points : seq V) (npoints : nat) : mem_result (seq V) :=
  massert [&& (0 < wbits)%N, (npoints <= size points)%N & (npoints * 2 ^ wbits.-1 <= room)%N]
    (MOk (flatten [seq mkseq (fun k => P *+ k.+1) (2 ^ wbits.-1) | P <- take npoints points])).

(** [blst_p1s_mult_wbits]: the sum of the first npoints scalars times the points of which the table was
    made. It reads pointer i and the (nbits + 7) / 8 bytes behind it for each i < npoints, all rows of
    the table, and uses the scratch space; no points are outside of what blst defines. *)
Definition blst_mult (table : seq V) (wbits npoints : nat) (scalars : seq (seq byte)) (nbits scratch : nat)
  : mem_result V :=
  massert [&& (0 < wbits)%N, (0 < npoints)%N, (npoints * 2 ^ wbits.-1 <= size table)%N &
              (scratch_sizeof npoints <= scratch)%N]
    (foldl (fun acc i =>
       mlet sum := acc in
       mlet s := mread scalars i in
       massert ((nbits + 7) %/ 8 <= size s)%N (
       mlet P := mread table (i * 2 ^ wbits.-1) in
       MOk (sum + P *+ N.to_nat (N.modulo (le_to_N (take ((nbits + 7) %/ 8) s)) (2 ^ N.of_nat nbits)))))
     (MOk 0) (iota 0 npoints)).

(** fixed_base_msm.rs lines 8-13 [FixedBaseMSMPrecompBLST] *)
Record blst_msm := MkBlstMsm { bm_table : seq V; bm_wbits : nat; bm_num_points : nat; bm_scratch_space_size : nat }.

(** fixed_base_msm.rs lines 57-83 [FixedBaseMSMPrecompBLST::new] *)
Definition blst_msm_new (generators_affine : seq V) (wbits : nat) : mem_result blst_msm :=
  let num_points := size generators_affine in
  mlet table_size_bytes := precompute_sizeof wbits num_points in
  let table_size := (table_size_bytes %/ p1_affine_size)%N in
  mlet table := blst_precompute table_size wbits generators_affine num_points in
  MOk (MkBlstMsm (table ++ nseq (table_size - size table) 0) wbits num_points (scratch_sizeof num_points)).

(** fixed_base_msm.rs lines 85-118 [msm]; the scratch space has room for scratch_space_size limbs. *)
Definition blst_msm_run (m : blst_msm) (scalars : seq Fr) : mem_result V :=
  let blst_scalars := map scalar_to_bytes_le scalars in
  blst_mult (bm_table m) (bm_wbits m) (bm_num_points m) blst_scalars NUM_BITS
    (bm_scratch_space_size m * limb_size)%N.
End Blst.
