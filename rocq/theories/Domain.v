(** Model of /repo/cryptography/polynomial/src/domain.rs and coset_fft.rs. *)

From Coq Require Import NArith.
From mathcomp Require Import ssreflect ssrfun ssrbool eqtype ssrnat seq div prime ssralg.
From Verif Require Import Base BitRev FFT.

Set Implicit Arguments.
Unset Strict Implicit.
Unset Printing Implicit Defensive.

Import GRing.Theory.
Local Open Scope ring_scope.

(** Constants of the scalar field that the code uses:
    [Scalar::ROOT_OF_UNITY] (domain.rs lines 89-92), [two_adicity() = 32] (lines 94-97) and
    [Scalar::MULTIPLICATIVE_GENERATOR] (erasure_codes/src/reed_solomon.rs line 94). *)
Record fparams (F : fieldType) := FParams {
  fp_root : F;
  fp_adicity : nat;
  fp_mulgen : F
}.

Section Domain.
Variable F : fieldType.
Variable fp : fparams F.

(** [x.invert().expect(..)] *)
Definition invert_expect (x : F) : outcome F := if x == 0 then Panic else Ret x^-1.

(** domain.rs lines 13-33: the struct. *)
Record domain := MkDomain {
  d_roots : seq F;
  d_size : F;
  d_size_inv : F;
  d_generator : F;
  d_generator_inv : F;
  d_twiddle : seq F;
  d_twiddle_inv : seq F
}.

(** [pow_vartime]: exponentiation of a field element by an integer given in binary
    (the ff crate; here by repeated squaring). *)
Fixpoint pow_pos (x : F) (e : positive) : F :=
  match e with
  | xH => x
  | xO e' => let y := pow_pos x e' in y * y
  | xI e' => let y := pow_pos x e' in y * y * x
  end.
Definition pow_vartime (x : F) (e : N) : F := if e is Npos e' then pow_pos x e' else 1.

(** domain.rs lines 75-87 [compute_generator_for_size]. *)
Definition compute_generator_for_size (size : nat) : outcome F :=
  oassert (is_power_of_two size) (
  let log_size := trailing_zeros size in
  if (fp_adicity fp < log_size)%N then Panic
  else Ret (pow_vartime (fp_root fp) (N.shiftl 1 (N.of_nat (fp_adicity fp - log_size))))).

(** domain.rs lines 52-58: [roots], each root from the previous one. *)
Definition domain_roots (size : nat) (generator : F) : outcome (seq F) :=
  ofor (iota 1 size.-1) (fun i roots =>
    olet prev := aget roots i.-1 in Ret (rcons roots (prev * generator))) [:: 1].

(** domain.rs lines 36-72 [Domain::new]. *)
Definition domain_new (size0 : nat) : outcome domain :=
  let size := if is_power_of_two size0 then size0 else next_power_of_two size0 in
  olet generator := compute_generator_for_size size in
  olet generator_inv := invert_expect generator in
  let size_as_scalar : F := size%:R in
  olet size_inv := invert_expect size_as_scalar in
  olet roots := domain_roots size generator in
  Ret (MkDomain roots size_as_scalar size_inv generator generator_inv
         (precompute_twiddle_factors generator size)
         (precompute_twiddle_factors generator_inv size)).

(** domain.rs lines 102-104 [size]. *)
Definition dsize (d : domain) : nat := size (d_roots d).

(** domain.rs lines 107-115 [fft_scalars]. *)
Definition fft_scalars (d : domain) (polynomial : seq F) : outcome (seq F) :=
  fft_inplace (V := [lmodType F of F^o]) (d_twiddle d) (resize (dsize d) 0 polynomial).

(** coset_fft.rs lines 7-18 [CosetFFT], [CosetFFT::new]. *)
Record coset_fft := MkCosetFFT { cf_generator : F; cf_generator_inv : F }.
Definition coset_fft_new (gen : F) : outcome coset_fft :=
  olet inv := invert_expect gen in Ret (MkCosetFFT gen inv).

(** The scaling loops of domain.rs lines 124-128 and 207-211:
    multiply element i by g^i, the power being accumulated. *)
Definition scale_by_powers (g : F) (points : seq F) : seq F :=
  (foldl (fun (st : F * seq F) (point : F) =>
            (st.1 * g, rcons st.2 (point * st.1))) (1, [::]) points).2.

(** domain.rs lines 119-132 [coset_fft_scalars]. *)
Definition coset_fft_scalars (d : domain) (points : seq F) (coset : coset_fft) : outcome (seq F) :=
  fft_inplace (V := [lmodType F of F^o]) (d_twiddle d)
    (scale_by_powers (cf_generator coset) (resize (dsize d) 0 points)).

(** domain.rs lines 189-201 [ifft_scalars]. *)
Definition ifft_scalars (d : domain) (points : seq F) : outcome (seq F) :=
  olet a := fft_inplace (V := [lmodType F of F^o]) (d_twiddle_inv d) (resize (dsize d) 0 points) in
  Ret [seq x * d_size_inv d | x <- a].

(** domain.rs lines 204-213 [coset_ifft_scalars]. *)
Definition coset_ifft_scalars (d : domain) (points : seq F) (coset : coset_fft) : outcome (seq F) :=
  olet a := ifft_scalars d points in
  Ret (scale_by_powers (cf_generator_inv coset) a).

Variable V : lmodType F.

(** domain.rs lines 138-146 [fft_g1]. *)
Definition fft_g1 (d : domain) (points : seq V) : outcome (seq V) :=
  fft_inplace (d_twiddle d) (resize (dsize d) 0 points).

(** domain.rs lines 160-185 [ifft_g1_take_n]; the assertion is strict. *)
Definition ifft_g1_take_n (d : domain) (points : seq V) (n : option nat) : outcome (seq V) :=
  olet a := fft_inplace (d_twiddle_inv d) (resize (dsize d) 0 points) in
  olet b := match n with
            | Some num_to_take =>
                oassert (num_to_take < size a)%N (Ret (take num_to_take a))
            | None => Ret a
            end in
  Ret [seq d_size_inv d *: x | x <- b].

(** domain.rs lines 149-151 [ifft_g1]. *)
Definition ifft_g1 (d : domain) (points : seq V) : outcome (seq V) := ifft_g1_take_n d points None.

End Domain.
