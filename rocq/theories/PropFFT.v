(** Properties C24, C26-C31: transforms, domains, bit reversal, polynomial arithmetic,
    interpolation, batch inversion. Only statements; the proofs are in the *Proofs files. *)

From Coq Require Import NArith.
From mathcomp Require Import ssreflect ssrfun ssrbool eqtype ssrnat seq div prime.
From mathcomp Require Import fintype bigop ssralg poly zify_ssreflect.
From Verif Require Import Base Spec BitRev BitRevProofs FFT FFTProofs Domain DomainProofs.
From Verif Require Import PolyCoeff PolyCoeffProofs ZField Fr.

Set Implicit Arguments.
Unset Strict Implicit.
Unset Printing Implicit Defensive.

Import GRing.Theory.
Local Open Scope ring_scope.

(** ** C28: domains *)

Lemma pow2_up (n : nat) : exists2 k, (if is_power_of_two n then n else next_power_of_two n) = (2 ^ k)%N &
  (n <= 2 ^ k)%N /\ forall j, (n <= 2 ^ j)%N -> (k <= j)%N.
Proof.
case: ifP => [/is_power_of_twoP [k ->]|_].
  by exists k => //; split=> // j; rewrite leq_exp2l.
exists (up_log 2 n) => //; split; first exact: up_logP.
by move=> j Hj; apply: up_log_min.
Qed.

Lemma domain_new_any (F : fieldType) (fp : fparams F) n : fp_ok fp ->
  exists2 k, (n <= 2 ^ k)%N /\ (forall j, (n <= 2 ^ j)%N -> (k <= j)%N) &
  domain_new fp n = if (k <= fp_adicity fp)%N then Ret (mkdom fp k) else Panic.
Proof.
move=> ok; have [k Hk H] := pow2_up n; exists k => //.
have -> : domain_new fp n = domain_new fp (2 ^ k) by rewrite /domain_new Hk is_power_of_two_exp.
by case: leqP => Hk'; [apply: domain_new_exp | apply: domain_new_panic].
Qed.

(** [Domain::new n] uses the least power of two 2^k >= n. For k <= 32 the roots are the 2^k
    consecutive powers of the generator, they are pairwise distinct, and the generator has order
    exactly 2^k; for larger k the call panics. *)
Theorem C28_domain_new (n : nat) :
  exists2 k, (n <= 2 ^ k)%N /\ (forall j, (n <= 2 ^ j)%N -> (k <= j)%N) &
  if (k <= 32)%N then
    exists2 d, domain_new fr_params n = Ret d &
      [/\ d_roots d = mkseq (fun i => d_generator d ^+ i) (2 ^ k),
          uniq (d_roots d),
          (2 ^ k).-primitive_root (d_generator d),
          d_generator_inv d * d_generator d = 1 &
          d_size_inv d * (2 ^ k)%:R = 1]
  else domain_new fr_params n = Panic.
Proof.
have [k Hk H] := domain_new_any n fr_ok; exists k => //.
rewrite H [fp_adicity _]/=; case: leqP => // Hk32; eexists; first by [].
have Hp := omega_primitive fr_ok Hk32.
split=> //.
- rewrite map_inj_in_uniq ?iota_uniq // => i j; rewrite !mem_iota !add0n => /= Hi Hj.
  by apply: (omega_inj fr_ok Hk32).
- by rewrite /= mulVf // (omega_neq0 fr_ok).
- by rewrite /= mulVf // (pow2_neq0 fr_ok).
Qed.
Print Assumptions C28_domain_new.

Corollary C28_domain_new_0 : exists2 d, domain_new fr_params 0 = Ret d & d_roots d = [:: 1].
Proof.
have [k [_ Hk]] := C28_domain_new 0.
have -> : k = 0%N by apply/eqP; rewrite -leqn0; apply: Hk.
by case=> d -> [Er _ _ _ _]; exists d; rewrite // Er /mkseq /= expr0.
Qed.

(** ** C26: FFT and IFFT *)
Section C26.
Variables (k : nat) (d : domain Fr).
Hypothesis Hk : (k <= 32)%N.
Hypothesis Hd : domain_new fr_params (2 ^ k) = Ret d.

Let dE : d = mkdom fr_params k.
Proof. by move: Hd; rewrite (domain_new_exp fr_ok Hk) => -[]. Qed.

Theorem C26_fft_scalars (p : seq Fr) :
  fft_scalars d p = Ret (mkseq (fun i => (Poly (take (2 ^ k) p)).[d_generator d ^+ i]) (2 ^ k)).
Proof. by rewrite dE (fft_scalars_eval fr_ok Hk). Qed.

Theorem C26_ifft_scalars (a : seq Fr) :
  exists2 p, ifft_scalars d a = Ret p &
    [/\ size p = (2 ^ k)%N,
        forall i, (i < 2 ^ k)%N -> (Poly p).[d_generator d ^+ i] = a`_i &
        forall q, size q = (2 ^ k)%N ->
          (forall i, (i < 2 ^ k)%N -> (Poly q).[d_generator d ^+ i] = a`_i) -> q = p].
Proof.
rewrite dE; have [p -> [Sp Hp]] := ifft_scalars_interp fr_ok Hk a; exists p => //; split=> //.
move=> q Sq Hq; apply: Poly_inj_size; first by rewrite Sp.
apply: (poly_eq_on_domain fr_ok Hk).
- by rewrite -Sq size_Poly.
- by rewrite -Sp size_Poly.
- by move=> i Hi; rewrite Hp //; apply: Hq.
Qed.

Theorem C26_ifft_fft_scalars (a p : seq Fr) : size a = (2 ^ k)%N -> size p = (2 ^ k)%N ->
  (fft_scalars d p = Ret a <-> ifft_scalars d a = Ret p).
Proof.
move=> Sa Sp; rewrite dE; split.
  rewrite (fft_scalars_eval fr_ok Hk) take_oversize ?Sp // => -[<-].
  by rewrite (ifft_fft fr_ok Hk) ?Sp // resize_id.
by move=> E; have := fft_ifft fr_ok Hk Sa; rewrite E.
Qed.

Variable G : lmodType Fr.

Theorem C26_fft_g1 (a : seq G) : size a = (2 ^ k)%N ->
  fft_g1 d a = Ret (mkseq (fun i => \sum_(j < 2 ^ k) (d_generator d ^+ i) ^+ j *: a`_j) (2 ^ k)).
Proof.
move=> Sa; rewrite dE (fft_g1E fr_ok Hk) resize_id //; congr Ret.
by apply: eq_mkseq => i; apply: eq_bigr => j _; rewrite exprM.
Qed.

Theorem C26_ifft_fft_g1 (a b : seq G) : size a = (2 ^ k)%N -> size b = (2 ^ k)%N ->
  (fft_g1 d a = Ret b <-> ifft_g1 d b = Ret a).
Proof.
move=> Sa Sb; rewrite dE (fft_g1E fr_ok Hk) /ifft_g1 (ifft_g1E fr_ok Hk) !resize_id //.
have w1 := omega_order fr_ok Hk.
have w2 : (0 < k)%N -> omega fr_params k ^+ (2 ^ k.-1) = -1.
  by move=> k0; apply: (omega_half fr_ok); rewrite k0.
have two := two_neq0 fr_ok; have n0 := pow2_neq0 fr_ok k.
have Hinv (s : seq G) : [seq (2 ^ k)%:R^-1 *: x | x <- [seq (2 ^ k)%:R *: x | x <- s]] = s.
  by rewrite -map_comp -[RHS]map_id; apply: eq_map => x /=; rewrite scalerA mulVf // scale1r.
split=> -[<-]; first by rewrite dft_inv // Hinv.
congr Ret; rewrite -[RHS]Hinv -(dft_inv' w1 w2 two Sb).
set e := dft _ _ b; have Se : size e = (2 ^ k)%N by rewrite size_mkseq.
apply: (@eq_from_nth _ 0); rewrite ?size_map ?size_iota // => i Hi.
rewrite [RHS](nth_map 0) ?size_mkseq // !nth_mkseq // scaler_sumr.
apply: eq_bigr => j _; rewrite (nth_map 0) ?Se // !scalerA; congr (_ *: _).
by rewrite mulrC.
Qed.
End C26.
Print Assumptions C26_fft_scalars.
Print Assumptions C26_ifft_scalars.
Print Assumptions C26_ifft_fft_scalars.
Print Assumptions C26_fft_g1.
Print Assumptions C26_ifft_fft_g1.

(** ** C27: coset transforms *)
Section C27.
Variables (k : nat) (d : domain Fr) (g : Fr) (c : coset_fft Fr).
Hypothesis Hk : (k <= 32)%N.
Hypothesis Hd : domain_new fr_params (2 ^ k) = Ret d.
Hypothesis Hg : coset_fft_new g = Ret c.

Let dE : d = mkdom fr_params k.
Proof. by move: Hd; rewrite (domain_new_exp fr_ok Hk) => -[]. Qed.
Let g0 : g != 0.
Proof. by move: Hg; rewrite /coset_fft_new /invert_expect; case: eqP. Qed.
Let cE : c = MkCosetFFT g g^-1.
Proof. by move: Hg; rewrite /coset_fft_new /invert_expect (negbTE g0) /= => -[]. Qed.

Theorem C27_coset_fft (p : seq Fr) :
  coset_fft_scalars d p c =
  Ret (mkseq (fun i => (Poly (take (2 ^ k) p)).[g * d_generator d ^+ i]) (2 ^ k)).
Proof. by rewrite dE cE (coset_fft_scalars_eval fr_ok Hk). Qed.

Theorem C27_coset_ifft (a : seq Fr) :
  exists2 p, coset_ifft_scalars d a c = Ret p &
    [/\ size p = (2 ^ k)%N,
        forall i, (i < 2 ^ k)%N -> (Poly p).[g * d_generator d ^+ i] = a`_i &
        forall q, size q = (2 ^ k)%N ->
          (forall i, (i < 2 ^ k)%N -> (Poly q).[g * d_generator d ^+ i] = a`_i) -> q = p].
Proof.
rewrite dE cE; have [p -> [Sp Hp]] := coset_ifft_scalars_interp fr_ok Hk a g0; exists p => //.
split=> // q Sq Hq; apply: Poly_inj_size; first by rewrite Sp.
apply: (poly_eq_on_coset fr_ok Hk g0).
- by rewrite -Sq size_Poly.
- by rewrite -Sp size_Poly.
- by move=> i Hi; rewrite Hp //; apply: Hq.
Qed.

Theorem C27_coset_inverse (a p : seq Fr) : size a = (2 ^ k)%N -> size p = (2 ^ k)%N ->
  (coset_fft_scalars d p c = Ret a <-> coset_ifft_scalars d a c = Ret p).
Proof.
move=> Sa Sp; have [q Eq [Sq Hq Uq]] := C27_coset_ifft a.
rewrite C27_coset_fft take_oversize ?Sp // Eq; split.
  case=> Ea; congr Ret; apply/esym/Uq => // i Hi.
  by rewrite -Ea nth_mkseq.
case=> <-; congr Ret; apply: (@eq_from_nth _ 0); rewrite size_mkseq // => i Hi.
by rewrite nth_mkseq // Hq.
Qed.
End C27.
Print Assumptions C27_coset_fft.
Print Assumptions C27_coset_ifft.
Print Assumptions C27_coset_inverse.

Theorem C27_coset_zero : coset_fft_new (0 : Fr) = Panic.
Proof. by rewrite /coset_fft_new /invert_expect eqxx. Qed.

(** ** C29: bit-reversal order. Lengths of 2^32 and more are outside (the code casts to u32). *)
Section C29.
Variable T : Type.

Theorem C29_reverse_bit_order (x0 : T) L (a : seq T) : (L < 32)%N -> size a = (2 ^ L)%N ->
  exists2 b, reverse_bit_order a = Ret b &
    [/\ size b = size a,
        forall i, (i < 2 ^ L)%N -> nth x0 b i = nth x0 a (bitrev L i) &
        reverse_bit_order b = Ret a].
Proof.
move=> HL Sa; rewrite (reverse_bit_order_mkseq x0 Sa HL).
eexists; first by []; split; first by rewrite size_mkseq.
- by move=> i Hi; rewrite nth_mkseq.
- have := reverse_bit_order_involutive Sa HL.
  by rewrite (reverse_bit_order_mkseq x0 Sa HL).
Qed.

Theorem C29_reverse_bit_order_panic (a : seq T) : (N.of_nat (size a) < 2 ^ 32)%num ->
  (reverse_bit_order a = Panic <-> ~ exists L, size a = (2 ^ L)%N).
Proof. exact: reverse_bit_order_panic. Qed.

(** Beyond the range of u32 the truncated length is used: a list of 2^32 elements is rejected. *)
Theorem C29_large_panics (a : seq T) : N.of_nat (size a) = (2 ^ 32)%num -> reverse_bit_order a = Panic.
Proof. by rewrite /reverse_bit_order /as_u32 => ->. Qed.
End C29.
Print Assumptions C29_large_panics.
Print Assumptions C29_reverse_bit_order.
Print Assumptions C29_reverse_bit_order_panic.

(** ** C30: polynomial arithmetic *)
Theorem C30_poly_add (a b : seq Fr) :
  exists2 r, poly_add a b = Ret r & size r = maxn (size a) (size b) /\ Poly r = Poly a + Poly b.
Proof. exact: poly_add_spec. Qed.
Theorem C30_poly_sub (a b : seq Fr) :
  exists2 r, poly_sub a b = Ret r & size r = maxn (size a) (size b) /\ Poly r = Poly a - Poly b.
Proof. exact: poly_sub_spec. Qed.
Theorem C30_poly_neg (a : seq Fr) : size (poly_neg a) = size a /\ Poly (poly_neg a) = - Poly a.
Proof. by split; [apply: size_map | apply: Poly_neg]. Qed.
Theorem C30_poly_eval (p : seq Fr) (x : Fr) : poly_eval p x = (Poly p).[x].
Proof. exact: poly_eval_spec. Qed.
Theorem C30_poly_mul (a b : seq Fr) : (0 < size a + size b)%N ->
  exists2 r, poly_mul a b = Ret r & size r = (size a + size b - 1)%N /\ Poly r = Poly a * Poly b.
Proof. exact: poly_mul_spec. Qed.
Theorem C30_poly_mul_panic (a b : seq Fr) : poly_mul a b = Panic <-> a = [::] /\ b = [::].
Proof. exact: poly_mul_panic. Qed.
Theorem C30_vanishing_poly (rs : seq Fr) :
  exists2 p, vanishing_poly rs = Ret p &
    size p = (size rs).+1 /\ Poly p = \prod_(x <- rs) ('X - x%:P).
Proof. exact: vanishing_poly_spec. Qed.
Print Assumptions C30_poly_add.
Print Assumptions C30_poly_sub.
Print Assumptions C30_poly_neg.
Print Assumptions C30_poly_eval.
Print Assumptions C30_poly_mul.
Print Assumptions C30_poly_mul_panic.
Print Assumptions C30_vanishing_poly.

(** ** C31: Lagrange interpolation *)
Theorem C31_lagrange (pts : seq (Fr * Fr)) : (2 <= size pts)%N -> uniq (map fst pts) ->
  exists2 c, lagrange_interpolate pts = Ret (Some c) &
    [/\ size c = size pts, forall p, p \in pts -> (Poly c).[p.1] = p.2 &
        forall q : {poly Fr}, (size q <= size pts)%N -> (forall p, p \in pts -> q.[p.1] = p.2) ->
          q = Poly c].
Proof.
move=> Hn U; have [c -> [Sc Hc]] := lagrange_interpolate_spec Hn U; exists c => //; split=> //.
move=> q Sq Hq; apply/eqP; rewrite -subr_eq0; apply/eqP.
apply: (@roots_geq_poly_eq0 _ _ (map fst pts)) => //.
  apply/allP => x /mapP [p Hp ->]; rewrite rootE hornerD hornerN Hq // Hc // subrr //.
rewrite size_map; apply: leq_trans (size_add _ _) _; rewrite size_opp geq_max Sq /=.
by rewrite -Sc size_Poly.
Qed.
Theorem C31_lagrange_panic (pts : seq (Fr * Fr)) :
  lagrange_interpolate pts = Panic <-> (size pts < 2)%N \/ ~~ uniq (map fst pts).
Proof.
split; last exact: lagrange_interpolate_panic.
case: (leqP 2 (size pts)) => Hn; last by left.
case: (boolP (uniq (map fst pts))) => U; last by right.
by have [c -> _] := lagrange_interpolate_spec Hn U.
Qed.
Print Assumptions C31_lagrange.
Print Assumptions C31_lagrange_panic.

(** ** C24: batch inversion, for any field and any previous content of the scratch pad *)
Theorem C24_batch_inverse (F : fieldType) (v pad : seq F) :
  match batch_inverse_scratch_pad v pad with
  | Ret (v', _) => 0 \notin v /\ v' = [seq x^-1 | x <- v]
  | Panic => 0 \in v
  end.
Proof.
case: (boolP (0 \in v)) => H0.
  rewrite /batch_inverse_scratch_pad.
  have := batch_inverse_panic H0; rewrite /batch_inverse /batch_inverse_scratch_pad.
  case: (foldl _ _ v) => t s; case: (invert_expect t) => //= t'.
  by case: (foldl _ _ (zip _ _)).
rewrite batch_inverse_scratch_pad_spec //.
by apply/allP => x Hx; apply: contraNneq H0 => <-.
Qed.
Print Assumptions C24_batch_inverse.
