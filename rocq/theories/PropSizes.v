(** Property C67: sizes that do not fit are refused. Where PropFK20.v, PropFFT.v and PropRS.v say what the prover, the
    transforms and the keys do when the sizes fit, the theorems below say that nothing is returned when they do not. *)

From Coq Require Import ZArith.
From mathcomp Require Import ssreflect ssrfun ssrbool eqtype ssrnat seq div.
From mathcomp Require Import fintype bigop ssralg zify_ssreflect.
From Verif Require Import Base Domain DomainProofs ZField Fr PolyCoeffProofs Lincomb LincombProofs FixedBaseMSM.
From Verif Require Import Toeplitz FK20Prover FK20Verifier.

Set Implicit Arguments.
Unset Strict Implicit.
Unset Printing Implicit Defensive.

Import GRing.Theory.
Local Open Scope ring_scope.

Lemma bind_ret (A B : Type) (e : outcome A) (k : A -> outcome B) r : obind e k = Ret r ->
  exists2 x, e = Ret x & k x = Ret r.
Proof. by case: e => [x|] //= H; exists x. Qed.
Lemma assert_ret (A : Type) b (k : outcome A) r : oassert b k = Ret r -> b /\ k = Ret r.
Proof. by rewrite /oassert; case: b. Qed.
Lemma mapM_ret (A B : Type) (f : A -> outcome B) l r : omapM f l = Ret r ->
  size r = size l /\ forall x, List.In x l -> exists y, f x = Ret y.
Proof.
elim: l r => [|x l IH] r /=; first by case=> <-.
case E: (f x) => [y|] //=; case El: (omapM f l) => [ys|] //= [<-].
have [S H] := IH _ El; split; first by rewrite /= S.
by move=> z [<-|/H //]; exists y.
Qed.

(** A prover can only be made for cells and a number of points that are powers of two, with at least two cells, and
    for a polynomial bound that is a power of two and that the setup covers. *)
Theorem C67_prover (V : lmodType Fr) (srs : seq V) bound cell points up pr :
  fk20_prover_new fr_params srs bound cell points up = Ret pr ->
  exists a b c, [/\ cell = 2 ^ a, points = 2 ^ b, bound = 2 ^ c & a < b]%N /\
                [/\ 2 ^ c <= size srs & 2 ^ a < size srs]%N.
Proof.
rewrite /fk20_prover_new => H.
have [/is_power_of_twoP[a ->] {}H] := assert_ret H; have [/is_power_of_twoP[b Eb] {}H] := assert_ret H.
have [lt {}H] := assert_ret H; have [/is_power_of_twoP[c Ec] {}H] := assert_ret H.
have [Hc {}H] := assert_ret H; have [Ha _] := assert_ret H.
by exists a, b, c; rewrite -(@ltn_exp2l 2) // -Eb -Ec.
Qed.
Print Assumptions C67_prover.

(** It only opens polynomials whose number of coefficients is a power of two. *)
Theorem C67_open (V : lmodType Fr) (me : msm_env V) (pr : fk20_prover V) (poly : seq Fr) r :
  compute_multi_opening_proofs me pr (InputPolyCoeff poly) = Ret r -> exists k, size poly = (2 ^ k)%N.
Proof.
rewrite /compute_multi_opening_proofs obind_Ret /compute_multi_opening_proofs_poly_coeff => H.
have [h Hh _] := bind_ret H; have [_ {}H] := assert_ret Hh; have [/is_power_of_twoP Hp _] := assert_ret H.
exact: Hp.
Qed.
Print Assumptions C67_open.

(** The same for the reference implementation. *)
Theorem C67_naive (V : lmodType Fr) (srs : seq V) (poly : seq Fr) cell points r :
  open_multi_point fr_params srs poly cell points = Ret r ->
  exists a b c, [/\ cell = 2 ^ a, points = 2 ^ b, size poly = 2 ^ c, a < b & 2 ^ c <= size srs]%N.
Proof.
rewrite /open_multi_point => H.
have [/is_power_of_twoP[a ->] {}H] := assert_ret H; have [/is_power_of_twoP[b Eb] {}H] := assert_ret H.
have [/is_power_of_twoP[c Sc] {}H] := assert_ret H; have [lt {}H] := assert_ret H.
have [le _] := assert_ret H.
by exists a, b, c; rewrite -(@ltn_exp2l 2) // -Eb -Sc.
Qed.
Print Assumptions C67_naive.

(** A sum of Toeplitz products has one matrix for each vector, and none of the matrices is empty. *)
Theorem C67_matrices (V : lmodType Fr) (me : msm_env V) (xs : seq (seq V)) up (rcs : seq (seq Fr * seq Fr)) r :
  (olet bt := batch_toeplitz_new fr_params xs up in
   olet tms := omapM (fun rc => toeplitz_new rc.1 rc.2) rcs in sum_matrix_vector_mul me bt tms) = Ret r ->
  size rcs = size xs /\ forall row col, List.In (row, col) rcs -> row <> [::] /\ col <> [::].
Proof.
move=> H; have [bt Hbt {}H] := bind_ret H; have [tms Htms {}H] := bind_ret H.
have [/eqP S _] := assert_ret H.
have [v0 _ {}Hbt] := bind_ret Hbt; have [_ {}Hbt] := assert_ret Hbt; have [_ {}Hbt] := assert_ret Hbt.
have [d _ {}Hbt] := bind_ret Hbt; have [vs Hvs {}Hbt] := bind_ret Hbt.
have [t _ {}Hbt] := bind_ret Hbt; have [p _ [Ebt]] := bind_ret Hbt.
have [Sv _] := mapM_ret Hvs; have [St Ht] := mapM_ret Htms.
split; first by rewrite -St S -Ebt /= Sv.
by move=> row col /Ht[y Hy]; have [/andP[/nilP ? /nilP ?] _] := assert_ret Hy.
Qed.
Print Assumptions C67_matrices.

(** From an inverse transform of a domain of size 2^k fewer than 2^k elements can be taken, and that many come back. *)
Theorem C67_take_n (V : lmodType Fr) (k : nat) (points : seq V) (n : nat) : (k <= 32)%N ->
  ((n < 2 ^ k)%N -> exists2 r, (olet d := domain_new fr_params (2 ^ k) in ifft_g1_take_n d points (Some n)) = Ret r &
                               size r = n) /\
  ((2 ^ k <= n)%N -> (olet d := domain_new fr_params (2 ^ k) in ifft_g1_take_n d points (Some n)) = Panic).
Proof.
move=> Hk; rewrite (domain_new_exp fr_ok) // obind_Ret (ifft_g1E fr_ok) //; split=> [lt|le].
  by rewrite lt; eexists; first reflexivity; rewrite size_map size_takel // size_dft ltnW.
by rewrite ltnNge le.
Qed.
Print Assumptions C67_take_n.

(** A verification key has a G2 point for the power tau^n of its cells, so making a verifier cannot fail for want of
    one; it has a generator too. *)
Theorem C67_verification_key (G1 G2 : lmodType Fr) (g1s : seq G1) (g2s : seq G2) n m vk :
  verification_key_new g1s g2s n m = Ret vk ->
  exists g t, [/\ aget (vk_g2s vk) 0 = Ret g, aget (vk_g2s vk) (vk_coset_size vk) = Ret t & vk_g2_gen vk = g].
Proof.
move=> H; have [g Hg {}H] := bind_ret H; have [lt [<-]] := assert_ret H; rewrite /=.
have [t Ht] : exists t, aget g2s n = Ret t.
  elim: g2s n lt {Hg H} => [|x s IH] [|n] //= lt; first by exists x.
  by have [t Ht] := IH n lt; exists t; exact: Ht.
by exists g, t.
Qed.
Print Assumptions C67_verification_key.

(** With a commit key one can commit to a constant. *)
Theorem C67_commit_key (V : lmodType Fr) (g1s key : seq V) (c : Fr) :
  commit_key_new g1s = Ret key -> commit_g1 key [:: c] = Ret (c *: head 0 key).
Proof.
move=> H; have [ne [<-]] := assert_ret H; case: g1s ne {H} => //= g s _.
by rewrite /commit_g1 /aslice /= take0 g1_lincombE /SpecKZG.lincomb /= big_ord_recl big_ord0 addr0.
Qed.
Print Assumptions C67_commit_key.
