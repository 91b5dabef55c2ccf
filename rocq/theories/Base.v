(** Arrays, loops and small integer helpers shared by the model. *)

From Coq Require Import NArith.
From mathcomp Require Import ssreflect ssrfun ssrbool eqtype ssrnat seq div prime.
From mathcomp Require Import zify_ssreflect.
From Verif Require Export Outcome.

Set Implicit Arguments.
Unset Strict Implicit.
Unset Printing Implicit Defensive.

(** ** Arrays: Rust slice indexing panics out of range. *)
Section Arrays.
Variable T : Type.

Fixpoint oget (a : seq T) (i : nat) : option T :=
  match a, i with
  | [::], _ => None
  | x :: _, 0 => Some x
  | _ :: a', i'.+1 => oget a' i'
  end.

(** [a[i]] *)
Definition aget (a : seq T) (i : nat) : outcome T := ounwrap (oget a i).

(** [a[i] = x] *)
Fixpoint aset (a : seq T) (i : nat) (x : T) : outcome (seq T) :=
  match a, i with
  | [::], _ => Panic
  | _ :: a', 0 => Ret (x :: a')
  | y :: a', i'.+1 => omap (cons y) (aset a' i' x)
  end.

(** [a.swap(i, j)] *)
Definition aswap (a : seq T) (i j : nat) : outcome (seq T) :=
  olet x := aget a i in
  olet y := aget a j in
  olet a1 := aset a i y in
  aset a1 j x.

(** [v.resize(n, x)]: truncates or pads. *)
Definition resize (n : nat) (x : T) (a : seq T) : seq T := take n a ++ nseq (n - size a) x.

(** [&a[i..j]]: panics unless [i <= j <= len]. *)
Definition aslice (a : seq T) (i j : nat) : outcome (seq T) :=
  if (i <= j) && (j <= size a) then Ret (take (j - i) (drop i a)) else Panic.

Lemma oget_nth x0 (a : seq T) i : i < size a -> oget a i = Some (nth x0 a i).
Proof. by elim: a i => [|x a IH] [|i] //=; apply: IH. Qed.

Lemma oget_none (a : seq T) i : size a <= i -> oget a i = None.
Proof. by elim: a i => [|x a IH] [|i] //=; apply: IH. Qed.

Lemma aget_nth x0 (a : seq T) i : i < size a -> aget a i = Ret (nth x0 a i).
Proof. by move=> H; rewrite /aget (oget_nth x0). Qed.

Lemma aget_panic (a : seq T) i : size a <= i -> aget a i = Panic.
Proof. by move=> H; rewrite /aget oget_none. Qed.

Lemma aset_set_nth x0 (a : seq T) i x : i < size a -> aset a i x = Ret (set_nth x0 a i x).
Proof. by elim: a i => [|y a IH] [|i] //= H; rewrite IH. Qed.

Lemma aset_panic (a : seq T) i x : size a <= i -> aset a i x = Panic.
Proof. by elim: a i => [|y a IH] [|i] //= H; rewrite IH. Qed.

Lemma size_set_nth_in x0 (a : seq T) i x : i < size a -> size (set_nth x0 a i x) = size a.
Proof. by move=> H; rewrite size_set_nth; apply/maxn_idPr. Qed.

Lemma size_resize n x (a : seq T) : size (resize n x a) = n.
Proof. by rewrite /resize size_cat size_nseq size_take; case: ltnP => H; lia. Qed.

Lemma nth_resize n x (a : seq T) i : i < n -> nth x (resize n x a) i = nth x a i.
Proof.
move=> Hi; rewrite /resize nth_cat size_take.
case: (ltnP n (size a)) => H.
  by rewrite Hi nth_take.
case: (ltnP i (size a)) => H2; first by rewrite nth_take.
by rewrite nth_nseq if_same nth_default.
Qed.

Lemma resize_id n x (a : seq T) : size a = n -> resize n x a = a.
Proof. by move=> <-; rewrite /resize take_size subnn cats0. Qed.

End Arrays.

(** ** Loops *)

(** [for i in l { body }] over a mutable state. *)
Fixpoint ofor (I S : Type) (l : seq I) (body : I -> S -> outcome S) (s : S) : outcome S :=
  match l with
  | [::] => Ret s
  | i :: l' => olet s' := body i s in ofor l' body s'
  end.

Lemma ofor_inv (I S : Type) (i0 : I) (l : seq I) (body : I -> S -> outcome S) (s : S)
  (P : nat -> S -> Prop) :
  P 0 s ->
  (forall k s, k < size l -> P k s -> exists2 s', body (nth i0 l k) s = Ret s' & P k.+1 s') ->
  exists2 s', ofor l body s = Ret s' & P (size l) s'.
Proof.
elim: l s P => [|i l IH] s P H0 Hstep /=; first by exists s.
have [s1 E1 P1] := Hstep 0 s isT H0.
rewrite /= in E1; rewrite E1 /=.
apply: (IH s1 (fun k => P k.+1)) => // k s2 Hk Pk.
exact: (Hstep k.+1 s2 Hk Pk).
Qed.

Lemma ofor_iota_inv (S : Type) (n : nat) (body : nat -> S -> outcome S) (s : S)
  (P : nat -> S -> Prop) :
  P 0 s ->
  (forall k s, k < n -> P k s -> exists2 s', body k s = Ret s' & P k.+1 s') ->
  exists2 s', ofor (iota 0 n) body s = Ret s' & P n s'.
Proof.
move=> H0 H.
have Hs k s1 : k < size (iota 0 n) -> P k s1 ->
    exists2 s', body (nth 0 (iota 0 n) k) s1 = Ret s' & P k.+1 s'.
  by rewrite size_iota => Hk; rewrite nth_iota // add0n; apply: H.
have [s' E P'] := ofor_inv H0 Hs.
by exists s' => //; rewrite size_iota in P'.
Qed.

Lemma ofor_cat (I S : Type) (l1 l2 : seq I) (body : I -> S -> outcome S) s :
  ofor (l1 ++ l2) body s = obind (ofor l1 body s) (ofor l2 body).
Proof. by elim: l1 s => [|i l1 IH] s //=; case: (body i s). Qed.

(** A loop whose body always returns is a [foldl]. *)
Lemma ofor_foldl (I S : Type) (l : seq I) (body : I -> S -> outcome S) (f : S -> I -> S) s :
  (forall i s, body i s = Ret (f s i)) -> ofor l body s = Ret (foldl f s l).
Proof. by move=> H; elim: l s => [|i l IH] s //=; rewrite H /= IH. Qed.

Lemma omapM_Ret (A B : Type) (f : A -> outcome B) (g : A -> B) (l : seq A) :
  (forall x, f x = Ret (g x)) -> omapM f l = Ret (map g l).
Proof. by move=> H; elim: l => [|x l IH] //=; rewrite H IH. Qed.

Lemma omapM_Ret_in (A : eqType) (B : Type) (f : A -> outcome B) (g : A -> B) (l : seq A) :
  {in l, forall x, f x = Ret (g x)} -> omapM f l = Ret (map g l).
Proof.
elim: l => [|x l IH] //= H; rewrite H ?mem_head //= IH //.
by move=> y Hy; apply: H; rewrite inE Hy orbT.
Qed.

(** ** Integer helpers *)

(** [usize::trailing_zeros] (64 for zero). *)
Definition trailing_zeros (n : nat) : nat := if n == 0 then 64 else logn 2 n.

(** [usize::is_power_of_two] *)
Definition is_power_of_two (n : nat) : bool := n == 2 ^ logn 2 n.

(** [usize::next_power_of_two] (1 for zero; overflow beyond 2^63 is not modelled). *)
Definition next_power_of_two (n : nat) : nat := 2 ^ up_log 2 n.

Lemma is_power_of_twoP n : reflect (exists k, n = 2 ^ k) (is_power_of_two n).
Proof.
apply: (iffP eqP) => [->|[k ->]]; first by exists (logn 2 n).
by rewrite pfactorK.
Qed.

Lemma is_power_of_two_exp k : is_power_of_two (2 ^ k).
Proof. by apply/is_power_of_twoP; exists k. Qed.

Lemma trailing_zeros_exp k : trailing_zeros (2 ^ k) = k.
Proof. by rewrite /trailing_zeros expn_eq0 /= pfactorK. Qed.

Lemma next_power_of_two_exp k : next_power_of_two (2 ^ k) = 2 ^ k.
Proof. by rewrite /next_power_of_two up_expnK. Qed.

Lemma leq_next_power_of_two n : n <= next_power_of_two n.
Proof. exact: up_logP. Qed.

Lemma next_power_of_two_pow2 n : is_power_of_two (next_power_of_two n).
Proof. exact: is_power_of_two_exp. Qed.

(** [(0..n).step_by(d)] for positive d. *)
Definition step_by (n d : nat) : seq nat := [seq i * d | i <- iota 0 ((n + d.-1) %/ d)].

Lemma step_by_mul q d : 0 < d -> step_by (q * d) d = [seq i * d | i <- iota 0 q].
Proof.
move=> Hd; rewrite /step_by; congr (map _ (iota 0 _)).
by rewrite divnMDl // divn_small ?addn0 // prednK.
Qed.

(** [chunks_exact(n)] for positive n: full chunks only. *)
Fixpoint chunks_fuel (T : Type) (fuel n : nat) (s : seq T) : seq (seq T) :=
  match fuel with
  | 0 => [::]
  | f.+1 => if n <= size s then take n s :: chunks_fuel f n (drop n s) else [::]
  end.
Definition chunks_exact (T : Type) (n : nat) (s : seq T) : seq (seq T) :=
  chunks_fuel (size s %/ n) n s.

Lemma chunks_fuelE (T : Type) f n (s : seq T) : f * n <= size s ->
  chunks_fuel f n s = mkseq (fun i => take n (drop (i * n) s)) f.
Proof.
elim: f s => [|f IH] s //= Hs.
have Hn : n <= size s by rewrite mulSn in Hs; lia.
rewrite Hn IH; last by rewrite size_drop; rewrite mulSn in Hs; lia.
rewrite /mkseq /= drop0; congr (_ :: _).
rewrite -[iota 1 f]/(iota (1 + 0) f) iotaDl -map_comp.
by apply: eq_map => i /=; rewrite drop_drop mulSn addnC.
Qed.

Lemma chunks_exactE (T : Type) n (s : seq T) :
  chunks_exact n s = mkseq (fun i => take n (drop (i * n) s)) (size s %/ n).
Proof. by rewrite /chunks_exact chunks_fuelE // leq_trunc_div. Qed.

Lemma size_chunks_exact (T : Type) n (s : seq T) : size (chunks_exact n s) = size s %/ n.
Proof. by rewrite chunks_exactE size_mkseq. Qed.

(** [x as u32] for a [usize] (truncation). *)
Definition as_u32 (n : nat) : nat := N.to_nat (N.modulo (N.of_nat n) (2 ^ 32)%num).

Lemma as_u32_id n : (N.of_nat n < 2 ^ 32)%num -> as_u32 n = n.
Proof. by move=> H; rewrite /as_u32 N.mod_small // Nat2N.id. Qed.

Lemma N_of_nat_expn2 k : N.of_nat (2 ^ k) = (2 ^ N.of_nat k)%num.
Proof.
elim: k => [|k IH] //.
have -> : N.of_nat k.+1 = N.succ (N.of_nat k) by lia.
by rewrite expnS Nat2N.inj_mul IH N.pow_succ_r'.
Qed.

Lemma lt_exp_u32 n L : n <= 2 ^ L -> L < 32 -> (N.of_nat n < 2 ^ 32)%num.
Proof.
move=> H HL; apply: (N.le_lt_trans _ (N.of_nat (2 ^ L))); first lia.
rewrite N_of_nat_expn2; apply: N.pow_lt_mono_r; lia.
Qed.

Lemma lt_exp_u32' n L : n < 2 ^ L -> L <= 32 -> (N.of_nat n < 2 ^ 32)%num.
Proof.
move=> H HL; apply: (N.lt_le_trans _ (N.of_nat (2 ^ L))); first lia.
rewrite N_of_nat_expn2; apply: N.pow_le_mono_r; lia.
Qed.
