(** Bytes and big-endian integers. *)

From Coq Require Import NArith Init.Byte Strings.Byte Lia.
From mathcomp Require Import ssreflect ssrfun ssrbool eqtype ssrnat seq div.

Set Implicit Arguments.
Unset Strict Implicit.
Unset Printing Implicit Defensive.

Lemma byte_eqP : Equality.axiom Byte.eqb.
Proof.
move=> a b; apply: (iffP idP) => [|->]; first by apply: Byte.byte_dec_bl.
exact: Byte.byte_dec_lb.
Qed.
Canonical byte_eqType := EqType byte (EqMixin byte_eqP).

(** The byte with a given value modulo 256 ([x as u8]). *)
Definition byte_of (x : N) : byte :=
  match Byte.of_N (x mod 256) with Some b => b | None => "000" end%byte.

(** The integer with the given big-endian encoding. *)
Definition be_val (s : seq byte) : N :=
  foldl (fun acc b => acc * 256 + Byte.to_N b)%num 0%num s.

(** The n-byte big-endian encoding of v modulo 256^n ([u64::to_be_bytes] for n = 8). *)
Fixpoint be_bytes (n : nat) (v : N) : seq byte :=
  if n is n'.+1 then byte_of (v / 256 ^ N.of_nat n') :: be_bytes n' v else [::].

Lemma to_N_lt (b : byte) : (Byte.to_N b < 256)%num.
Proof. have := Byte.to_N_bounded b; lia. Qed.

Lemma to_N_byte_of x : Byte.to_N (byte_of x) = (x mod 256)%num.
Proof.
rewrite /byte_of; have H : (x mod 256 < 256)%num by apply: N.mod_lt.
case E: (Byte.of_N _) => [b|]; first by exact: Byte.to_of_N E.
by move/Byte.of_N_None_iff: E; lia.
Qed.

Lemma byte_of_to_N b : byte_of (Byte.to_N b) = b.
Proof. by rewrite /byte_of N.mod_small ?Byte.of_to_N //; apply: to_N_lt. Qed.

Lemma to_N_inj : injective Byte.to_N.
Proof. by move=> a b E; rewrite -(byte_of_to_N a) E byte_of_to_N. Qed.

Lemma size_be_bytes n v : size (be_bytes n v) = n.
Proof. by elim: n => [|n IH] //=; rewrite IH. Qed.

Lemma pow256S n : (256 ^ N.of_nat n.+1 = 256 * 256 ^ N.of_nat n)%num.
Proof. by rewrite Nat2N.inj_succ N.pow_succ_r'. Qed.

Lemma be_val_acc s acc :
  foldl (fun acc b => acc * 256 + Byte.to_N b)%num acc s =
  (acc * 256 ^ N.of_nat (size s) + be_val s)%num.
Proof.
elim: s acc => [|b s IH] acc; first by rewrite /be_val /= N.mul_1_r N.add_0_r.
rewrite [size _]/= pow256S /be_val.
rewrite -[foldl _ acc _]/(foldl (fun acc b => acc * 256 + Byte.to_N b)%num (acc * 256 + Byte.to_N b)%num s).
rewrite -[foldl _ 0%num _]/(foldl (fun acc b => acc * 256 + Byte.to_N b)%num (Byte.to_N b)%num s).
rewrite !IH; lia.
Qed.

Lemma be_val_cons b s : be_val (b :: s) = (Byte.to_N b * 256 ^ N.of_nat (size s) + be_val s)%num.
Proof. by rewrite -be_val_acc. Qed.

Lemma be_val_cat s t : be_val (s ++ t) = (be_val s * 256 ^ N.of_nat (size t) + be_val t)%num.
Proof. by rewrite {1}/be_val foldl_cat be_val_acc. Qed.

Lemma pow256_gt0 n : (0 < 256 ^ N.of_nat n)%num.
Proof. by apply/N.neq_0_lt_0; apply: N.pow_nonzero. Qed.

Lemma be_val_lt s : (be_val s < 256 ^ N.of_nat (size s))%num.
Proof.
elim: s => [|b s IH] //; rewrite be_val_cons [size _]/= pow256S.
have := to_N_lt b; move: (256 ^ _)%num (be_val s) (Byte.to_N b) IH => P v t; nia.
Qed.

Lemma be_val_bytes n v : be_val (be_bytes n v) = (v mod 256 ^ N.of_nat n)%num.
Proof.
elim: n => [|n IH]; first by rewrite N.mod_1_r.
rewrite pow256S [be_bytes _ _]/= be_val_cons IH size_be_bytes to_N_byte_of.
have P0 := pow256_gt0 n.
rewrite (N.mul_comm 256) N.mod_mul_r; lia.
Qed.

Lemma be_val_inj s t : size s = size t -> be_val s = be_val t -> s = t.
Proof.
elim: s t => [|a s IH] [|b t] //= [Hs]; rewrite !be_val_cons Hs => E.
have H1 := be_val_lt s; have H2 := be_val_lt t; rewrite Hs in H1.
have P0 := pow256_gt0 (size t).
have [E1 E2] : Byte.to_N a = Byte.to_N b /\ be_val s = be_val t.
  by apply: (N.div_mod_unique (256 ^ N.of_nat (size t))); lia.
by rewrite (to_N_inj E1) (IH t).
Qed.

Lemma be_bytes_val n s : size s = n -> be_bytes n (be_val s) = s.
Proof.
move=> Hs; apply: be_val_inj; first by rewrite size_be_bytes.
by rewrite be_val_bytes N.mod_small // -Hs; apply: be_val_lt.
Qed.

Lemma be_bytes_inj n v w : (v < 256 ^ N.of_nat n)%num -> (w < 256 ^ N.of_nat n)%num ->
  be_bytes n v = be_bytes n w -> v = w.
Proof.
by move=> Hv Hw E; have := be_val_bytes n v; rewrite E be_val_bytes !N.mod_small.
Qed.
