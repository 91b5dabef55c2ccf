(** Lemmas about the conversions of Managed.v. *)

From Coq Require Import ZArith NArith Init.Byte Strings.Byte.
From mathcomp Require Import ssreflect ssrfun ssrbool eqtype ssrnat seq.
From Verif Require Import Base Bytes Eip7594 CApi Managed.

Set Implicit Arguments.
Unset Strict Implicit.
Unset Printing Implicit Defensive.

Section Lengths.
Variable (err : Type).

Lemma rbind_Ok (A B E : Type) (a : A) (k : A -> outcome (result B E)) : rbind (Ret (Ok a)) k = k a.
Proof. by []. Qed.
Lemma rbind_Err (A B E : Type) (e : E) (k : A -> outcome (result B E)) : rbind (Ret (Err e)) k = Ret (Err e).
Proof. by []. Qed.

Lemma array_bad n nm (s : seq byte) : size s <> n ->
  slice_to_array_ref err n nm s = Err (IncorrectSize n (size s) nm).
Proof. by rewrite /slice_to_array_ref; case: eqP. Qed.
Lemma array_ok n nm (s : seq byte) : size s = n -> slice_to_array_ref err n nm s = Ok s.
Proof. by rewrite /slice_to_array_ref => ->; rewrite eqxx. Qed.

Lemma arrays_ok n nm (l : seq (seq byte)) : all (fun x => size x == n) l -> arrays err n nm l = Ret (Ok l).
Proof.
rewrite /arrays => H; congr (Ret _); elim: l H => [|x l IH] //= /andP[/eqP Hx /IH ->].
by rewrite (array_ok _ Hx).
Qed.
Lemma arrays_bad n nm (l : seq (seq byte)) : ~~ all (fun x => size x == n) l ->
  exists2 got, got <> n & arrays err n nm l = Ret (Err (IncorrectSize n got nm)).
Proof.
rewrite /arrays; elim: l => [|x l IH] //=; case: (eqVneq (size x) n) => [Hx /IH[got Hg [E]]|Hx _].
  by exists got => //; rewrite (array_ok _ Hx) E.
by exists (size x); [exact/eqP|rewrite array_bad //; exact/eqP].
Qed.

Lemma mod128_64 z : ((z mod 2 ^ 128) mod 2 ^ 64 = z mod 2 ^ 64)%Z.
Proof.
have -> : (2 ^ 128 = 2 ^ 64 * 2 ^ 64)%Z by [].
by rewrite Z.rem_mul_r // Z.mul_comm Z_mod_plus_full Z.mod_mod.
Qed.
Lemma bigint_ok z : (0 <= z)%Z -> bigint_to_u64 z = Ret (Z.to_N (z mod 2 ^ 64)).
Proof.
move=> Hz; rewrite /bigint_to_u64 /as_u64; have -> : (z <? 0)%Z = false by apply/Z.ltb_ge.
by rewrite mod128_64 Z.abs_eq.
Qed.

Lemma bigints_ok (l : seq Z) : all (fun z => (0 <=? z)%Z) l ->
  omapM bigint_to_u64 l = Ret [seq Z.to_N (z mod 2 ^ 64) | z <- l].
Proof.
elim: l => [|z l IH] //= /andP[/Z.leb_le Hz /IH ->] /=.
by rewrite bigint_ok.
Qed.
Lemma bigints_bad (l : seq Z) : ~~ all (fun z => (0 <=? z)%Z) l -> omapM bigint_to_u64 l = Panic.
Proof.
elim: l => [|z l IH] //=; case: Z.leb_spec => Hz /=.
  move=> /IH ->; rewrite /bigint_to_u64; by case: (z <? 0)%Z.
by move=> _; rewrite /bigint_to_u64; have -> : (z <? 0)%Z = true by apply/Z.ltb_lt.
Qed.

End Lengths.
