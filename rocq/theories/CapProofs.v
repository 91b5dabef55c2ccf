(** Lemmas about the methods of CellsAndProofs in Jni.v. *)

From Coq Require Import ZArith NArith Init.Byte Strings.Byte.
From mathcomp Require Import ssreflect ssrfun ssrbool eqtype ssrnat seq.
From Verif Require Import Base Bytes Jni SpecJni JniProofs.
From mathcomp Require Import zify_ssreflect.

Set Implicit Arguments.
Unset Strict Implicit.
Unset Printing Implicit Defensive.

Local Arguments value_bytes : simpl never.

Section Values.
Variable h : seq jobj.

Lemma bytes_atE r v : value_bytes h r v -> bytes_at h r = v.
Proof. by case: v => [b [a -> /= ->]|/= ->]. Qed.
Lemma arrays_atE r v : value_arrays h r v ->
  if v is Some l then exists2 refs, arrays_at h r = Some refs & values_bytes h refs l else arrays_at h r = None.
Proof. by case: v => [l [a [refs [-> /= -> H]]]|/= ->] //; exists refs. Qed.

(** *** equals *)
Lemma value_bytes_eq r r' v v' : value_bytes h r v -> value_bytes h r' v' ->
  equal_elements h r r' = (v == v').
Proof.
move=> H H'; rewrite /equal_elements (bytes_atE H) (bytes_atE H').
case: eqP => [E|ne] /=.
  by move: (bytes_atE H) (bytes_atE H'); rewrite E => -> ->; rewrite eqxx.
case: v v' H H' => [b|] [b'|] //= E E'.
by case: ne; rewrite E E'.
Qed.
Lemma values_bytes_eq refs refs' vs vs' : values_bytes h refs vs -> values_bytes h refs' vs' ->
  (size refs == size refs') && all (fun p => equal_elements h p.1 p.2) (zip refs refs') = (vs == vs').
Proof.
elim: refs refs' vs vs' => [|r refs IH] [|r' refs'] [|v vs] [|v' vs'] //=.
move=> [H1 H2] [H1' H2']; rewrite (value_bytes_eq H1 H1') andbCA eqSS (IH _ _ _ H2 H2').
by rewrite eqseq_cons.
Qed.
Lemma value_arrays_eq r r' v v' : value_arrays h r v -> value_arrays h r' v' ->
  deep_equals h r r' = (v == v').
Proof.
move=> H H'; rewrite /deep_equals; have A := arrays_atE H; have A' := arrays_atE H'.
case: eqP => [E|ne] /=.
  symmetry; apply/eqP; move: A A'; rewrite E; case: v {H} => [l|]; case: v' {H'} => [l'|] //.
  - move=> [refs E1 V1] [refs' E2 V2]; move: E2; rewrite E1 => -[E2]; rewrite -E2 in V2.
    have R : all (fun p => equal_elements h p.1 p.2) (zip refs refs).
      by elim: refs {E1 E2 V1 V2} => [|x refs IH] //=; rewrite IH /equal_elements eqxx.
    by have := values_bytes_eq V1 V2; rewrite eqxx R /= => /esym/eqP ->.
  - by move=> [refs -> _].
  by move=> -> [refs].
case: v v' H H' A A' => [l|] [l'|] //=.
- by move=> _ _ [refs -> V] [refs' -> V']; exact: values_bytes_eq.
- by move=> _ _ [refs -> V] ->.
- by move=> _ _ ->.
by move=> E E'; case: ne; rewrite E E'.
Qed.
End Values.

(** *** hashCode *)
Lemma value_hash h h' r r' v : value_bytes h r v -> value_bytes h' r' v -> hash_bytes h r = hash_bytes h' r'.
Proof. by move=> H H'; rewrite /hash_bytes (bytes_atE H) (bytes_atE H'). Qed.
Lemma value_deep_hash h h' r r' v : value_arrays h r v -> value_arrays h' r' v -> deep_hash h r = deep_hash h' r'.
Proof.
move=> /arrays_atE H /arrays_atE H'; rewrite /deep_hash; case: v H H' => [l|] => [|-> -> //].
move=> [refs -> V] [refs' -> V']; elim: refs refs' l 1%Z V V' => [|x refs IH] [|x' refs'] [|y l] acc //=.
by move=> [H1 H2] [H1' H2']; rewrite (value_hash H1 H1'); exact: IH H2 H2'.
Qed.
Lemma to_int_range z : (- 2 ^ 31 <= to_int z < 2 ^ 31)%Z.
Proof.
rewrite /to_int; have := Z.mod_pos_bound (z + 2 ^ 31) (2 ^ 32) erefl; lia.
Qed.
Lemma to_int_id z : (- 2 ^ 31 <= z < 2 ^ 31)%Z -> to_int z = z.
Proof. by move=> H; rewrite /to_int Z.mod_small; lia. Qed.
Lemma to_int_mod z : exists q, (to_int z = z + q * 2 ^ 32)%Z.
Proof.
rewrite /to_int; exists (- ((z + 2 ^ 31) / 2 ^ 32))%Z.
have := Z_div_mod_eq_full (z + 2 ^ 31) (2 ^ 32); lia.
Qed.
Lemma to_int_add a b : to_int (to_int a + b) = to_int (a + b).
Proof.
have [q E] := to_int_mod a; rewrite {1}E /to_int.
have -> : (a + q * 2 ^ 32 + b + 2 ^ 31 = a + b + 2 ^ 31 + q * 2 ^ 32)%Z by lia.
by rewrite Z_mod_plus_full.
Qed.
Lemma to_int_add' a b : to_int (a + to_int b) = to_int (a + b).
Proof. by rewrite Z.add_comm to_int_add Z.add_comm. Qed.

(** *** toBytes *)
Section ToBytes.
Variable h : seq jobj.
Local Notation total l := (Z.of_nat (size (flatten l))).

Lemma sum_lengthsE refs l acc : values_bytes h refs (map Some l) -> acc = to_int acc ->
  sum_lengths h acc refs = Ok (to_int (acc + total l)).
Proof.
elim: refs l acc => [|r refs IH] [|b l] acc //=; first by move=> _ Ha; rewrite Z.add_0_r -Ha.
case=> /bytes_atE -> V Ha; rewrite (IH l) //; last first.
  by rewrite [RHS]to_int_id //; exact: to_int_range.
by rewrite to_int_add size_cat Nat2Z.inj_add Z.add_assoc.
Qed.
Lemma sum_lengths_null refs vs acc : values_bytes h refs vs -> None \in vs ->
  sum_lengths h acc refs = Err NullPointerException.
Proof.
elim: refs vs acc => [|r refs IH] [|v vs] acc //= [/bytes_atE -> V].
by rewrite inE; case: v => [b|//]; rewrite /=; exact: IH.
Qed.
Lemma sum_lengths_cases refs vs acc : values_bytes h refs vs ->
  sum_lengths h acc refs = Err NullPointerException \/ exists z, sum_lengths h acc refs = Ok z.
Proof.
elim: refs vs acc => [|r refs IH] [|v vs] acc //=; first by right; exists acc.
by case=> /bytes_atE -> V; case: v => [b|]; [exact: IH V|left].
Qed.
Lemma put_all_fits cap buf refs l : values_bytes h refs (map Some l) ->
  (Z.of_nat (size buf) + total l <= cap)%Z -> put_all h cap buf refs = Ok (buf ++ flatten l).
Proof.
elim: refs l buf => [|r refs IH] [|b l] buf //=; first by rewrite cats0.
case=> /bytes_atE -> V; rewrite size_cat Nat2Z.inj_add => Hc.
case: Z.ltb_spec => H; first by lia.
rewrite (IH l) ?catA // size_cat Nat2Z.inj_add; lia.
Qed.
Lemma put_all_over cap buf refs l : values_bytes h refs (map Some l) -> (Z.of_nat (size buf) <= cap)%Z ->
  (cap < Z.of_nat (size buf) + total l)%Z -> put_all h cap buf refs = Err BufferOverflowException.
Proof.
elim: refs l buf => [|r refs IH] [|b l] buf //=; first by lia.
case=> /bytes_atE -> V H0; rewrite size_cat Nat2Z.inj_add => Hc.
case: Z.ltb_spec => H //.
rewrite (IH l) // size_cat Nat2Z.inj_add; lia.
Qed.
End ToBytes.
