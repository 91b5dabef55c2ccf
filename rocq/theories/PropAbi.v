(** What the callers in C# and Nim see of a result (C63). *)

From Coq Require Import NArith Init.Byte.
From mathcomp Require Import ssreflect ssrfun ssrbool eqtype ssrnat seq div.
From Verif Require Import Base Bytes Abi.
From mathcomp Require Import zify_ssreflect.

Set Implicit Arguments.
Unset Strict Implicit.
Unset Printing Implicit Defensive.

Lemma round_up_first n a : 0 < n <= a -> round_up n a = a.
Proof.
move=> /andP[H0 H1]; have Ha : 0 < a by lia.
by rewrite /round_up (_ : (n + a).-1 = n.-1 + 1 * a) ?divnMDl; last lia; rewrite ?divnDMl // divn_small ?mul1n //; lia.
Qed.
Lemma round_up0 a : round_up 0 a = 0.
Proof. by rewrite /round_up add0n; case: a => // a; rewrite divn_small. Qed.
Lemma size_num M n v : size (num_bytes M n v) = n.
Proof. by rewrite /num_bytes; case: ifP; rewrite ?size_rev size_be_bytes. Qed.
Lemma num_valK M n v : (v < 256 ^ N.of_nat n)%num -> num_val M (num_bytes M n v) = v.
Proof.
by move=> H; rewrite /num_val /num_bytes; case: (big_endian M); rewrite ?revK be_val_bytes N.mod_small.
Qed.

(** The status, whatever was between, the pointer *)
Lemma imageE M junk refused msg : 4 <= ptr_bytes M -> size junk = ptr_bytes M + ptr_bytes M ->
  rust_returns M junk refused msg =
  num_bytes M 4 (status_number refused) ++ drop 4 (take (ptr_bytes M) junk) ++ num_bytes M (ptr_bytes M) msg.
Proof.
move=> Hp Sj; rewrite /rust_returns /write_struct /= round_up0 add0n round_up_first; last by lia.
set s := num_bytes M 4 _; set q := num_bytes M _ msg.
have Ss : size s = 4 by apply: size_num.
have Sq : size q = ptr_bytes M by apply: size_num.
rewrite /put_at take0 /= add0n Ss Sq (@take_cat _ _ s) Ss ltnNge Hp /=.
rewrite (drop_oversize (n := ptr_bytes M + _)) ?cats0; last by rewrite size_cat Ss size_drop; lia.
by rewrite take_drop subnK // catA.
Qed.
Lemma image_ptr M s p q : 4 <= ptr_bytes M -> size s = 4 -> size p = ptr_bytes M - 4 -> size q = ptr_bytes M ->
  take (ptr_bytes M) (drop (ptr_bytes M) (s ++ p ++ q)) = q :> seq byte.
Proof.
move=> Hp Ss Sp Sq; rewrite catA drop_size_cat; last by rewrite size_cat Ss Sp; lia.
by rewrite -Sq take_size.
Qed.

Section Results.
Variables (M : machine) (junk : seq byte) (refused : bool) (msg : N).
Hypothesis ptr_size : 4 <= ptr_bytes M.
(** The place of the result has room for it, with any contents. *)
Hypothesis room : size junk = ptr_bytes M + ptr_bytes M.
Hypothesis address : (msg < 256 ^ N.of_nat (ptr_bytes M))%num.

Lemma middle : size (drop 4 (take (ptr_bytes M) junk)) = ptr_bytes M - 4.
Proof. by rewrite size_drop size_takel //; lia. Qed.

(** C# sees what Rust returned, on machines of either kind. *)
Theorem C63_cs : cs_sees M (rust_returns M junk refused msg) = (refused, msg).
Proof.
rewrite /cs_sees imageE // /read_struct /= round_up0 add0n round_up_first; last by lia.
rewrite drop0 image_ptr ?size_num ?middle // take_size_cat ?size_num // !num_valK //.
  by case: refused.
by case: refused.
Qed.

(** So does Nim, on machines with the least significant byte first. *)
Theorem C63_nim_little : big_endian M = false -> nim_sees M (rust_returns M junk refused msg) = (refused, msg).
Proof.
move=> E; rewrite /nim_sees imageE // /read_struct /= round_up0 add0n round_up_first; last by lia.
rewrite drop0 image_ptr ?size_num ?middle // num_valK // take_cat size_num /=.
by rewrite /num_val /num_bytes E; case: refused.
Qed.

(** On the others Nim takes every refusal for a success, and it does see the pointer to the message, which
    it then never frees. *)
Theorem C63_nim_big : big_endian M = true -> nim_sees M (rust_returns M junk refused msg) = (false, msg).
Proof.
move=> E; rewrite /nim_sees imageE // /read_struct /= round_up0 add0n round_up_first; last by lia.
rewrite drop0 image_ptr ?size_num ?middle // num_valK // take_cat size_num /=.
by rewrite /num_val /num_bytes E; case: refused.
Qed.
End Results.

(** That Nim sees what Rust returned on every machine is not so. *)
Theorem C63_nim_refuted : exists M junk msg, [/\ ptr_bytes M = 8, size junk = 16, (msg < 256 ^ 8)%num &
  nim_sees M (rust_returns M junk true msg) <> (true, msg)].
Proof.
by exists (MkMachine 8 true), (nseq 16 "255"%byte), 4096%num; split=> //.
Qed.
