From Coq Require Import NArith.
From mathcomp Require Import ssreflect ssrfun ssrbool eqtype ssrnat seq div prime.
From mathcomp Require Import zify_ssreflect.
From Verif Require Import Base Spec BitRev.

Set Implicit Arguments.
Unset Strict Implicit.
Unset Printing Implicit Defensive.

Lemma bitrev_lt k x : bitrev k x < 2 ^ k.
Proof.
elim: k x => [|k IH] x //=; have := IH x./2; rewrite expnS.
by case: (odd x) => /=; lia.
Qed.

Lemma bitrev0 k : bitrev k 0 = 0.
Proof. by elim: k => [|k IH] //=. Qed.

Lemma bitrev_double k x : bitrev k.+1 x.*2 = bitrev k x.
Proof. by rewrite /= odd_double doubleK. Qed.

Lemma bitrev_double1 k x : bitrev k.+1 x.*2.+1 = 2 ^ k + bitrev k x.
Proof. by rewrite /= odd_double /= mul1n uphalf_double. Qed.

(** Splitting the index: low b bits y, high a bits x. *)
Lemma bitrev_split a b x y : y < 2 ^ b ->
  bitrev (a + b) (x * 2 ^ b + y) = bitrev b y * 2 ^ a + bitrev a x.
Proof.
elim: b y => [|b IH] y.
  by rewrite expn0 ltnS leqn0 => /eqP->; rewrite !addn0 muln1.
rewrite addnS expnS => Hy.
have -> : x * (2 * 2 ^ b) + y = (x * 2 ^ b + y./2).*2 + odd y.
  by rewrite -{1}(odd_double_half y); lia.
have Hy2 : y./2 < 2 ^ b by rewrite -(odd_double_half y) in Hy; lia.
have -> : bitrev (a + b).+1 ((x * 2 ^ b + y./2).*2 + odd y) =
          odd y * 2 ^ (a + b) + bitrev (a + b) (x * 2 ^ b + y./2).
  case: (odd y); rewrite ?addn1 ?addn0; first by rewrite bitrev_double1 mul1n.
  by rewrite bitrev_double.
rewrite IH //= expnD; lia.
Qed.

Lemma bitrev_top y : y < 2 -> bitrev 1 y = y.
Proof. by case: y => [|[|y]]. Qed.

Lemma bitrev_inv k x : x < 2 ^ k -> bitrev k (bitrev k x) = x.
Proof.
elim: k x => [|k IH] x; first by rewrite expn0; case: x.
rewrite expnS => Hx.
have Hx2 : x./2 < 2 ^ k by rewrite -(odd_double_half x) in Hx; lia.
have -> : bitrev k.+1 x = odd x * 2 ^ k + bitrev k x./2 by [].
rewrite -add1n bitrev_split ?bitrev_lt // IH // expn1 bitrev_top; last by case: (odd x).
by rewrite -{3}(odd_double_half x); lia.
Qed.

Lemma bitrev_inj k x y : x < 2 ^ k -> y < 2 ^ k -> bitrev k x = bitrev k y -> x = y.
Proof. by move=> Hx Hy E; rewrite -(bitrev_inv Hx) E bitrev_inv. Qed.

Lemma reverse_bits_spec n bits : reverse_bits n bits = bitrev bits n.
Proof.
rewrite /reverse_bits.
suff H r m : foldl (fun (st : nat * nat) (_ : nat) => let: (n, r) := st in (n./2, r.*2 + odd n))
      (n, r) (iota m bits) = (iter bits half n, r * 2 ^ bits + bitrev bits n).
  by rewrite H mul0n.
elim: bits n r m => [|bits IH] n r m /=; first by rewrite expn0 muln1 addn0.
rewrite IH -iterSr /=; congr pair; rewrite expnS; lia.
Qed.

Section Swaps.
Variable T : Type.

(** The array after the swaps for all k < K. *)
Lemma swap_loop L (a : seq T) : size a = 2 ^ L ->
  exists2 a', ofor (iota 0 (2 ^ L)) (swap_step L) a = Ret a' &
    size a' = 2 ^ L /\ forall x0 i, i < 2 ^ L -> nth x0 a' i = nth x0 a (bitrev L i).
Proof.
move=> Hs.
have [x0] : inhabited T.
  by case: (a) Hs => [|x ?] //= E; have := expn_gt0 2 L; rewrite -E.
pose P K (b : seq T) := size b = 2 ^ L /\ forall i, i < 2 ^ L ->
  nth x0 b i = nth x0 a (if (i < K) || (bitrev L i < K) then bitrev L i else i).
have [||b Eb [Sb Hb]] := @ofor_iota_inv (seq T) (2 ^ L) (swap_step L) a P.
- by split=> // i Hi.
- move=> k b Hk [Sb Hb]; rewrite /swap_step reverse_bits_spec.
  have Hrk := bitrev_lt L k.
  case: ltnP => Hlt.
    rewrite /aswap (aget_nth x0) ?Sb //= (aget_nth x0) ?Sb //=.
    rewrite (aset_set_nth x0) ?Sb //= (aset_set_nth x0); last by rewrite size_set_nth_in Sb.
    eexists; first by [].
    split; first by rewrite !size_set_nth_in ?Sb // size_set_nth_in Sb.
    move=> i Hi; rewrite !nth_set_nth /=.
    have Hir : bitrev L (bitrev L i) = i by apply: bitrev_inv.
    case: eqP => [->|Hik].
      rewrite ltnSn orTb Hb // bitrev_inv //.
      by rewrite ltnNge (ltnW Hlt) ltnn.
    rewrite nth_set_nth /=.
    case: eqP => [->|Hirk].
      rewrite bitrev_inv // ltnSn orbT Hb //.
      by rewrite ltnn ltnNge (ltnW Hlt).
    rewrite Hb //; congr (nth _ _ (if _ then _ else _)).
    have Hirk2 : bitrev L i <> k by move=> E; apply: Hirk; rewrite -E bitrev_inv.
    lia.
  exists b => //; split=> // i Hi; rewrite Hb //.
  have Hir : bitrev L (bitrev L i) = i by apply: bitrev_inv.
  case: (i =P k) => [Eik|Hik].
    subst i; case: ifP => H1; case: ifP => H2 //; first lia.
    by have -> : bitrev L k = k by lia.
  case: (bitrev L i =P k) => [E|Hrik]; last by congr (nth _ _ (if _ then _ else _)); lia.
  move: Hlt; rewrite -E Hir => Hlt.
  case: ifP => H1; case: ifP => H2 //; first lia.
  by have -> : bitrev L i = i by lia.
exists b => //; split=> // y i Hi.
rewrite (set_nth_default x0) ?Sb // Hb // Hi orTb.
by apply: set_nth_default; rewrite Hs bitrev_lt.
Qed.

Theorem reverse_bit_order_ret L (a : seq T) : size a = 2 ^ L -> L < 32 ->
  exists2 a', reverse_bit_order a = Ret a' &
    size a' = 2 ^ L /\ forall x0 i, i < 2 ^ L -> nth x0 a' i = nth x0 a (bitrev L i).
Proof.
move=> Hs HL; rewrite /reverse_bit_order.
rewrite as_u32_id; last by apply: (@lt_exp_u32 _ L); rewrite ?Hs.
rewrite Hs /log2 is_power_of_two_exp expn_gt0 /= trailing_zeros_exp.
exact: swap_loop.
Qed.

Lemma reverse_bit_order_mkseq L (a : seq T) x0 : size a = 2 ^ L -> L < 32 ->
  reverse_bit_order a = Ret (mkseq (fun i => nth x0 a (bitrev L i)) (2 ^ L)).
Proof.
move=> Hs HL; have [a' -> [Sa Ha]] := reverse_bit_order_ret Hs HL.
congr Ret; apply: (@eq_from_nth _ x0); rewrite ?size_mkseq //.
by move=> i Hi; rewrite nth_mkseq -?Sa //; apply: Ha; rewrite -Sa.
Qed.

Theorem reverse_bit_order_panic (a : seq T) : (N.of_nat (size a) < 2 ^ 32)%num ->
  reverse_bit_order a = Panic <-> ~ exists k, size a = 2 ^ k.
Proof.
move=> Hs; rewrite /reverse_bit_order as_u32_id //; split.
  move=> H [k Hk].
  have [a' E _] := swap_loop Hk.
  by move: H; rewrite Hk is_power_of_two_exp /log2 is_power_of_two_exp expn_gt0 /= trailing_zeros_exp E.
move=> H; case: is_power_of_twoP => //.
Qed.

Theorem reverse_bit_order_involutive (a : seq T) L : size a = 2 ^ L -> L < 32 ->
  obind (reverse_bit_order a) (@reverse_bit_order T) = Ret a.
Proof.
move=> Hs HL.
have [x0] : inhabited T.
  by case: (a) Hs => [|x ?] //= E; have := expn_gt0 2 L; rewrite -E.
rewrite (reverse_bit_order_mkseq x0 Hs HL) /=.
rewrite (@reverse_bit_order_mkseq L _ x0) ?size_mkseq //.
congr Ret; apply: (@eq_from_nth _ x0); rewrite ?size_mkseq //.
move=> i Hi; rewrite nth_mkseq // nth_mkseq ?bitrev_lt // bitrev_inv //.
Qed.

End Swaps.
