From mathcomp Require Import ssreflect ssrfun ssrbool eqtype ssrnat seq div prime.
From mathcomp Require Import fintype bigop ssralg zify_ssreflect.
From Verif Require Import Base Spec BitRev BitRevProofs FFT.

Set Implicit Arguments.
Unset Strict Implicit.
Unset Printing Implicit Defensive.

Import GRing.Theory.
Local Open Scope ring_scope.

Arguments bitrev : simpl never.

Section Proofs.
Variables (F : fieldType) (V : lmodType F).
Implicit Types (a : seq V) (w omega : F).

Lemma twiddle_mulE w (x : V) : twiddle_mul w x = w *: x.
Proof.
rewrite /twiddle_mul.
case: eqP => [->|_]; first by rewrite scale1r.
case: eqP => [->|_]; first by rewrite scaleN1r.
by case: eqP => [->|_]; first by rewrite scaler0.
Qed.

(** The discrete Fourier transform of the array [a] of size n. *)
Definition dft omega (n : nat) a : seq V :=
  mkseq (fun i => \sum_(j < n) omega ^+ (i * j) *: a`_j) n.

(** Position i has been processed when blocks before k and the first j pairs at k are done. *)
Definition processed (k m j i : nat) : bool :=
  ((i < k) || (k <= i < k + j) || (k + m <= i < k + m + j))%N.

(** What the stage with half-size m writes at position i. *)
Definition stage_val (w_m : F) (m : nat) a (i : nat) : V :=
  let c := (i %/ (2 * m) * (2 * m))%N in
  let j := (i %% (2 * m))%N in
  if (j < m)%N then a`_(c + j) + w_m ^+ j *: a`_(c + j + m)
  else a`_(c + (j - m)) - w_m ^+ (j - m) *: a`_(c + (j - m) + m).

Lemma stage_val_lo w_m m a c j : (j < m)%N ->
  stage_val w_m m a (c * (2 * m) + j) = a`_(c * (2 * m) + j) + w_m ^+ j *: a`_(c * (2 * m) + j + m).
Proof.
move=> Hj; rewrite /stage_val divnMDl; last lia.
rewrite modnMDl modn_small; last lia.
by rewrite divn_small ?addn0 ?Hj //; lia.
Qed.

Lemma stage_val_hi w_m m a c j : (j < m)%N ->
  stage_val w_m m a (c * (2 * m) + j + m) = a`_(c * (2 * m) + j) - w_m ^+ j *: a`_(c * (2 * m) + j + m).
Proof.
move=> Hj; rewrite /stage_val -addnA divnMDl; last lia.
rewrite modnMDl modn_small; last lia.
rewrite divn_small ?addn0; last lia.
by rewrite ltnNge leq_addl /= addnK addnA.
Qed.

Lemma fft_block_spec w_m m c n a (b : seq V) :
  size a = n -> size b = n -> (c * (2 * m) + 2 * m <= n)%N ->
  (forall i, (i < n)%N -> b`_i = if (i < c * (2 * m))%N then stage_val w_m m a i else a`_i) ->
  exists2 b', fft_block w_m m (c * (2 * m)) b = Ret b' &
    size b' = n /\
    forall i, (i < n)%N -> b'`_i = if (i < c.+1 * (2 * m))%N then stage_val w_m m a i else a`_i.
Proof.
move=> Sa Sb Hc Hb; rewrite /fft_block.
set k := (c * (2 * m))%N in Hc Hb *.
pose P j (st : F * seq V) := st.1 = w_m ^+ j /\ size st.2 = n /\
  forall i, (i < n)%N -> st.2`_i = if processed k m j i then stage_val w_m m a i else a`_i.
have [||[w b'] -> [/= Ew [Sb' Hb']]] := @ofor_iota_inv _ m (fft_inner w_m k m) (1, b) P.
- split=> //; split=> // i Hi /=; rewrite Hb // /processed.
  by rewrite !addn0; congr (if _ then _ else _); lia.
- move=> j [w d] Hj [/= Ew [Sd Hd]].
  have H1 : (k + j + m < n)%N by lia.
  have H2 : (k + j < n)%N by lia.
  rewrite (aget_nth 0) ?Sd //= (aget_nth 0) ?Sd //= (aset_set_nth 0) ?Sd //=.
  rewrite (aset_set_nth 0); last by rewrite size_set_nth_in Sd.
  eexists; first by [].
  rewrite /P /= exprSr Ew; split=> //.
  split; first by rewrite !size_set_nth_in ?Sd // size_set_nth_in Sd.
  move=> i Hi; rewrite nth_set_nth /=.
  have E1 : d`_(k + j) = a`_(k + j).
    by rewrite Hd // /processed; case: ifP => //; lia.
  have E2 : d`_(k + j + m) = a`_(k + j + m).
    by rewrite Hd // /processed; case: ifP => //; lia.
  case: eqP => [->|N1].
    have -> : processed k m j.+1 (k + j + m) = true by rewrite /processed; lia.
    by rewrite E1 E2 twiddle_mulE stage_val_hi.
  rewrite nth_set_nth /=; case: eqP => [->|N2].
    have -> : processed k m j.+1 (k + j) = true by rewrite /processed; lia.
    by rewrite E1 E2 twiddle_mulE stage_val_lo.
  rewrite Hd //; congr (if _ then _ else _); rewrite /processed; lia.
exists b' => //; split=> // i Hi; rewrite Hb' // /processed.
congr (if _ then _ else _); rewrite mulSn -/k; lia.
Qed.

Lemma fft_stage_spec tw s m q a : (0 < m)%N -> (s < size tw)%N -> size a = (q * (2 * m))%N ->
  fft_stage tw (q * (2 * m)) s (m, a) =
  Ret ((m * 2)%N, mkseq (stage_val tw`_s m a) (q * (2 * m))).
Proof.
move=> Hm Hs Sa; rewrite /fft_stage (aget_nth 0) //= step_by_mul; last lia.
set n := (q * (2 * m))%N in Sa *.
pose P c (b : seq V) := size b = n /\ forall i, (i < n)%N ->
   b`_i = if (i < c * (2 * m))%N then stage_val tw`_s m a i else a`_i.
have H0 : P 0%N a by split.
have Hstep c (b : seq V) : (c < size [seq (i * (2 * m))%N | i <- iota 0 q])%N -> P c b ->
   exists2 b', fft_block tw`_s m (nth 0%N [seq (i * (2 * m))%N | i <- iota 0 q] c) b = Ret b' & P c.+1 b'.
  rewrite size_map size_iota => Hc [Sb Hb].
  rewrite (nth_map 0%N) ?size_iota // nth_iota // add0n.
  apply: (fft_block_spec Sa) => //; rewrite /n.
  by rewrite -mulSnr leq_mul2r Hc orbT.
have [b -> [Sb Hb]] := ofor_inv H0 Hstep.
rewrite /=; congr (Ret (_, _)); apply: (@eq_from_nth _ 0); rewrite ?size_mkseq // => i Hi.
rewrite Sb in Hi; rewrite nth_mkseq // Hb // size_map size_iota -/n Hi //.
Qed.

(** State of the array after stage s of L. *)
Definition stage_inv omega L (a0 : seq V) s a : Prop :=
  size a = (2 ^ L)%N /\ forall b j : nat, (b < 2 ^ (L - s))%N -> (j < 2 ^ s)%N ->
    a`_(b * 2 ^ s + j) =
    \sum_(i < 2 ^ s) (omega ^+ (2 ^ (L - s))) ^+ (i * j) *:
        a0`_(i * 2 ^ (L - s) + bitrev (L - s) b).

Lemma sum_even_odd (m : nat) (f : nat -> V) :
  \sum_(i < 2 * m) f i = \sum_(i < m) f (i.*2) + \sum_(i < m) f (i.*2.+1).
Proof.
elim: m => [|m IH]; first by rewrite muln0 !big_ord0 addr0.
rewrite mulnS !big_ord_recr /= IH mul2n -!addrA; congr (_ + _).
by rewrite addrCA.
Qed.

Lemma stage_step omega L a0 s a :
  (s < L)%N -> omega ^+ (2 ^ L) = 1 -> omega ^+ (2 ^ L.-1) = -1 ->
  stage_inv omega L a0 s a ->
  stage_inv omega L a0 s.+1
    (mkseq (stage_val (omega ^+ (2 ^ (L - s.+1))) (2 ^ s) a) (2 ^ L)).
Proof.
move=> HsL Hn Hn2 [Sa Ha]; split; first by rewrite size_mkseq.
set d := (L - s.+1)%N; have Ed : (L - s)%N = d.+1 by rewrite /d; lia.
set w := omega ^+ (2 ^ d); set m := (2 ^ s)%N.
have Em : (2 ^ s.+1 = 2 * m)%N by rewrite expnS.
have m_gt0 : (0 < m)%N by rewrite expn_gt0.
have EL : (2 ^ L = 2 ^ d * (2 * m))%N.
  by rewrite -Em -expnD; congr expn; rewrite /d; lia.
have wm : w ^+ m = -1.
  rewrite -Hn2 -exprM /m -expnD; congr (_ ^+ (2 ^ _)); rewrite /d; lia.
have w2m : w ^+ (2 * m) = 1 by rewrite mulnC exprM wm expr2 mulrNN mulr1.
have w2 : omega ^+ (2 ^ d.+1) = w ^+ 2 by rewrite /w -exprM; congr (_ ^+ _); rewrite expnSr.
rewrite Ed w2 in Ha; rewrite Em.
move=> c j Hc Hj.
have Hi : (c * (2 * m) + j < 2 ^ L)%N.
  rewrite EL; apply: (@leq_trans (c.+1 * (2 * m))); first by rewrite mulSn; lia.
  by rewrite leq_mul2r Hc orbT.
rewrite nth_mkseq // (sum_even_odd m (fun i => w ^+ (i * j) *: a0`_(i * 2 ^ d + bitrev d c))) /=.
have HX e j' : (e < 2)%N -> (j' < m)%N ->
   a`_((c.*2 + e) * m + j') = \sum_(i < m) w ^+ (i.*2 * j') *: a0`_((i.*2 + e) * 2 ^ d + bitrev d c).
  move=> He Hj'; rewrite Ha //; last first.
    by rewrite expnS; move: Hc; lia.
  apply: eq_bigr => -[i /= _] _; congr (_ *: _).
    by rewrite -exprM mulnA mul2n.
  congr (nth _ _ _).
  case: e He => [|[|e]] // _.
    by rewrite !addn0 bitrev_double expnS; lia.
  by rewrite !addn1 bitrev_double1 expnS; lia.
have E0 j' : (c * (2 * m) + j')%N = ((c.*2 + 0) * m + j')%N by lia.
have E1 j' : (c * (2 * m) + j' + m)%N = ((c.*2 + 1) * m + j')%N by lia.
case: (ltnP j m) => Hjm.
  rewrite stage_val_lo // E1 E0 !HX // scaler_sumr; congr (_ + _).
    by apply: eq_bigr => -[i /= _] _; rewrite addn0.
  apply: eq_bigr => -[i /= _] _; rewrite addn1 scalerA -exprD; congr (_ ^+ _ *: _); lia.
have -> : (c * (2 * m) + j)%N = (c * (2 * m) + (j - m) + m)%N by lia.
have Hj2 : (j - m < m)%N by lia.
rewrite stage_val_hi // E1 E0 !HX // -scaleNr scaler_sumr.
have W k : w ^+ (2 * m * k) = 1 by rewrite exprM w2m expr1n.
congr (_ + _).
  apply: eq_bigr => -[i /= _] _; rewrite addn0; congr (_ *: _).
  have -> : (i.*2 * j = i.*2 * (j - m) + 2 * m * i)%N by nia.
  by rewrite exprD W mulr1.
apply: eq_bigr => -[i /= _] _; rewrite addn1 scalerA; congr (_ *: _).
have -> : (i.*2.+1 * j = 2 * m * i + m + (j - m + i.*2 * (j - m)))%N by nia.
by rewrite exprD exprD W mul1r wm exprD mulN1r mulNr.
Qed.

Lemma swap_loop_u32 (T : Type) L (a : seq T) : (L <= 32)%N -> size a = (2 ^ L)%N ->
  ofor (iota 0 (2 ^ L)) (fun k => swap_step L (as_u32 k)) a = ofor (iota 0 (2 ^ L)) (swap_step L) a.
Proof.
move=> HL _.
have H (l : seq nat) (b : seq T) : {in l, forall k, k < 2 ^ L}%N ->
   ofor l (fun k => swap_step L (as_u32 k)) b = ofor l (swap_step L) b.
  elim: l b => [|k l IH] b Hl //=.
  rewrite as_u32_id; last by apply: (@lt_exp_u32' _ L) => //; apply: Hl; rewrite mem_head.
  case: (swap_step L k b) => //= b'; apply: IH => j Hj; apply: Hl.
  by rewrite inE Hj orbT.
by apply: H => k; rewrite mem_iota.
Qed.

Arguments fft_stage : simpl never.

Theorem fft_inplace_spec omega L a :
  (L <= 32)%N -> size a = (2 ^ L)%N ->
  omega ^+ (2 ^ L) = 1 -> ((0 < L)%N -> omega ^+ (2 ^ L.-1) = -1) ->
  fft_inplace (precompute_twiddle_factors omega (2 ^ L)) a = Ret (dft omega (2 ^ L) a).
Proof.
move=> HL Sa Hn Hn2.
set tw := precompute_twiddle_factors _ _.
have Stw : size tw = L by rewrite size_map size_iota trailing_zeros_exp.
have Etw s : (s < L)%N -> tw`_s = omega ^+ (2 ^ (L - s.+1)).
  move=> Hs; rewrite (nth_map 0%N) ?size_iota ?trailing_zeros_exp // nth_iota // add0n.
  by rewrite -expnB //; lia.
rewrite /fft_inplace Sa trailing_zeros_exp eqxx andbT.
have -> /= : (L < 64)%N by lia.
rewrite swap_loop_u32 //.
have [a1 -> [Sa1 Ha1]] := swap_loop Sa.
rewrite [obind _ _]/=.
pose P s (st : nat * seq V) := st.1 = (2 ^ s)%N /\ stage_inv omega L a s st.2.
have [||[m b] -> [/= Em [Sb Hb]]] :=
   @ofor_iota_inv _ L (fft_stage tw (2 ^ L)) (1%N, a1) P.
- split=> //; split=> // b j; rewrite subn0 expn0 muln1 ltnS leqn0 => Hb /eqP->.
  by rewrite big_ord_recl big_ord0 addr0 mul0n expr0 scale1r mul0n !add0n addn0 Ha1.
- move=> s [m b] Hs [/= -> Hinv].
  have EL : (2 ^ L = 2 ^ (L - s.+1) * (2 * 2 ^ s))%N.
    by rewrite -expnS -expnD; congr expn; lia.
  have [Sb _] := Hinv.
  have E := @fft_stage_spec tw s (2 ^ s) (2 ^ (L - s.+1)) b.
  rewrite -EL Stw in E; rewrite E ?expn_gt0 //.
  eexists; first by [].
  split; first by rewrite /= expnSr.
  rewrite Etw //; apply: stage_step => //; apply: Hn2; lia.
congr Ret; apply: (@eq_from_nth _ 0); rewrite ?size_mkseq // => i Hi.
rewrite Sb in Hi; rewrite nth_mkseq //.
have := Hb 0%N i; rewrite subnn expn0 mul0n add0n => -> //.
apply: eq_bigr => j _; rewrite expr1 muln1 addn0 mulnC //.
Qed.

End Proofs.
