From Coq Require Import NArith.
From mathcomp Require Import ssreflect ssrfun ssrbool eqtype ssrnat seq div prime ssralg poly.
From mathcomp Require Import zify_ssreflect.
From Verif Require Import Base Spec BitRev BitRevProofs Domain DomainProofs PolyCoeffProofs Cosets.

Set Implicit Arguments.
Unset Strict Implicit.
Unset Printing Implicit Defensive.

Import GRing.Theory.
Local Open Scope ring_scope.

Section Cosets.
Variables (F : fieldType) (fp : fparams F) (ok : fp_ok fp).

(** The last cell given for index k, or zeroes. *)
Definition cell_of L (l : seq (nat * seq F)) (k : nat) : seq F :=
  foldl (fun acc ie => if ie.1 == k then ie.2 else acc) (nseq L 0) l.

Lemma copy_intoE L q k (a evals : seq F) : (0 < L)%N -> size a = (q * L)%N -> size evals = L ->
  (k < q)%N -> exists2 a', copy_into a (k * L) evals L = Ret a' &
    size a' = (q * L)%N /\ forall k' j, (k' < q)%N -> (j < L)%N ->
      a'`_(k' * L + j) = if k == k' then evals`_j else a`_(k' * L + j).
Proof.
move=> L0 Sa Se Hk.
have Hb : (k * L + L <= q * L)%N by rewrite addnC -mulSn leq_mul2r Hk orbT.
rewrite /copy_into Sa Se eqxx Hb /=; eexists; first by [].
split; first by rewrite !size_cat size_take size_drop Sa Se; case: ltnP; lia.
move=> k' j Hk' Hj; rewrite nth_cat size_takel; last by rewrite Sa; lia.
case: (ltngtP k' k) => Hkk.
- have Hl : (k' * L + j < k * L)%N.
    have : (k'.+1 * L <= k * L)%N by rewrite leq_mul2r Hkk orbT.
    by rewrite mulSn; lia.
  by rewrite Hl nth_take // gtn_eqF.
- have Hl : (k * L + L <= k' * L)%N by rewrite addnC -mulSn leq_mul2r Hkk orbT.
  rewrite ifF; last by lia.
  rewrite nth_cat Se ifF; last by lia.
  rewrite nth_drop; congr nth; lia.
rewrite Hkk ltnNge leq_addr /=.
rewrite nth_cat Se ifT; last by lia.
congr nth; lia.
Qed.

Lemma copy_loop L q (l : seq (nat * seq F)) : (0 < L)%N ->
  all (fun ie => (ie.1 < q)%N && (size ie.2 == L)) l ->
  exists2 a, ofor l (fun ie elements => copy_into elements (ie.1 * L)%N ie.2 L) (nseq (q * L) 0) = Ret a &
    size a = (q * L)%N /\ forall k j, (k < q)%N -> (j < L)%N -> a`_(k * L + j) = (cell_of L l k)`_j.
Proof.
move=> L0 Hall.
pose body := fun (ie : nat * seq F) elements => copy_into elements (ie.1 * L)%N ie.2 L.
pose P i (a : seq F) := size a = (q * L)%N /\ forall k j, (k < q)%N -> (j < L)%N ->
   a`_(k * L + j) = (cell_of L (take i l) k)`_j.
have [||a E [Sa Ha]] := @ofor_inv _ _ (0%N, [::]) l body (nseq (q * L) 0) P.
- split; first by rewrite size_nseq.
  by move=> k j _ _; rewrite take0 /= !nth_nseq !if_same.
- move=> i a Hi [Sa Ha].
  have /andP[Hk /eqP Se] := all_nthP (0%N, [::]) Hall i Hi.
  have [a' E [Sa' Ha']] := copy_intoE L0 Sa Se Hk; exists a' => //.
  split=> // k j Hk' Hj.
  rewrite Ha' // (take_nth (0%N, [::])) // /cell_of foldl_rcons; case: eqP => // _.
  exact: Ha.
exists a => //; split=> // k j Hk Hj.
by rewrite Ha // take_size.
Qed.

Variables (d l : nat).
Hypothesis Hl : (l <= d)%N.
Hypothesis Hd : (d < 32)%N.
Local Notation q := (2 ^ (d - l))%N.
Local Notation L := (2 ^ l)%N.

Lemma log2_exp k : (k < 32)%N -> log2 (as_u32 (2 ^ k)) = Ret k.
Proof.
move=> Hk; rewrite as_u32_id; last by apply: (@lt_exp_u32 _ k).
by rewrite /log2 is_power_of_two_exp expn_gt0 /= trailing_zeros_exp.
Qed.

Theorem recover_evaluationsE (idx : seq nat) (evals : seq (seq F)) :
  (0 < size idx)%N -> size idx = size evals -> all (fun i => i < q)%N idx ->
  all (fun c => size c == L) evals ->
  exists2 e, recover_evaluations_in_domain_order (2 ^ d) idx evals =
             Ret (Some (map (bitrev (d - l)) idx, e)) &
    size e = (2 ^ d)%N /\ forall k j, (k < q)%N -> (j < L)%N ->
      e`_(bitrev d (k * L + j)) = (cell_of L (zip idx evals) k)`_j.
Proof.
move=> i0 Si Hi He.
have DE : (2 ^ d = q * L)%N by rewrite -expnD subnK.
have L0 : (0 < L)%N by rewrite expn_gt0.
have Hall : all (fun ie => (ie.1 < q)%N && (size ie.2 == L)) (zip idx evals).
  apply/(all_nthP (0%N, [::])) => i; rewrite size_zip -Si minnn => Hs.
  rewrite nth_zip //=; apply/andP; split; first exact: (all_nthP 0%N Hi).
  by apply: (all_nthP [::] He); rewrite -Si.
have [a Ea [Sa Ha]] := copy_loop L0 Hall.
have Hsz : size a = (2 ^ d)%N by rewrite Sa DE.
have := reverse_bit_order_mkseq 0 Hsz Hd.
move: Ea; rewrite -DE => Ea ER.
exists (mkseq (fun i => a`_(bitrev d i)) (2 ^ d)); last first.
  split; first by rewrite size_mkseq.
  move=> k j Hk Hj.
  have Hkj : (k * L + j < 2 ^ d)%N.
    rewrite DE; have : (k.+1 * L <= q * L)%N by rewrite leq_mul2r Hk orbT.
    by rewrite mulSn; lia.
  by rewrite nth_mkseq ?bitrev_lt // bitrev_inv // Ha.
rewrite /recover_evaluations_in_domain_order Si eqxx /oassert.
case: idx i0 Si Hi Hall Ea {Ha} => [|i idx] // _; case: evals He => [|ev evals] // He Si Hi _ Ea.
have Sev : size ev = L by case/andP: He => /eqP.
rewrite Sev He.
have -> : (L != 0)%N = true by rewrite -lt0n.
have Hq : (2 ^ d %/ L = q)%N by rewrite DE mulnK.
rewrite Hq Hi Ea obind_Ret ER obind_Ret log2_exp; last by lia.
rewrite obind_Ret; congr (Ret (Some (_, _))).
by apply: eq_map => x; rewrite reverse_bits_spec.
Qed.

(** The position of an element, modulo the number of cells, is the bit reversal of its cell. *)
Lemma bitrev_cell_pos k j : (j < L)%N -> bitrev d (k * L + j) = (bitrev l j * q + bitrev (d - l) k)%N.
Proof. by move=> Hj; rewrite -{1}(subnK Hl) bitrev_split. Qed.

Lemma cell_of_nth (idx : seq nat) (evals : seq (seq F)) t : size idx = size evals ->
  (t < size idx)%N -> nth 0%N idx t \notin drop t.+1 idx ->
  cell_of L (zip idx evals) (nth 0%N idx t) = nth [::] evals t.
Proof.
rewrite /cell_of; elim: idx evals (nseq L 0) t => [|i idx IH] [|ev evals] z t //= [Si] Ht.
case: t Ht => [|t] Ht /=; last by move=> H; apply: IH.
rewrite drop0 eqxx => {IH Ht} H.
elim: idx evals {z} ev Si H => [|i' idx IH] [|ev' evals] ev //= [Si].
rewrite inE negb_or => /andP[H1 H2]; rewrite eq_sym (negbTE H1); exact: IH.
Qed.

Lemma cell_of_notin (idx : seq nat) (evals : seq (seq F)) k : k \notin idx ->
  cell_of L (zip idx evals) k = nseq L 0.
Proof.
rewrite /cell_of; elim: idx evals => [|i idx IH] [|ev evals] //=.
by rewrite inE negb_or => /andP[H1 H2]; rewrite eq_sym (negbTE H1); exact: IH.
Qed.

(** When the answer is None. *)
Theorem recover_evaluations_none (D : nat) (idx : seq nat) (evals : seq (seq F)) :
  size idx = size evals -> all (fun c => 0 < size c)%N evals ->
  (size idx == 0)%N || ~~ all (fun c => size c == size (head [::] evals)) evals ||
     ~~ all (fun i => i < D %/ size (head [::] evals))%N idx ->
  recover_evaluations_in_domain_order D idx evals = Ret None.
Proof.
move=> Si H0 H; rewrite /recover_evaluations_in_domain_order Si eqxx /oassert.
case: idx Si H => [|i idx]; case: evals H0 => [|ev evals] //= /andP[H0 _] Si.
rewrite eqxx /=; case: (all _ evals) => //= H; rewrite -lt0n H0.
by rewrite H.
Qed.

End Cosets.

Section Gens.
Variables (F : fieldType) (fp : fparams F) (ok : fp_ok fp).

Theorem coset_gensE n m b : (n <= fp_adicity fp)%N -> (m < 32)%N ->
  coset_gens fp (2 ^ n) (2 ^ m) b =
    Ret (mkseq (fun k => omega fp n ^+ (if b then bitrev m k else k)) (2 ^ m)).
Proof.
move=> Hn Hm; rewrite /coset_gens (domain_new_exp ok Hn) obind_Ret.
rewrite (omapM_Ret (g := fun k => omega fp n ^+ (if b then bitrev m k else k))) // => k.
case: b; rewrite ?log2_exp // ?obind_Ret (pow_vartimeE fp) Nat2N.id ?reverse_bits_spec //.
Qed.
End Gens.
