(** The hashed transcript determines the statement that is verified. *)

From Coq Require Import NArith Init.Byte Strings.Byte.
From mathcomp Require Import ssreflect ssrfun ssrbool eqtype ssrnat seq div prime fintype bigop.
From mathcomp Require Import ssralg poly zify_ssreflect.
From Verif Require Import Base Bytes Spec SpecKZG SpecDAS FK20Verifier FK20VerifierProofs.

Set Implicit Arguments.
Unset Strict Implicit.
Unset Printing Implicit Defensive.

Import GRing.Theory.

Section Seqs.
Variables (T : eqType) (A : Type).

Lemma cat_inj (s1 s2 t1 t2 : seq T) : size s1 = size s2 -> s1 ++ t1 = s2 ++ t2 -> s1 = s2 /\ t1 = t2.
Proof. by move=> S /eqP; rewrite eqseq_cat // => /andP[/eqP-> /eqP->]. Qed.

Lemma flatten_const_inj (f : A -> seq T) c (s t : seq A) : injective f ->
  (forall x, size (f x) = c) -> size s = size t ->
  flatten [seq f x | x <- s] = flatten [seq f x | x <- t] -> s = t.
Proof.
move=> If Sf; elim: s t => [|x s IH] [|y t] //= [St] /cat_inj[]; first by rewrite !Sf.
by move=> /If-> /(IH _ St)->.
Qed.

(** Blocks of one common length. *)
Lemma flatten_mkseq_inj (f g : nat -> seq T) c b :
  (forall t, t < b -> size (f t) = c) -> (forall t, t < b -> size (g t) = c) ->
  flatten (mkseq f b) = flatten (mkseq g b) -> forall t, t < b -> f t = g t.
Proof.
elim: b => [//|b IH] Hf Hg; rewrite !mkseqS !flatten_rcons.
have S h : (forall t, t < b.+1 -> size (h t) = c) -> size (flatten (mkseq h b)) = b * c.
  move=> Hh; rewrite size_flatten /shape -map_comp.
  rewrite (@eq_in_map _ _ _ (fun=> c) (iota 0 b)).1; last first.
    by move=> t; rewrite mem_iota => /andP[_ Ht] /=; apply: Hh; exact: ltnW.
  by rewrite -{2}(size_iota 0 b); elim: iota => [|t s IHs] //=; rewrite IHs mulSn.
case/cat_inj; first by rewrite !S.
move=> E Eb t; rewrite ltnS leq_eqVlt => /orP[/eqP->//|Ht].
by apply: IH => // s Hs; [apply: Hf | apply: Hg]; exact: ltnW.
Qed.
End Seqs.

Section Transcript.
Variables (F : fieldType) (G1 : lmodType F) (te : transcript_env G1) (l num_coeff : nat).
Hypothesis Hscal : forall x, size (te_scalar_to_bytes_be te x) = 32.
Hypothesis Hcomp : forall P, size (te_g1_to_compressed te P) = 48.
Hypothesis Iscal : injective (te_scalar_to_bytes_be te).
Hypothesis Icomp : injective (te_g1_to_compressed te).

Definition is_u64 (x : N) : bool := (x <? 2 ^ 64)%num.

Lemma u64_inj x y : is_u64 x -> is_u64 y -> u64_be x = u64_be y -> x = y.
Proof. by move=> /N.ltb_spec0 Hx /N.ltb_spec0 Hy; apply: be_bytes_inj. Qed.

Record batch_ok (commitments : seq G1) (cidx kidx : seq N) (cells : seq (seq F)) (proofs : seq G1)
  : Prop := BatchOk {
  bo_ci : size cidx = size proofs;
  bo_ki : size kidx = size proofs;
  bo_ce : size cells = size proofs;
  bo_cells : all (fun c => size c == 2 ^ l) cells;
  bo_u : is_u64 (N.of_nat (size commitments));
  bo_b : is_u64 (N.of_nat (size proofs));
  bo_ciu : all is_u64 cidx;
  bo_kiu : all is_u64 kidx
}.

Lemma transcript_bytes_inj cs ci ki ce ps cs' ci' ki' ce' ps' :
  batch_ok cs ci ki ce ps -> batch_ok cs' ci' ki' ce' ps' ->
  transcript_bytes te l num_coeff cs ci ki ce ps =
  transcript_bytes te l num_coeff cs' ci' ki' ce' ps' ->
  [/\ cs = cs', ci = ci', ki = ki', ce = ce' & ps = ps'].
Proof.
case=> S1 S2 S3 Hc Hu Hb Hci Hki [S1' S2' S3' Hc' Hu' Hb' Hci' Hki'].
rewrite /transcript_bytes /header_bytes -!catA.
case/cat_inj=> // _; case/cat_inj=> // _; case/cat_inj=> // _.
case/cat_inj; first by rewrite !size_u64.
move/u64_inj => /(_ Hu Hu')/Nat2N.inj Ecs.
case/cat_inj; first by rewrite !size_u64.
move/u64_inj => /(_ Hb Hb')/Nat2N.inj Eps.
case/cat_inj; first by rewrite !(size_flatten_const _ Hcomp) Ecs.
move/(flatten_const_inj Icomp Hcomp Ecs) => {Ecs}<- E.
rewrite -Eps in S1' S2' S3' E.
have key t : t < size ps -> [/\ nth 0%num ci t = nth 0%num ci' t, nth 0%num ki t = nth 0%num ki' t,
    nth [::] ce t = nth [::] ce' t & nth 0%R ps t = nth 0%R ps' t].
  move=> Ht.
  have So : forall t, t < size ps -> size (opening_bytes te ci ki ce ps t) = 8 + 8 + 2 ^ l * 32 + 48.
    by move=> u Hu1; apply: size_opening_bytes.
  have So' : forall t, t < size ps -> size (opening_bytes te ci' ki' ce' ps' t) = 8 + 8 + 2 ^ l * 32 + 48.
    by rewrite Eps => u Hu1; apply: size_opening_bytes; rewrite // S3' Eps.
  have := flatten_mkseq_inj So So' E Ht.
  rewrite /opening_bytes.
  case/cat_inj; first by rewrite !size_u64.
  move/u64_inj => H1; rewrite H1; try by apply: (all_nthP 0%num) => //; rewrite ?S1 ?S1'.
  case/cat_inj; first by rewrite !size_u64.
  move/u64_inj => H2; rewrite H2; try by apply: (all_nthP 0%num) => //; rewrite ?S2 ?S2'.
  have C1 : size (nth [::] ce t) = 2 ^ l by apply/eqP; apply: (all_nthP [::] Hc); rewrite S3.
  have C2 : size (nth [::] ce' t) = 2 ^ l by apply/eqP; apply: (all_nthP [::] Hc'); rewrite S3'.
  case/cat_inj; first by rewrite !(size_flatten_const _ Hscal) C1 C2.
  by move/(flatten_const_inj Iscal Hscal (etrans C1 (esym C2)))-> => /Icomp->.
split=> //.
- by apply: (@eq_from_nth _ 0%num); rewrite ?S1 ?S1' // => t /key[].
- by apply: (@eq_from_nth _ 0%num); rewrite ?S2 ?S2' // => t /key[].
- by apply: (@eq_from_nth _ [::]); rewrite ?S3 ?S3' // => t /key[].
by apply: (@eq_from_nth _ 0%R); rewrite // => t /key[].
Qed.

End Transcript.
