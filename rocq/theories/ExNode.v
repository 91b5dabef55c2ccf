(** Concrete instances for PropNode.v. *)

From Coq Require Import ZArith NArith Init.Byte Strings.Byte Strings.String.
From mathcomp Require Import ssreflect ssrfun ssrbool eqtype ssrnat seq ssralg.
From Verif Require Import Base Bytes SpecFr FrEnv Fr FixedBaseMSM FK20Verifier Eip7594.
From Verif Require Import PropProver PropRecover PropVerify ExApi ExVerify CApi Managed Jni SpecJni JniProofs PropJni ExC ExJni.
From Verif Require Import Node SpecNode NodeProofs PropNode.

Set Implicit Arguments.
Unset Strict Implicit.
Unset Printing Implicit Defensive.

Local Opaque nseq.

(** One buffer of three bytes, and the array of the last two of them *)
Definition m0 : jsmem := [:: [:: "009"%byte; "007"%byte; "000"%byte]].
Definition two : view := MkView 0 1 2.
Lemma r_two : vread m0 two = Some [:: "007"%byte; "000"%byte]. Proof. by []. Qed.
Lemma h_two : holds m0 [:: two] [:: [:: "007"%byte; "000"%byte]]. Proof. by []. Qed.
Lemma h_none : holds m0 [::] [::]. Proof. by []. Qed.
Local Notation sync m r := (node_sync (read_once toy 7) m r).

Example C54_commit_short_applies : gives m0 (sync m0 (Commit two)) (RError (text
"blob must have size 131072, found size 2
 err:could not convert slice to array")).
Proof. exact: (@C54_commit _ _ toy 7 m0 two _ r_two). Qed.
Example C54_compute_short_applies : gives m0 (sync m0 (Compute two)) (RError (text
"blob must have size 131072, found size 2
 err:could not convert slice to array")).
Proof. exact: (@C54_compute _ _ toy 7 m0 two _ r_two). Qed.
Example C54_compute_cells_short_applies : gives m0 (sync m0 (ComputeCells two)) (RError (text
"blob must have size 131072, found size 2
 err:could not convert slice to array")).
Proof. exact: (@C54_compute_cells _ _ toy 7 m0 two _ r_two). Qed.

Example C54_recover_negative_applies : sync m0 (Recover [:: 5; -1]%Z [:: two]) = Some Panic.
Proof. exact: (C54_recover toy 7 [:: 5; -1]%Z h_two). Qed.
Example C54_recover_short_applies : gives m0 (sync m0 (Recover [:: 5]%Z [:: two])) (RError (text
"cell must have size 2048, found size 2
 err:could not convert slice to array")).
Proof. exact: (C54_recover toy 7 [:: 5]%Z h_two). Qed.
Example C54_recover_error_applies : gives m0 (sync m0 (Recover [:: 5]%Z [::])) (RError (text
"failed to compute recover_cells_and_kzg_proofs: ee")).
Proof. exact: (C54_recover toy 7 [:: 5]%Z h_none). Qed.
Example C54_recover_applies :
  gives m0 (sync m0 (Recover [::] [::])) (RCellsAndProofs (toy_outputs "007"%byte).1 (toy_outputs "007"%byte).2).
Proof.
have := C54_recover toy 7 [::] h_none; cbv zeta.
by rewrite -[ra_recover _ _ _ _]/(Ret (Ok (toy_outputs "007"%byte)) : outcome (result _ nat)).
Qed.
Example C54_verify_negative_applies : sync m0 (Verify [::] [:: -1]%Z [::] [:: two]) = Some Panic.
Proof. exact: (C54_verify toy 7 [:: -1]%Z h_none h_none h_two). Qed.
Example C54_verify_short_applies : gives m0 (sync m0 (Verify [::] [:: 5]%Z [::] [:: two])) (RError (text
"proof must have size 48, found size 2
 err:could not convert slice to array")).
Proof. exact: (C54_verify toy 7 [:: 5]%Z h_none h_none h_two). Qed.
Example C54_verify_error_applies : gives m0 (sync m0 (Verify [::] [:: 5]%Z [::] [::])) (RError (text
"failed to compute verify_cell_kzg_proof_batch: ee")).
Proof. exact: (C54_verify toy 7 [:: 5]%Z h_none h_none h_none). Qed.
Example C54_verify_true_applies : gives m0 (sync m0 (Verify [::] [::] [::] [::])) (RBool true).
Proof. exact: (C54_verify toy 7 [::] h_none h_none h_none). Qed.
(** One cell that the library refuses *)
Definition refused_cell : seq byte := nseq 2048 "255"%byte.
Lemma refused_first n (b : byte) : ra_verify toy 7 [::] [:: 5%num] [:: nseq n.+1 "255"%byte] [::] = Ret (Err 0).
Proof. by []. Qed.
Lemma h_refused : holds [:: refused_cell] [:: MkView 0 0 2048] [:: refused_cell].
Proof.
rewrite /holds /refused_cell; move: 2048 => n.
by rewrite /= /vread /= size_nseq add0n leqnn drop0 -{1}(size_nseq n "255"%byte) take_size.
Qed.
Lemma refused_size : all (fun x => size x == 2048) [:: refused_cell].
Proof. by rewrite /= size_nseq eqxx. Qed.
Lemma h_nothing m : holds m [::] [::]. Proof. by []. Qed.
Example C54_verify_false_applies :
  gives [:: refused_cell] (sync [:: refused_cell] (Verify [::] [:: 5]%Z [:: MkView 0 0 2048] [::])) (RBool false).
Proof.
have := C54_verify toy 7 [:: 5]%Z (h_nothing [:: refused_cell]) h_refused (h_nothing _).
by cbv zeta; rewrite refused_size /refused_cell -[2048]/(2047.+1) (refused_first 2047 "000"%byte).
Qed.

(** ** Blobs of the right size *)
Definition blob_of (x : byte) : seq byte := nseq (2 ^ 17) x.
Definition whole : view := MkView 0 0 (2 ^ 17).
Lemma whole_any (b : seq byte) n : size b = n -> vread [:: b] (MkView 0 0 n) = Some b.
Proof. by move=> <-; rewrite /vread /= leqnn drop0 take_size. Qed.
Lemma r_whole x : vread [:: blob_of x] whole = Some (blob_of x).
Proof. exact: (whole_any (size_nseq _ _)). Qed.
Lemma toy_any n x : x != "255"%byte ->
  ra_compute toy 7 (nseq n.+1 x) = Ret (Ok (toy_outputs x)) /\
  ra_blob_to_kzg_commitment toy 7 (nseq n.+1 x) = Ret (Ok (nseq 48 x)).
Proof. by move=> H; split; rewrite /= /toy_bad /= (negbTE H). Qed.
Lemma toy_blobs x : x != "255"%byte ->
  ra_compute toy 7 (blob_of x) = Ret (Ok (toy_outputs x)) /\
  ra_blob_to_kzg_commitment toy 7 (blob_of x) = Ret (Ok (nseq 48 x)).
Proof.
rewrite /blob_of; have [n ->] : exists n, 2 ^ 17 = n.+1 by exists (2 ^ 17).-1; rewrite prednK // expn_gt0.
exact: toy_any.
Qed.
Lemma blob_size x : size (blob_of x) = 2 ^ 17. Proof. exact: size_nseq. Qed.
Example C54_commit_applies : gives [:: blob_of "007"%byte] (sync [:: blob_of "007"%byte] (Commit whole)) (RBytes (nseq 48 "007"%byte)).
Proof.
move: (C54_commit toy 7 (r_whole "007"%byte)); rewrite blob_size eqxx (proj2 (@toy_blobs "007"%byte isT)); exact: id.
Qed.
Example C54_compute_applies : gives [:: blob_of "007"%byte] (sync [:: blob_of "007"%byte] (Compute whole))
  (RCellsAndProofs (toy_outputs "007"%byte).1 (toy_outputs "007"%byte).2).
Proof.
move: (C54_compute toy 7 (r_whole "007"%byte)); rewrite blob_size eqxx (proj1 (@toy_blobs "007"%byte isT)); exact: id.
Qed.
Example C54_compute_cells_applies : gives [:: blob_of "007"%byte] (sync [:: blob_of "007"%byte] (ComputeCells whole))
  (RCells (toy_outputs "007"%byte).1).
Proof.
move: (C54_compute_cells toy 7 (r_whole "007"%byte)); rewrite blob_size eqxx (proj1 (@toy_blobs "007"%byte isT)); exact: id.
Qed.

(** ** Asynchronous calls *)
Lemma impl : implements (respond toy 7) (read_once toy 7). Proof. exact: read_once_implements. Qed.
Local Notation prog := (read_once toy 7).
Definition s0 := MkJs m0 [:: Settled (ABool true)].
(** The array is changed before the worker reads it, and another part of the buffer while it runs: the
    answer is the error about the two bytes. *)
Example C55_async_applies : exists s4 a,
  run prog s0 [:: JCall (Recover [:: 5]%Z [:: two]); JWrite 0 1 [:: "003"%byte]; JAlloc [::]; JWrite 0 0 [:: "004"%byte];
    WRead 1; WFinish 1; JSettle 1] = Some s4 /\ settled s4 1 a /\
  new_answer (js_mem s4) (js_mem s4) a (RError (text
"cell must have size 2048, found size 2
 err:could not convert slice to array")).
Proof.
set r := Recover _ _.
have [s1 E1] : exists s1, exec prog s0 (JCall r) = Some s1 by eexists.
have [s2 E2] : exists s2, run prog s1 [:: JWrite 0 1 [:: "003"%byte]] = Some s2 by move: E1 => [<-]; eexists.
have [s3 E3] : exists s3, run prog s2 [:: JAlloc [::]; JWrite 0 0 [:: "004"%byte]; WRead 1; WFinish 1] = Some s3.
  by move: E1 E2 => [<-] [<-]; eexists.
have [s4 E4] : exists s4, exec prog s3 (JSettle 1) = Some s4 by move: E1 E2 E3 => [<-] [<-] [<-]; eexists.
have [rp [a [Hg Hs Hn]]] := @C55_async _ _ toy 7 prog impl r s0 s1 [:: JWrite 0 1 [:: "003"%byte]] s2 _ s3 s4
  E1 E2 isT E3 isT E4.
have H2 : holds (js_mem s2) [:: two] [:: [:: "003"%byte; "000"%byte]] by move: E1 E2 => [<-] [<-].
have G : gives (js_mem s2) (node_sync prog (js_mem s2) r) (RError (text
"cell must have size 2048, found size 2
 err:could not convert slice to array")) := C54_recover toy 7 [:: 5]%Z H2.
have := gives_inj Hg G; case: rp Hg Hn => // msg Hg Hn Em.
exists s4, a; split.
  rewrite (run_cons _ E1) -[_ :: _]/([:: JWrite 0 1 [:: "003"%byte]] ++ [:: JAlloc [::]; JWrite 0 0 [:: "004"%byte]; WRead 1; WFinish 1; JSettle 1]).
  rewrite run_cat E2 -[[:: _; _; _; _; _]]/([:: JAlloc [::]; JWrite 0 0 [:: "004"%byte]; WRead 1; WFinish 1] ++ [:: JSettle 1]).
  by rewrite run_cat E3 /run E4.
by split=> //; case: a Hn {Hs} => //= m [-> _]; rewrite Em.
Qed.
Example C55_progress_applies : exists s1, exec prog s0 (JCall (Commit two)) = Some s1 /\
  exists es s4, [/\ run prog s1 es = Some s4, all (own 1) es, exists a, settled s4 1 a &
    forall q, q <> 1 -> oget (js_promises s4) q = oget (js_promises s1) q].
Proof.
have [s1 E1] : exists s1, exec prog s0 (JCall (Commit two)) = Some s1 by eexists.
exists s1; split=> //.
apply: (@C55_progress _ _ toy 7 prog impl (Commit two) s0 s1 [::] s1 [::] s1 E1 erefl isT erefl isT).
have R : vread (js_mem s1) two = Some [:: "007"%byte; "000"%byte] by move: E1 => [<-].
by have := @C54_commit _ _ toy 7 _ _ _ R => -[a [m' [-> _]]].
Qed.
Example C55_settled_applies : exists s', run prog s0 [:: JCall (Commit two); JWrite 0 0 [:: "001"%byte]; WRead 1] = Some s' /\
  settled s' 0 (ABool true).
Proof.
have [s' E] : exists s', run prog s0 [:: JCall (Commit two); JWrite 0 0 [:: "001"%byte]; WRead 1] = Some s' by eexists.
by exists s'; split=> //; apply: (C55_settled E).
Qed.
Lemma nseq_neq n (x y : byte) : x != y -> nseq n.+1 x <> nseq n.+1 y.
Proof. by move=> H E; have := congr1 (fun s => nth x s 0) E; rewrite !nth_nseq /= => E'; rewrite E' eqxx in H. Qed.
Example C55_call_time_refuted_applies : exists s r es s', [/\ run prog s (JCall r :: es) = Some s',
  gives (js_mem s) (node_sync prog (js_mem s) r) (RBytes (nseq 48 "007"%byte)) &
  exists v, settled s' (size (js_promises s)) (AArray v) /\ vread (js_mem s') v = Some (nseq 48 "008"%byte)].
Proof.
exact (C55_call_time_refuted impl (blob_size "007"%byte) (blob_size "008"%byte) (proj2 (@toy_blobs "007"%byte isT))
  (proj2 (@toy_blobs "008"%byte isT)) (@nseq_neq 47 "007"%byte "008"%byte isT)).
Qed.

(** ** The real library *)
Lemma layout (l1 l2 l3 : seq (seq byte)) : exists m vs1 vs2 vs3, [/\ holds m vs1 l1, holds m vs2 l2 & holds m vs3 l3].
Proof.
pose vs k (l : seq (seq byte)) := [seq MkView (k + i) 0 (size (nth [::] l i)) | i <- iota 0 (size l)].
have H pre l post : holds (pre ++ l ++ post) (vs (size pre) l) l.
  rewrite /holds /vs -map_comp; apply: (eq_from_nth (x0 := None)); rewrite !size_map size_iota // => i Hi.
  rewrite (nth_map 0) ?size_iota // nth_iota // add0n (nth_map [::]) //= /vread /= oget_cat_at.
  have -> : oget (l ++ post) i = Some (nth [::] l i) by elim: l i Hi => [|x l IH] [|i] //= /IH.
  by rewrite add0n leqnn drop0 take_size.
exists (l1 ++ l2 ++ l3), (vs 0 l1), (vs (size l1) l2), (vs (size (l1 ++ l2)) l3); split.
- exact: (H [::]).
- exact: H.
by have := H (l1 ++ l2) l3 [::]; rewrite cats0 -catA.
Qed.
Section Real.
Variable (ctx : das_context G G).
Hypothesis Hctx : das_context_new fr_params eip7594_consts ex_g1s ex_g2s PrecompNo = Ret ctx.
Local Notation api := (eip7594_api ex_env (fun _ _ => Ret ctx) real_debug).
Local Notation rsync m r := (node_sync (read_once api ctx) m r).
Lemma r_ex : vread [:: ex_blob] (MkView 0 0 (size ex_blob)) = Some ex_blob.
Proof. exact: (whole_any erefl). Qed.
Example C54_recover_same_applies : exists cells proofs m vs,
  gives [:: ex_blob] (rsync [:: ex_blob] (Compute (MkView 0 0 (size ex_blob)))) (RCellsAndProofs cells proofs) /\
  gives m (rsync m (Recover half_z vs)) (RCellsAndProofs cells proofs).
Proof.
have [cells [proofs E]] := ex_compute Hctx; exists cells, proofs.
move: (C54_compute api ctx r_ex).
rewrite ex_blob_size eqxx -[ra_compute api _ _]/(Eip7594.compute_cells_and_kzg_proofs ex_env eip7594_consts ctx _) E => Hg.
rewrite -ex_blob_size in Hg.
have [m [vs [_ [_ [Hm _ _]]]]] := layout [seq nth [::] cells (Z.to_nat z) | z <- half_z] [::] [::].
have [H1 H2 H3] := half_ok.
exists m, vs; split; first exact Hg.
exact (C54_recover_same ex_std ex_S1 ex_S2 Hctx r_ex Hg H1 H2 H3 Hm).
Qed.
Example C54_honest_true_applies : exists m coms cells proofs,
  gives m (rsync m (Verify coms [:: 5; 5; 5]%Z cells proofs)) (RBool true) /\ size coms = 3.
Proof.
have [com [cell [proof [_ Hh]]]] := ex_honest Hctx.
have [m [v1 [v2 [v3 [W1 W2 W3]]]]] := layout (nseq 3 com) (nseq 3 cell) (nseq 3 proof).
exists m, v1, v2, v3; split; last first.
  have := congr1 size W1; rewrite !size_map => ->; exact: size_nseq.
have [E1 E2] := ex_srs.
have Sn (x : seq byte) : size (nseq 3 x) = 3 by exact: size_nseq.
apply (@C54_honest_true _ _ _ _ ex_std _ _ _ ex_S1 ex_S2 Hctx _ _ tau (1%R : G) (1%R : G) _ _ [:: 5; 5; 5]%Z _ _
  (nseq 3 com) (nseq 3 cell) (nseq 3 proof) E1 E2 W1 W2 W3); rewrite ?Sn.
- exact: erefl.
- exact: erefl.
- exact: erefl.
- exact: fives.
exact: (@three_fives (fun t k => honest ex_env ctx (nth [::] (nseq 3 com) t) k (nth [::] (nseq 3 cell) t)
  (nth [::] (nseq 3 proof) t)) Hh).
Qed.
Example C55_torn_refuted_applies : exists s r es s', [/\ run (read_once api ctx) s (JCall r :: es) = Some s',
  forall pre post t, JCall r :: es = pre ++ post -> run (read_once api ctx) s pre = Some t ->
    ~ gives (js_mem t) (rsync (js_mem t) r) (RBool true) &
  settled s' 0 (ABool true)].
Proof.
have [com [cell [proof [_ Hh]]]] := ex_honest Hctx.
have Sn (x : seq byte) : size (nseq 3 x) = 3 by exact: size_nseq.
have Lt : 0 < 3 by exact: isT.
have [E1 E2] := ex_srs; have S48 : size (nseq 48 "255"%byte) = 48 by exact: size_nseq.
exact (@C55_torn_refuted _ _ _ _ ex_std _ _ _ ex_S1 ex_S2 Hctx _ _ tau (1%R : G) (1%R : G) _ _ _ _ (nseq 48 "255"%byte)
  E1 E2 (Hh 0 Lt) S48 undecodable).
Qed.
End Real.
