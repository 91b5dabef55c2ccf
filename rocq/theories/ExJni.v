(** Concrete instances for PropJni.v. *)

From Coq Require Import ZArith NArith Init.Byte Strings.Byte Strings.String.
From mathcomp Require Import ssreflect ssrfun ssrbool eqtype ssrnat seq ssralg.
From Verif Require Import Base Bytes SpecFr FrEnv Fr FixedBaseMSM FK20Verifier Eip7594.
From Verif Require Import PropProver PropRecover PropVerify ExApi ExVerify CApi Managed Jni SpecJni JniProofs PropJni ExC.

Set Implicit Arguments.
Unset Strict Implicit.
Unset Printing Implicit Defensive.

Local Opaque nseq.
Definition dbg (e : jni_error) : seq byte := [:: "078"%byte].

(** A heap: [0] two bytes, [1] one array of arrays, [2] one with null, [3] longs, [4] no arrays, [5] no longs *)
Definition h0 : seq jobj :=
  [:: OBytes [:: "007"%byte; "000"%byte]; OArrays [:: Some 0]; OArrays [:: Some 0; None]; OLongs [:: 5; -1]%Z; OArrays [::]; OLongs [::]].
Lemma v0 : value_bytes h0 (Some 0) (Some [:: "007"%byte; "000"%byte]). Proof. by exists 0. Qed.
Lemma v1 : value_arrays h0 (Some 1) (no_null [:: [:: "007"%byte; "000"%byte]]).
Proof. by exists 1, [:: Some 0]; do 2!split=> //; exists 0. Qed.
Lemma v2 : value_arrays h0 (Some 2) (Some [:: Some [:: "007"%byte; "000"%byte]; None]).
Proof. by exists 2, [:: Some 0; None]; do 2!split=> //; exists 0. Qed.
Lemma v3 : value_longs h0 (Some 3) (Some [:: 5; -1]%Z). Proof. by exists 3. Qed.
Lemma v4 : value_arrays h0 (Some 4) (no_null [::]). Proof. by exists 4, [::]. Qed.

Lemma v5 : value_longs h0 (Some 5) (Some [::]). Proof. by exists 5. Qed.

Example C52_compute_null_applies : exists reason,
  throws (java_call (native_compute toy dbg 7 None) h0) h0 "computeCellsAndKZGProofs" reason.
Proof. exact: (@C52_compute _ _ toy dbg 7 h0 None None erefl). Qed.
Lemma two_17 : 2 == 2 ^ 17 = false.
Proof. exact: (eqn_exp2l 1 17 (ltnSn 1)). Qed.
Example C52_compute_short_applies :
  java_call (native_compute toy dbg 7 (Some 0)) h0 = ThrowsIllegalArgument (text
"function computeCellsAndKZGProofs has thrown an exception, with reason: blob is not the correct size. expected: 131072
got: 2") h0.
Proof.
have := @C52_compute _ _ toy dbg 7 h0 (Some 0) _ v0; cbv zeta.
by rewrite -[size _]/2 two_17.
Qed.
Example C52_commit_short_applies :
  java_call (native_commit toy dbg 7 (Some 0)) h0 = ThrowsIllegalArgument (text
"function blobToKZGCommitment has thrown an exception, with reason: blob is not the correct size. expected: 131072
got: 2") h0.
Proof.
have := @C52_commit _ _ toy dbg 7 h0 (Some 0) _ v0; cbv zeta.
by rewrite -[size _]/2 two_17.
Qed.
Example C52_recover_null_applies : exists reason,
  throws (java_call (native_recover toy dbg 7 (Some 3) (Some 2)) h0) h0 "recoverCellsAndKZGProofs" reason.
Proof. by apply: (C52_recover_null toy dbg 7 v3 v2); right. Qed.
Example C52_recover_short_applies :
  java_call (native_recover toy dbg 7 (Some 3) (Some 1)) h0 = ThrowsIllegalArgument (text
"function recoverCellsAndKZGProofs has thrown an exception, with reason: cell is not the correct size. expected: 2048
got: 2") h0.
Proof. exact: (C52_recover toy dbg 7 v3 v1). Qed.
Example C52_verify_null_applies : exists reason,
  throws (java_call (native_verify toy dbg 7 (Some 1) None (Some 1) (Some 1)) h0) h0 "verifyCellKZGProofBatch" reason.
Proof. by apply: (@C52_verify_null _ _ toy dbg 7 h0 _ _ _ _ _ None _ _ v1 erefl v1 v1); apply: Or42. Qed.
Example C52_verify_short_applies :
  java_call (native_verify toy dbg 7 (Some 1) (Some 3) (Some 4) (Some 4)) h0 = ThrowsIllegalArgument (text
"function verifyCellKZGProofBatch has thrown an exception, with reason: commitment is not the correct size. expected: 48
got: 2") h0.
Proof. exact: (C52_verify toy dbg 7 v1 v3 v4 v4). Qed.
Example C52_verify_error_applies :
  java_call (native_verify toy dbg 7 (Some 4) (Some 3) (Some 4) (Some 4)) h0 = ThrowsIllegalArgument (text
"function verifyCellKZGProofBatch has thrown an exception, with reason: ee") h0.
Proof. exact: (C52_verify toy dbg 7 v4 v3 v4 v4). Qed.
Example C52_verify_true_applies :
  java_call (native_verify toy dbg 7 (Some 4) (Some 5) (Some 4) (Some 4)) h0 = Returns true h0.
Proof. exact: (C52_verify toy dbg 7 v4 v5 v4 v4). Qed.
Example C52_recover_error_applies :
  java_call (native_recover toy dbg 7 (Some 3) (Some 4)) h0 = ThrowsIllegalArgument (text
"function recoverCellsAndKZGProofs has thrown an exception, with reason: ee") h0.
Proof. exact: (C52_recover toy dbg 7 v3 v4). Qed.
Example C52_recover_applies : exists r h',
  java_call (native_recover toy dbg 7 (Some 5) (Some 4)) h0 = Returns r h' /\
  new_cap h0 h' r (toy_outputs "007"%byte).1 (toy_outputs "007"%byte).2.
Proof.
have := C52_recover toy dbg 7 v5 v4; cbv zeta.
rewrite -[ra_recover _ _ _ _]/(Ret (Ok (toy_outputs "007"%byte)) : outcome (result _ nat)).
by move: (toy_outputs _) => -[].
Qed.

(** ** A blob of the right size *)
Lemma v_blob : value_bytes [:: OBytes (nseq (2 ^ 17) "007"%byte)] (Some 0) (Some (nseq (2 ^ 17) "007"%byte)).
Proof. exact: (ex_intro2 _ _ 0 erefl erefl). Qed.
Lemma toy_ok n : ra_compute toy 7 (nseq n.+1 "007"%byte) = Ret (Ok (toy_outputs "007"%byte)) /\
  ra_blob_to_kzg_commitment toy 7 (nseq n.+1 "007"%byte) = Ret (Ok (nseq 48 "007"%byte)).
Proof. by []. Qed.
Lemma toy_blob : ra_compute toy 7 (nseq (2 ^ 17) "007"%byte) = Ret (Ok (toy_outputs "007"%byte)) /\
  ra_blob_to_kzg_commitment toy 7 (nseq (2 ^ 17) "007"%byte) = Ret (Ok (nseq 48 "007"%byte)).
Proof.
have [n ->] : exists n, 2 ^ 17 = n.+1 by exists (2 ^ 17).-1; rewrite prednK // expn_gt0.
exact: toy_ok.
Qed.
Example C52_compute_applies : exists r h',
  java_call (native_compute toy dbg 7 (Some 0)) [:: OBytes (nseq (2 ^ 17) "007"%byte)] = Returns r h' /\
  new_cap [:: OBytes (nseq (2 ^ 17) "007"%byte)] h' r (toy_outputs "007"%byte).1 (toy_outputs "007"%byte).2.
Proof.
have := C52_compute toy dbg 7 v_blob; cbv zeta; rewrite (proj1 toy_blob) size_nseq eqxx.
by move: (toy_outputs _) => -[].
Qed.
Example C52_commit_applies : exists r h',
  java_call (native_commit toy dbg 7 (Some 0)) [:: OBytes (nseq (2 ^ 17) "007"%byte)] = Returns r h' /\
  new_bytes [:: OBytes (nseq (2 ^ 17) "007"%byte)] h' r (nseq 48 "007"%byte).
Proof.
have := C52_commit toy dbg 7 v_blob; cbv zeta; rewrite (proj2 toy_blob) size_nseq eqxx.
exact: id.
Qed.
Example C52_locals_applies :
  locals_of (native_compute toy dbg 7 (Some 0)) [:: OBytes (nseq (2 ^ 17) "007"%byte)] = Some 264.
Proof.
have [S1 S2 _ _] := toy_outputs_sizes "007"%byte.
have := @C52_locals _ _ toy dbg 7 _ _ _ (toy_outputs "007"%byte).1 (toy_outputs "007"%byte).2 v_blob (size_nseq _ _).
rewrite S1 S2; apply; rewrite (proj1 toy_blob); by move: (toy_outputs _) => -[].
Qed.

(** ** CellsAndProofs *)
Definition b7 : seq byte := [:: "007"%byte; "000"%byte].
Definition hc : seq jobj :=
  [:: OBytes b7; OBytes b7; OArrays [:: Some 0]; OArrays [:: Some 1]; OArrays [:: Some 0; Some 1; None];
      OCap (Some 2) (Some 3); OCap (Some 3) (Some 3); OCap (Some 2) None; OArrays [:: Some 0; Some 1]].
Lemma w2 : value_arrays hc (Some 2) (no_null [:: b7]).
Proof. by exists 2, [:: Some 0]; do 2!split=> //; exists 0. Qed.
Lemma w3 : value_arrays hc (Some 3) (no_null [:: b7]).
Proof. by exists 3, [:: Some 1]; do 2!split=> //; exists 1. Qed.
Lemma w4 : value_arrays hc (Some 4) (Some [:: Some b7; Some b7; None]).
Proof. by exists 4, [:: Some 0; Some 1; None]; split=> //; split; [exists 0|split; [exists 1|]]. Qed.
Lemma w8 : value_arrays hc (Some 8) (no_null [:: b7; b7]).
Proof. by exists 8, [:: Some 0; Some 1]; split=> //; split; [exists 0|split; [exists 1|]]. Qed.
Lemma wc5 : value_cap hc (Some 5) (no_null [:: b7]) (no_null [:: b7]).
Proof. by exists 5, (Some 2), (Some 3); split=> //; [exact: w2|exact: w3]. Qed.
Lemma wc6 : value_cap hc (Some 6) (no_null [:: b7]) (no_null [:: b7]).
Proof. by exists 6, (Some 3), (Some 3); split=> //; exact: w3. Qed.
Lemma wc7 : value_cap hc (Some 7) (no_null [:: b7]) None.
Proof. by exists 7, (Some 2), None; split=> //; exact: w2. Qed.
Example C53_equals_applies : cap_equals hc (Some 5) (Some 6) /\ ~ cap_equals hc (Some 6) (Some 7).
Proof. by split; [apply/(C53_equals wc5 wc6)|move/(C53_equals wc6 wc7) => []]. Qed.
Example C53_equals_other_applies : cap_equals hc (Some 5) None = false /\ cap_equals hc (Some 5) (Some 0) = false.
Proof.
split; first exact: (@C53_equals_other hc (Some 5) _ _ None wc5 I).
by apply: (@C53_equals_other hc (Some 5) _ _ (Some 0) wc5); exists (OBytes b7).
Qed.
Example C53_hash_applies : cap_hash_code hc (Some 2) (Some 3) = cap_hash_code hc (Some 3) (Some 2).
Proof. exact: (proj1 (C53_hash w2 w3 w3 w2)). Qed.
Example C53_to_bytes_null_applies : cap_to_bytes hc (Some 2) (Some 4) = Err NullPointerException.
Proof. by apply: (C53_to_bytes_null w2 w4); right. Qed.
Example C53_to_bytes_applies : cap_to_bytes hc (Some 2) (Some 8) = Ok (b7 ++ b7 ++ b7).
Proof. exact: (C53_to_bytes w2 w8). Qed.

(** ** Outputs of the sizes of the library *)
Definition hl (b : byte) : seq jobj := [:: OBytes (nseq 2048 b); OBytes (nseq 48 b);
  OArrays (nseq 128 (Some 0)); OArrays (nseq 128 (Some 1))].
Lemma values_nseq h a b n : value_bytes h (Some a) (Some b) -> values_bytes h (nseq n (Some a)) (map Some (nseq n b)).
Proof. by move=> H; elim: n => [|n IH]; split. Qed.
Lemma arrays_nseq h a e b n : oget h a = Some (OArrays (nseq n (Some e))) -> value_bytes h (Some e) (Some b) ->
  value_arrays h (Some a) (no_null (nseq n b)).
Proof.
move=> H Hb; exists a; exists (nseq n (Some e)); apply: And3; [exact: erefl|exact: H|].
exact: values_nseq.
Qed.
Lemma hl_values b : value_arrays (hl b) (Some 2) (no_null (nseq 128 (nseq 2048 b))) /\
  value_arrays (hl b) (Some 3) (no_null (nseq 128 (nseq 48 b))).
Proof.
apply: conj.
  exact (@arrays_nseq (hl b) 2 0 (nseq 2048 b) 128 erefl (ex_intro2 _ _ 0 erefl erefl)).
exact (@arrays_nseq (hl b) 3 1 (nseq 48 b) 128 erefl (ex_intro2 _ _ 1 erefl erefl)).
Qed.
Lemma hl_lengths b : cap_lengths (nseq 128 (nseq 2048 b)) (nseq 128 (nseq 48 b)).
Proof.
by apply: And4; [exact: size_nseq|exact: size_nseq|apply: all_nseq_size; exact: size_nseq|
  apply: all_nseq_size; exact: size_nseq].
Qed.
Example C53_to_bytes_library_applies : exists bytes bytes',
  [/\ cap_to_bytes (hl "007"%byte) (Some 2) (Some 3) = Ok bytes,
      cap_to_bytes (hl "008"%byte) (Some 2) (Some 3) = Ok bytes', N.of_nat (size bytes) = 268288%num &
      bytes = bytes' -> nseq 128 (nseq 2048 "007"%byte) = nseq 128 (nseq 2048 "008"%byte) /\
                        nseq 128 (nseq 48 "007"%byte) = nseq 128 (nseq 48 "008"%byte)].
Proof.
have [H1 H2] := hl_values "007"%byte; have [H3 H4] := hl_values "008"%byte.
exact (C53_to_bytes_library H1 H2 (hl_lengths _) H3 H4 (hl_lengths _)).
Qed.

(** ** The real library *)
Definition half_z : seq Z := rev [seq Z.of_nat i | i <- iota 64 64].
Lemma half_ok : [/\ all cell_number half_z, uniq [seq Z.to_N z | z <- half_z] & 64 <= size half_z].
Proof. by split; vm_compute. Qed.
(** The arrays of half of the cells, added to a heap *)
Lemma add_arrays h (l : seq (seq byte)) : exists h' a,
  value_arrays (h ++ h') (Some a) (no_null l).
Proof.
exists (map OBytes l ++ [:: OArrays [seq Some (size h + i) | i <- iota 0 (size l)]]), (size h + size l).
exists (size h + size l), [seq Some (size h + i) | i <- iota 0 (size l)]; apply: And3; first exact: erefl.
  have := oget_cat_at (h ++ map OBytes l) [:: OArrays [seq Some (size h + i) | i <- iota 0 (size l)]] 0.
  by rewrite size_cat size_map addn0 catA.
set last := [:: _]; rewrite catA; move: last => last.
elim: l h => [|b l IH] h //=; rewrite addn0; split.
  exists (size h) => //; rewrite -catA; have := oget_cat_at h (map OBytes (b :: l) ++ last) 0.
  by rewrite addn0.
have := IH (h ++ [:: OBytes b]); rewrite -catA /= size_cat /= addn1.
suff -> : [seq Some (size h + i) | i <- iota 1 (size l)] = [seq Some ((size h).+1 + i) | i <- iota 0 (size l)].
  by rewrite -!catA.
rewrite -[1]/(1 + 0) iotaDl -map_comp; apply: eq_map => i /=; by rewrite addnA addn1.
Qed.
Lemma longs_at h l h' : value_longs ((h ++ [:: OLongs l]) ++ h') (Some (size h)) (Some l).
Proof. by exists (size h) => //; rewrite -catA; have := oget_cat_at h ([:: OLongs l] ++ h') 0; rewrite addn0. Qed.
Lemma longs_first l h : value_longs (OLongs l :: h) (Some 0) (Some l).
Proof. by exists 0. Qed.
Lemma fives : all cell_number [:: 5; 5; 5]%Z. Proof. by []. Qed.
Lemma three_fives (P : nat -> N -> Prop) : (forall t, t < 3 -> P t (nth 0%num (nseq 3 5%num) t)) ->
  forall t, t < 3 -> P t (Z.to_N (nth 0%Z [:: 5; 5; 5]%Z t)).
Proof. by move=> H t Ht; have := H t Ht; case: t Ht => [|[|[|]]]. Qed.
Section Real.
Variable (ctx : das_context G G).
Hypothesis Hctx : das_context_new fr_params eip7594_consts ex_g1s ex_g2s PrecompNo = Ret ctx.
Local Notation api := (eip7594_api ex_env (fun _ _ => Ret ctx) real_debug).
Local Notation heap := [:: OBytes ex_blob].
Lemma v_ex : value_bytes heap (Some 0) (Some ex_blob).
Proof. exact: (ex_intro2 _ _ 0 erefl erefl). Qed.

Example C52_locals_refuted_applies : exists2 n, locals_of (native_compute api dbg ctx (Some 0)) heap = Some n &
  n = 264 /\ 16 < n.
Proof.
have [cells [proofs E]] := ex_compute Hctx.
exact (C52_locals_refuted ex_std ex_S1 ex_S2 Hctx _ _ dbg v_ex ex_blob_size E).
Qed.

Example C52_recover_equals_applies : exists r h1 h2 ids rcells r' h3,
  [/\ java_call (native_compute api dbg ctx (Some 0)) heap = Returns r h1,
      java_call (native_recover api dbg ctx ids rcells) h2 = Returns r' h3,
      r' <> r, cap_equals h3 r r' & cap_equals h3 r' r].
Proof.
have [cells [proofs E]] := ex_compute Hctx.
have := C52_compute api dbg ctx v_ex; cbv zeta.
rewrite ex_blob_size eqxx -[ra_compute api _ _]/(Eip7594.compute_cells_and_kzg_proofs ex_env eip7594_consts ctx _) E.
move=> [r [h1 [E1 _]]].
have [cells' [proofs' [V R]]] := C52_recover_equals ex_std ex_S1 ex_S2 Hctx v_ex E1.
have [hx [a Va]] := add_arrays (h1 ++ [:: OLongs half_z]) [seq nth [::] cells' (Z.to_nat z) | z <- half_z].
have [H1 H2 H3] := half_ok.
have Vl := longs_at h1 half_z hx.
have V2 : value_cap ((h1 ++ [:: OLongs half_z]) ++ hx) r (no_null cells') (no_null proofs').
  rewrite -catA; exact: value_cap_cat.
have [r' [h3 [A1 A2 A3 A4]]] := R _ _ _ _ V2 Vl H1 H2 H3 Va.
exists r, h1; do 5!eexists; exact: And5 E1 A1 A2 A3 A4.
Qed.
Example C52_honest_true_applies : exists h coms ids cells proofs,
  java_call (native_verify api dbg ctx coms ids cells proofs) h = Returns true h /\
  value_longs h ids (Some [:: 5; 5; 5]%Z).
Proof.
have [com [cell [proof [_ Hh]]]] := ex_honest Hctx.
have [h1 [a1 V1]] := add_arrays [:: OLongs [:: 5; 5; 5]%Z] (nseq 3 com).
have [h2 [a2 V2]] := add_arrays ([:: OLongs [:: 5; 5; 5]%Z] ++ h1) (nseq 3 cell).
have [h3 [a3 V3]] := add_arrays (([:: OLongs [:: 5; 5; 5]%Z] ++ h1) ++ h2) (nseq 3 proof).
exists ((([:: OLongs [:: 5; 5; 5]%Z] ++ h1) ++ h2) ++ h3), (Some a1), (Some 0), (Some a2), (Some a3).
have Vi := longs_first [:: 5; 5; 5]%Z ((h1 ++ h2) ++ h3).
split; last exact: Vi.
have [E1 E2] := ex_srs.
have W1 := value_arrays_cat h3 (value_arrays_cat h2 V1); have W2 := value_arrays_cat h3 V2.
have Sn (x : seq byte) : size (nseq 3 x) = 3 by exact: size_nseq.
apply (@C52_honest_true _ _ _ _ ex_std _ _ _ ex_S1 ex_S2 Hctx _ _ dbg tau (1%R : G) (1%R : G) _ _ _ _ _
  (nseq 3 com) [:: 5; 5; 5]%Z (nseq 3 cell) (nseq 3 proof) E1 E2 W1 Vi W2 V3); rewrite ?Sn.
- exact: erefl.
- exact: erefl.
- exact: erefl.
- exact: fives.
exact: (@three_fives (fun t k => honest ex_env ctx (nth [::] (nseq 3 com) t) k (nth [::] (nseq 3 cell) t)
  (nth [::] (nseq 3 proof) t)) Hh).
Qed.
End Real.
