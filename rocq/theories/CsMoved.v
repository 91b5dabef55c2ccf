(** The C# methods when the collector moves the arrays that are not pinned. *)

From Coq Require Import NArith Init.Byte.
From mathcomp Require Import ssreflect ssrfun ssrbool eqtype ssrnat seq.
From mathcomp Require Import zify_ssreflect.
From Verif Require Import Base Bytes Eip7594 CMem CApi SpecC CProofs CCallProofs PropC CsApi SpecCs CsProofs.

Set Implicit Arguments.
Unset Strict Implicit.
Unset Printing Implicit Defensive.

Section Moved.
Variables (ctx err : Type) (api : rust_api ctx err).
Implicit Types (m : mem ctx).

(** A collector that moves every array it may move. *)
Definition stays (pinned : seq ptr) (b : nat) (blk : block ctx) : bool :=
  ~~ caller_block blk || (Addr b 0 \in pinned).
Definition mover (pinned : seq ptr) (m : mem ctx) : mem ctx :=
  [seq (if nth None m b is Some blk then if stays pinned b blk then Some blk else None else None)
  | b <- iota 0 (size m)].

Lemma mover_block pinned m b blk :
  is_block (mover pinned m) b blk <-> is_block m b blk /\ stays pinned b blk.
Proof.
rewrite /is_block /mover size_map size_iota; split.
  case=> Hb; rewrite (nth_map 0) ?size_iota // nth_iota //= add0n.
  by case: (nth None m b) => // x; case: ifP => // Hs [<-].
case=> -[Hb E] Hs; split=> //; rewrite (nth_map 0) ?size_iota // nth_iota //= add0n E Hs.
by [].
Qed.
Lemma mover_collector : collector mover.
Proof.
move=> pinned m; split=> b blk H.
  move=> K; apply/mover_block; split=> //; rewrite /stays.
  by case: K => ->; rewrite ?orbT.
by move=> Hc; case/mover_block: H.
Qed.
Lemma mover_gone pinned m b s : is_block m b (BBytes _ s) -> Addr b 0 \notin pinned ->
  live_block (mover pinned m) b = None.
Proof.
move=> [Hb E] Hn; case L: (live_block _ _) => [blk|//]; move/live_blockP/mover_block: L => [[_ E'] H].
by move: H Hn; rewrite /stays; move: E'; rewrite E => -[<-] /= ->.
Qed.
Lemma mover_ctx pinned m p c : ctx_at m p c -> ctx_at (mover pinned m) p c.
Proof. by move=> [b -> Hb]; exists b => //; apply/mover_block. Qed.

Lemma vec_read k q n m ps : load_ptrs m q n.+1 = Some ps ->
  ptr_ptr_to_vec_slice_const k q n.+1 m = cmapM (create_array_ref k) ps m.
Proof. by move=> E; rewrite /ptr_ptr_to_vec_slice_const /= /cbind /cread E. Qed.
Lemma vec_write q n m ps (data : seq (seq byte)) : load_ptrs m q n.+1 = Some ps ->
  write_to_2d_slice n.+1 q data m = citer (fun pd => write_to_slice pd.1 pd.2) (zip ps data) m.
Proof. by move=> E; rewrite /write_to_2d_slice /cbind /ptr_ptr_to_slice_slice_mut /= /cread E. Qed.

(** Reading or writing through the array of addresses. *)
Lemma loose_read m pinned q b n k : 0 < n -> 0 < k -> loose m pinned q b n ->
  ptr_ptr_to_vec_slice_const k q n (mover pinned m) = CUB.
Proof.
case: n => // n _ Hk [a [s [[-> Hq] Ha Hb Hn]]].
have Ha' : is_block (mover pinned m) a (BPtrs _ (addrs b n.+1)).
  by apply/mover_block; rewrite /stays Hq orbT.
have Hne : addrs b n.+1 <> [::] by [].
have El := load_ptrs_at (block_ptrs Ha') Hne.
rewrite size_addrs in El; rewrite (vec_read _ El) /=.
rewrite /cbind /create_array_ref /cbind /create_slice_view_u8; case: k Hk => // k _ /=.
by rewrite /cread /= (mover_gone Hb Hn).
Qed.
Lemma loose_write m pinned q b n x (data : seq (seq byte)) : 0 < n -> loose m pinned q b n ->
  write_to_2d_slice n q (x :: data) (mover pinned m) = CUB.
Proof.
case: n => // n _ [a [s [[-> Hq] Ha Hb Hn]]].
have Ha' : is_block (mover pinned m) a (BPtrs _ (addrs b n.+1)).
  by apply/mover_block; rewrite /stays Hq orbT.
have Hne : addrs b n.+1 <> [::] by [].
have El := load_ptrs_at (block_ptrs Ha') Hne.
by rewrite size_addrs in El; rewrite (vec_write _ El) /= /cbind /write_to_slice /cwrite /= (mover_gone Hb Hn).
Qed.

Lemma bind_ub (A B : Type) (e : cM ctx A) (k : A -> cM ctx B) m : e m = CUB -> cbind e k m = CUB.
Proof. by rewrite /cbind => ->. Qed.

Lemma compute_moved p c blob m cp : ctx_at m p c -> api_typed api c -> size blob = 2 ^ 17 ->
  ra_compute api c blob = Ret (Ok cp) -> cs_compute_cells_and_kzg_proofs api mover p blob m = CUB.
Proof.
case: cp => cells proofs Hc T Sb Er; have [Sc _ _ _] := at_compute T Sb Er.
have [m1 [pb [oc [op [b1 [b2 [X _ _ _ [[[kb Ekb Hkb] L] E]]]]]]]] := compute_prepared api p m Sb.
rewrite E; apply: bind_ub.
have Hc1 := mover_ctx [:: pb; oc; op] (ext_ctx X Hc).
have Hb : bytes_at (mover [:: pb; oc; op] m1) pb blob.
  rewrite {2}Ekb; apply: block_bytes; apply/mover_block; split=> //.
  by rewrite /stays Ekb inE eqxx orbT.
rewrite (compute_start _ _ _ Hc1 Sb Hb) Er ctry_ok; apply: bind_ub.
by case: cells Sc {Er} => // x cells _; exact: loose_write L.
Qed.

Lemma recover_moved p c ids cells m : ctx_at m p c -> all_right 2048 cells -> cells <> [::] ->
  cs_recover_cells_and_kzg_proofs api mover p ids cells m = CUB.
Proof.
move=> Hc R Hn.
have [m1 [pi [pc [oc [op [b1 [b2 [X _ _ _ [/(_ Hn) [b L] E]]]]]]]]] := recover_prepared api p ids m R.
rewrite E; apply: bind_ub.
have Hc1 := mover_ctx [:: pi; pc; oc; op] (ext_ctx X Hc).
rewrite /eth_kzg_recover_cells_and_proofs (start _ Hc1) c_cell; apply: bind_ub.
exact: (@loose_read _ _ _ _ _ 2048 (ne_size Hn) isT L).
Qed.

Lemma verify_moved p c coms ids cells proofs m : ctx_at m p c -> all_right 2048 cells ->
  all_right 48 proofs -> all_right 48 coms -> coms <> [::] ->
  cs_verify_cell_kzg_proof_batch api mover p coms ids cells proofs m = CUB.
Proof.
move=> Hc R1 R2 R3 Hn.
have [m1 [pm [pi [pc [pp [pv [X _ _ [_ /(_ Hn) [b L]] E]]]]]]] := verify_prepared api p ids m R1 R2 R3.
rewrite E; apply: bind_ub.
have Hc1 := mover_ctx [:: pm; pc; pp; pi; pv] (ext_ctx X Hc).
rewrite /eth_kzg_verify_cell_kzg_proof_batch (start _ Hc1); apply: bind_ub.
exact: (@loose_read _ _ _ _ _ 48 (ne_size Hn) isT L).
Qed.
End Moved.
