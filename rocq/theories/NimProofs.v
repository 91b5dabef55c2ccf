(** Lemmas about the Nim procedures of NimApi.v. *)

From Coq Require Import NArith Init.Byte.
From mathcomp Require Import ssreflect ssrfun ssrbool eqtype ssrnat seq.
From mathcomp Require Import zify_ssreflect.
From Verif Require Import Base Bytes Eip7594 CMem CApi SpecC CProofs CCallProofs PropC CsApi SpecCs CsProofs NimApi.

Set Implicit Arguments.
Unset Strict Implicit.
Unset Printing Implicit Defensive.

Section Items.
Variable ctx : Type.
Implicit Types (m : mem ctx).

Lemma size_items w n p : size (item_ptrs w n p) = n.
Proof. by case: p => [|b off]; rewrite /= ?size_nseq // size_map size_iota. Qed.
Lemma nth_items w n b off i : i < n -> nth Null (item_ptrs w n (Addr b off)) i = Addr b (off + i * w).
Proof. by move=> Hi; rewrite (nth_map 0) ?size_iota // nth_iota. Qed.

Lemma size_flat w (l : seq (seq byte)) : all (fun x => size x == w) l -> size (flatten l) = size l * w.
Proof. by elim: l => //= x l IH /andP[/eqP Sx /IH E]; rewrite size_cat E Sx mulSn. Qed.
Lemma nth_flat w (l : seq (seq byte)) i j : all (fun x => size x == w) l -> i < size l -> j < w ->
  nth "000"%byte (flatten l) (i * w + j) = nth "000"%byte (nth [::] l i) j.
Proof.
elim: l i => //= x l IH i /andP[/eqP Sx Hl]; case: i => [|i] Hi Hj; first by rewrite mul0n nth_cat Sx Hj.
rewrite nth_cat Sx mulSn -addnA ltnNge leq_addr /= addKn; exact: IH.
Qed.

Lemma flat_at m b w l i : is_block m b (BBytes _ (flatten l)) -> all (fun x => size x == w) l ->
  i < size l -> bytes_at m (Addr b (0 + i * w)) (nth [::] l i).
Proof.
move=> Hb Hl Hi; have Si : size (nth [::] l i) = w by apply/eqP; exact: (all_nthP [::] Hl).
right; exists b, (0 + i * w), (flatten l); split=> //.
  rewrite (size_flat Hl) Si add0n -mulSnr leq_mul2r; apply/orP; by right.
by move=> j; rewrite Si add0n => Hj; exact: nth_flat.
Qed.

(** Two arrays in a row. *)
Lemma row_writable m b s off w n i : is_block m b (BBytes _ s) -> off + n * w <= size s -> i < n ->
  writable m (Addr b (off + i * w)) w.
Proof.
move=> Hb Hs Hi; have H : off + i * w + w <= size s.
  by apply: leq_trans Hs; rewrite -addnA leq_add2l -mulSnr leq_mul2r Hi orbT.
exists (take w (drop (off + i * w) s)); have Sz : size (take w (drop (off + i * w) s)) = w.
  by rewrite size_take size_drop; case: ltnP => //; lia.
split=> //; right; exists b, (off + i * w), s; split; rewrite ?Sz // => j Hj.
by rewrite nth_take // nth_drop.
Qed.

Lemma rows_apart b w w' n n' :
  disjoint_regions ([seq (q, w) | q <- item_ptrs w n (Addr b 0)] ++
                    [seq (q, w') | q <- item_ptrs w' n' (Addr b (0 + n * w))]).
Proof.
set rs : seq region := _ ++ _.
have S : size rs = n + n' by rewrite size_cat !size_map !size_iota.
have E t : t < n + n' -> nth (Null, 0) rs t =
    if t < n then (Addr b (t * w), w) else (Addr b (n * w + (t - n) * w'), w').
  move=> Ht; rewrite nth_cat size_map size_items; case: ifP => Hlt.
    by rewrite (nth_map Null) ?size_items // nth_items.
  by rewrite (nth_map Null) ?size_items ?nth_items //; lia.
move=> i j blk off /andP[Hij]; rewrite S => Hj.
rewrite (E _ (ltn_trans Hij Hj)) (E _ Hj) /in_region; case: ifP => Hi; case: ifP => Hj' /=.
- case/andP=> _ /andP[_ H]; rewrite negb_and; apply/orP; right; rewrite negb_and -ltnNge.
  apply/orP; left; apply: leq_trans H _; rewrite -mulSnr leq_mul2r Hij; exact: orbT.
- case/andP=> _ /andP[_ H]; rewrite negb_and; apply/orP; right; rewrite negb_and -ltnNge.
  apply/orP; left; apply: leq_trans H _; apply: leq_trans (leq_addr _ _).
  rewrite -mulSnr leq_mul2r Hi; exact: orbT.
- by move: Hi Hj' Hij; lia.
case/andP=> _ /andP[_ H]; rewrite negb_and; apply/orP; right; rewrite negb_and -ltnNge.
apply/orP; left; apply: leq_trans H _; rewrite -addnA leq_add2l -mulSnr leq_mul2r.
by apply/orP; right; move: Hi Hj' Hij; lia.
Qed.

Lemma safe_u64s m b s : is_block m b (BU64s _ s) -> u64s_at m (safe_get_ptr (size s) (Addr b 0)) s.
Proof. by case: s => [|x s] H; [left|exact: block_u64s]. Qed.

Lemma to_ptr_ptr_at w n p m : exists2 q,
  to_ptr_ptr w n p m = CRet (q, rcons m (Some (BPtrs ctx (item_ptrs w n p)))) &
  ptrs_at (rcons m (Some (BPtrs _ (item_ptrs w n p)))) q (item_ptrs w n p).
Proof.
rewrite /to_ptr_ptr /cbind /alloc; eexists; first exact: erefl.
rewrite /safe_get_ptr; case: n => [|n]; first by left; apply: size0nil; exact: size_items.
exact: block_ptrs (rcons_block _ _).
Qed.

Lemma open_at m m' m'' w l q : m' = rcons m (Some (BBytes _ (flatten l))) -> all (fun x => size x == w) l ->
  ext m' m'' -> ptrs_at m'' q (item_ptrs w (size l) (Addr (size m) 0)) -> arrays_at m'' q l.
Proof.
move=> -> Hl X Hq; exists (item_ptrs w (size l) (Addr (size m) 0)); split=> //; first exact: size_items.
move=> i Hi; rewrite nth_items //; apply: (ext_bytes X); apply: flat_at => //; exact: rcons_block.
Qed.

Lemma get_items_at m w n p (data : seq (seq byte)) : 0 < w -> size data = n -> all (fun x => size x == w) data ->
  (forall i, i < n -> bytes_at m (nth Null (item_ptrs w n p) i) (nth [::] data i)) ->
  @get_items ctx w n p m = CRet (data, m).
Proof.
move=> Hw Sd Ha H; apply: (read_arrays Hw) => //; first by rewrite size_items Sd.
by rewrite Sd.
Qed.
End Items.

Section Result.
Variables (ctx err : Type) (api : rust_api ctx err) (dollar : c_result -> seq byte).
Implicit Types (m : mem ctx).

(** What a procedure does, with its result seen through f: the text of an error comes with the address
    at which the message was. *)
Definition ndoes (A : Type) (x : cM ctx (nim_result A)) (f : A -> nim_value) m (k : nat)
  (r : outcome (result A err)) : Prop :=
  match r with
  | Ret (Ok a) => exists m', nim_map f x m = CRet (NimOk (f a), m') /\ same_native m m'
  | Ret (Err e) => exists m',
      nim_map f x m = CRet (NimErr (dollar (MkCResult StErr (Addr (size m + k) 0))), m') /\ same_native m m'
  | Panic => nim_map f x m = CAbort
  end.

Lemma ndoes_at (A : Type) (x y : cM ctx (nim_result A)) f m m1 k r : x m = y m1 -> same_native m m1 ->
  size m1 = size m + k -> ndoes y f m1 0 r -> ndoes x f m k r.
Proof.
rewrite /ndoes /nim_map {2 4 6}/cbind => E H S; rewrite S addn0; case: r => [[a|e]|].
- by move=> [m' [E1 E3]]; exists m'; rewrite /cbind E; split=> //; exact: native_trans E3.
- by move=> [m' [E1 E3]]; exists m'; rewrite /cbind E; split=> //; exact: native_trans E3.
by rewrite /cbind E.
Qed.

Lemma verify_err (A : Type) (k : cM ctx A) m s :
  verify_result dollar (MkCResult StErr (Addr (size m) 0)) k (rcons m (Some (BMsg _ s))) =
  CRet (NimErr (dollar (MkCResult StErr (Addr (size m) 0))), rcons m None).
Proof.
have E : live_block (rcons m (Some (BMsg _ s))) (size m) = Some (BMsg _ s).
  by apply/live_blockP; exact: rcons_block.
by rewrite /verify_result /= /cbind /eth_kzg_free_error_message /= /cwrite /release_msg E set_last.
Qed.

Lemma ndoes_err (A : Type) (call : cM ctx c_result) (k : cM ctx A) f m s e :
  call m = CRet (MkCResult StErr (Addr (size m) 0), rcons m (Some (BMsg _ s))) ->
  ndoes (clet r := call in verify_result dollar r k) f m 0 (Ret (Err e)).
Proof.
move=> E; exists (rcons m None); rewrite addn0 /nim_map /cbind E verify_err; split=> //.
exact: ext_native (ext_rcons _ _).
Qed.
Lemma ndoes_ok (A : Type) (call : cM ctx c_result) (k : cM ctx A) f m m' a :
  call m = CRet (MkCResult StOk Null, m') -> k m' = CRet (a, m') -> same_native m m' ->
  ndoes (clet r := call in verify_result dollar r k) f m 0 (Ret (Ok a)).
Proof. by move=> E Ek H; exists m'; rewrite /nim_map /cbind E /verify_result /= /cbind Ek. Qed.
Lemma ndoes_abort (A : Type) (call : cM ctx c_result) (k : cM ctx A) f m :
  call m = CAbort -> ndoes (clet r := call in verify_result dollar r k) f m 0 Panic.
Proof. by move=> E; rewrite /ndoes /nim_map /cbind E. Qed.
End Result.
Arguments ndoes : simpl never.

Section Procs.
Variables (ctx err : Type) (api : rust_api ctx err) (dollar : c_result -> seq byte).
Hypothesis nul : no_nul api.
Implicit Types (m : mem ctx).

Lemma nim_blob p c blob m : ctx_at m p c -> api_typed api c -> size blob = 2 ^ 17 ->
  ndoes dollar (nim_blob_to_kzg_commitment api dollar p blob) NimBytes m 2
    (ra_blob_to_kzg_commitment api c blob).
Proof.
move=> Hc T Sb; set m1 := rcons m (Some (BBytes _ blob)).
set m2 := rcons m1 (Some (BBytes _ (nseq 48 "000"%byte))).
have X1 : ext m m1 by apply: ext_rcons.
have X2 : ext m1 m2 by apply: ext_rcons.
have X := ext_trans X1 X2.
apply: (@ndoes_at _ _ _ _ _ (clet res := eth_kzg_blob_to_kzg_commitment api p (Addr (size m) 0) (Addr (size m1) 0) in
  verify_result dollar res (get_bytes NIM_BYTES48 (Addr (size m1) 0))) _ _ m2).
- exact: erefl.
- exact: ext_native X.
- by rewrite !size_rcons addn2.
have Hc2 := ext_ctx X Hc.
have Hb : bytes_at m2 (Addr (size m) 0) blob by apply: (ext_bytes X2); exact: block_bytes (rcons_block _ _).
have Ho : writable m2 (Addr (size m1) 0) 48.
  by exists (nseq 48 "000"%byte); rewrite size_nseq; split=> //; exact: block_bytes (rcons_block _ _).
case Er: (ra_blob_to_kzg_commitment api c blob) => [[com|e]|].
- have [m' [E' B U]] := C37_commit_ok Hc2 T Sb Hb Ho Er.
  apply: (ndoes_ok _ _ _ E' _ (keeps_native (unchanged_keeps U))).
  have Sc := at_commitment T Sb Er.
  have Hn : com <> [::] by move=> E0; move: Sc; rewrite E0.
  by rewrite /get_bytes /cread -[NIM_BYTES48]Sc (load_bytes_at B Hn).
- exact: (ndoes_err _ _ _ _ (C37_commit_err _ Hc2 nul Sb Hb Er)).
by apply: ndoes_abort; rewrite (commit_start _ _ Hc2 Sb Hb) Er.
Qed.

(** Memory at the native call: w, w' and n stand for 2048, 48 and 128. *)
Lemma var_prepared w w' n m :
  let m1 := rcons m (Some (BBytes ctx (nseq (n * w + n * w') "000"%byte))) in
  let pc := Addr (size m) 0 in let pp := Addr (size m) (0 + n * w) in
  exists oc op m3, [/\ ext m1 m3 /\ size m3 = size m1 + 2,
    to_ptr_ptr w n pc m1 = CRet (oc, rcons m1 (Some (BPtrs _ (item_ptrs w n pc)))) /\
    to_ptr_ptr w' n pp (rcons m1 (Some (BPtrs _ (item_ptrs w n pc)))) = CRet (op, m3),
    ptrs_at m3 oc (item_ptrs w n pc) /\ ptrs_at m3 op (item_ptrs w' n pp) &
    (forall i, i < n -> writable m3 (nth Null (item_ptrs w n pc) i) w) /\
    (forall i, i < n -> writable m3 (nth Null (item_ptrs w' n pp) i) w')].
Proof.
move=> m1 pc pp; have [oc E1 P1] := @to_ptr_ptr_at ctx w n pc m1; set m2 := rcons m1 _ in E1 P1 *.
have [op E2 P2] := @to_ptr_ptr_at ctx w' n pp m2; set m3 := rcons m2 _ in E2 P2 *.
have X2 : ext m1 m2 by apply: ext_rcons.
have X3 : ext m2 m3 by apply: ext_rcons.
exists oc, op, m3; have Hb : is_block m3 (size m) (BBytes _ (nseq (n * w + n * w') "000"%byte)).
  exact: ext_block (ext_trans X2 X3) (rcons_block _ _).
split.
- by split; [exact: ext_trans X2 X3|rewrite /m3 /m2 !size_rcons addn2].
- by split.
- by split; [exact: ext_ptrs X3 P1|].
split=> i Hi; rewrite nth_items //; apply: (row_writable Hb _ Hi); rewrite size_nseq.
  by rewrite add0n leq_addr.
by rewrite add0n.
Qed.

Lemma ndoes_arrays (call : cM ctx c_result) pc pp m m' cells proofs :
  call m = CRet (MkCResult StOk Null, m') -> same_native m m' ->
  size cells = 128 -> size proofs = 128 -> all (fun x => size x == 2048) cells ->
  all (fun x => size x == 48) proofs ->
  (forall i, i < 128 -> bytes_at m' (nth Null (item_ptrs 2048 128 pc) i) (nth [::] cells i)) ->
  (forall i, i < 128 -> bytes_at m' (nth Null (item_ptrs 48 128 pp) i) (nth [::] proofs i)) ->
  ndoes (err := err) dollar (clet r := call in
     verify_result dollar r (clet cells := get_items 2048 128 pc in
                clet proofs := get_items 48 128 pp in cret (cells, proofs)))
    (fun cp => NimArrays cp.1 cp.2) m 0 (Ret (Ok (cells, proofs))).
Proof.
move=> E N Sc Sp Ac Ap H1 H2; apply: (ndoes_ok _ _ _ E _ N).
rewrite (cbindE _ (@get_items_at _ _ 2048 128 pc cells isT Sc Ac H1)).
by rewrite (cbindE _ (@get_items_at _ _ 48 128 pp proofs isT Sp Ap H2)).
Qed.

Lemma nim_compute p c blob m : ctx_at m p c -> api_typed api c -> size blob = 2 ^ 17 ->
  ndoes dollar (nim_compute_cells_and_proofs api dollar p blob) (fun cp => NimArrays cp.1 cp.2) m 4
    (ra_compute api c blob).
Proof.
move=> Hc T Sb; set m1 := rcons m (Some (BBytes _ blob)).
have X1 : ext m m1 by apply: ext_rcons.
have [oc [op [m4 [[X4 S4] [E3 E4] [P1 P2] [W1 W2]]]]] := var_prepared 2048 48 128 m1.
set m2 := rcons m1 _ in X4 S4 E3 E4.
have X2 : ext m1 m2 by apply: ext_rcons.
have X := ext_trans X1 (ext_trans X2 X4).
apply: (@ndoes_at _ _ _ _ _ (clet res := eth_kzg_compute_cells_and_kzg_proofs api p (Addr (size m) 0) oc op in
  verify_result dollar res (
    clet cells := get_items 2048 128 (Addr (size m1) 0) in
    clet proofs := get_items 48 128 (Addr (size m1) (0 + 128 * 2048)) in cret (cells, proofs))) _ _ m4).
- rewrite /nim_compute_cells_and_proofs (cbindE _ (erefl : alloc (BBytes _ blob) m = CRet (Addr (size m) 0, m1))).
  have E2 : @cells_and_proofs_var ctx m1 = CRet ((Addr (size m1) 0, Addr (size m1) (0 + 128 * 2048)), m2).
    exact: erefl.
  by rewrite (cbindE _ E2) (cbindE _ E3) (cbindE _ E4).
- exact: ext_native X.
- by rewrite S4 /m2 /m1 !size_rcons; lia.
have Hc2 := ext_ctx X Hc.
have Hb : bytes_at m4 (Addr (size m) 0) blob.
  apply: (ext_bytes (ext_trans X2 X4)); exact: block_bytes (rcons_block _ _).
case Er: (ra_compute api c blob) => [[[cells proofs]|e]|].
- have [m' [E' B1 B2 U]] := C37_compute_ok Hc2 T Sb Hb P1 (size_items _ _ _) W1 P2 (size_items _ _ _) W2
    (@rows_apart (size m1) 2048 48 128 128) Er.
  have [Sc Sp Ac Ap] := at_compute T Sb Er.
  exact: ndoes_arrays E' (keeps_native (unchanged_keeps U)) Sc Sp Ac Ap B1 B2.
- exact: (ndoes_err _ _ _ _ (C37_compute_err _ _ Hc2 nul Sb Hb Er)).
by apply: ndoes_abort; rewrite (compute_start _ _ _ Hc2 Sb Hb) Er.
Qed.

Lemma nim_recover p c ids cells m : ctx_at m p c -> api_typed api c -> all (fun x => size x == 2048) cells ->
  ndoes dollar (nim_recover_cells_and_proofs api dollar p ids cells) (fun cp => NimArrays cp.1 cp.2) m 6
    (ra_recover api c ids cells).
Proof.
move=> Hc T Ac; set m0 := rcons m (Some (BU64s _ ids)); set m1 := rcons m0 (Some (BBytes _ (flatten cells))).
have X0 : ext m m0 by apply: ext_rcons.
have X1 : ext m0 m1 by apply: ext_rcons.
have [oc [op [m4 [[X4 S4] [E3 E4] [P1 P2] [W1 W2]]]]] := var_prepared 2048 48 128 m1.
set m2 := rcons m1 _ in X4 S4 E3 E4.
have X2 : ext m1 m2 by apply: ext_rcons.
have [ic E5 P5] := @to_ptr_ptr_at ctx 2048 (size cells) (Addr (size m0) 0) m4.
set m5 := rcons m4 _ in E5 P5.
have X5 : ext m4 m5 by apply: ext_rcons.
have X15 := ext_trans X2 (ext_trans X4 X5).
have X := ext_trans X0 (ext_trans X1 X15).
apply: (@ndoes_at _ _ _ _ _ (clet res := eth_kzg_recover_cells_and_proofs api p (size cells) ic
    (size ids) (safe_get_ptr (size ids) (Addr (size m) 0)) oc op in
  verify_result dollar res (
    clet cells := get_items 2048 128 (Addr (size m1) 0) in
    clet proofs := get_items 48 128 (Addr (size m1) (0 + 128 * 2048)) in cret (cells, proofs))) _ _ m5).
- rewrite /nim_recover_cells_and_proofs.
  rewrite (cbindE _ (erefl : alloc (BU64s _ ids) m = CRet (Addr (size m) 0, m0))).
  rewrite (cbindE _ (erefl : open_array cells m0 = CRet (Addr (size m0) 0, m1))).
  have E2 : @cells_and_proofs_var ctx m1 = CRet ((Addr (size m1) 0, Addr (size m1) (0 + 128 * 2048)), m2).
    exact: erefl.
  by rewrite (cbindE _ E2) (cbindE _ E3) (cbindE _ E4) (cbindE _ E5).
- exact: ext_native X.
- by rewrite /m5 size_rcons S4 /m2 /m1 /m0 !size_rcons; lia.
have Hc2 := ext_ctx X Hc.
have Hi : u64s_at m5 (safe_get_ptr (size ids) (Addr (size m) 0)) ids.
  apply: (ext_u64s (ext_trans X1 X15)); exact: safe_u64s (rcons_block _ _).
have Hd : arrays_at m5 ic cells := open_at erefl Ac X15 P5.
case Er: (ra_recover api c ids cells) => [[[cells' proofs']|e]|].
- have [m' [E' B1 B2 U]] := C37_recover_ok Hc2 T Ac Hd Hi (ext_ptrs X5 P1) (size_items _ _ _)
    (fun i Hi => ext_writable X5 (W1 i Hi)) (ext_ptrs X5 P2) (size_items _ _ _)
    (fun i Hi => ext_writable X5 (W2 i Hi)) (@rows_apart (size m1) 2048 48 128 128) Er.
  have [Sc Sp Acs Ap] := at_recover T Ac Er.
  exact: ndoes_arrays E' (keeps_native (unchanged_keeps U)) Sc Sp Acs Ap B1 B2.
- exact: (ndoes_err _ _ _ _ (C37_recover_err _ _ Hc2 nul Ac Hd Hi Er)).
by apply: ndoes_abort; rewrite (recover_start _ _ _ Hc2 Ac Hd Hi) Er.
Qed.

(** A verdict as a result. *)
Definition verdict (r : outcome (result unit err)) : outcome (result bool err) :=
  match r with
  | Ret (Ok _) => Ret (Ok true)
  | Ret (Err e) => if ra_invalid_proof api e then Ret (Ok false) else Ret (Err e)
  | Panic => Panic
  end.

Lemma nim_verify p c coms ids cells proofs m : ctx_at m p c ->
  all (fun x => size x == 48) coms -> all (fun x => size x == 2048) cells -> all (fun x => size x == 48) proofs ->
  ndoes dollar (nim_verify_cell_kzg_proof_batch api dollar p coms ids cells proofs) NimBool m 8
    (verdict (ra_verify api c coms ids cells proofs)).
Proof.
move=> Hc A1 A2 A3; set m1 := rcons m (Some (BBytes _ (flatten coms))).
set m2 := rcons m1 (Some (BU64s _ ids)); set m3 := rcons m2 (Some (BBytes _ (flatten cells))).
set m4 := rcons m3 (Some (BBytes _ (flatten proofs))); set m5 := rcons m4 (Some (BBool _ false)).
have X1 : ext m m1 by apply: ext_rcons.
have X2 : ext m1 m2 by apply: ext_rcons.
have X3 : ext m2 m3 by apply: ext_rcons.
have X4 : ext m3 m4 by apply: ext_rcons.
have X5 : ext m4 m5 by apply: ext_rcons.
have [pc E6 P6] := @to_ptr_ptr_at ctx 2048 (size cells) (Addr (size m2) 0) m5; set m6 := rcons m5 _ in E6 P6.
have [pp E7 P7] := @to_ptr_ptr_at ctx 48 (size proofs) (Addr (size m3) 0) m6; set m7 := rcons m6 _ in E7 P7.
have [pm E8 P8] := @to_ptr_ptr_at ctx 48 (size coms) (Addr (size m) 0) m7; set m8 := rcons m7 _ in E8 P8.
have X6 : ext m5 m6 by apply: ext_rcons.
have X7 : ext m6 m7 by apply: ext_rcons.
have X8 : ext m7 m8 by apply: ext_rcons.
have X58 := ext_trans X6 (ext_trans X7 X8).
have X48 := ext_trans X5 X58.
have X38 := ext_trans X4 X48.
have X28 := ext_trans X3 X38.
have X18 := ext_trans X2 X28.
have X := ext_trans X1 X18.
apply: (@ndoes_at _ _ _ _ _ (clet res := eth_kzg_verify_cell_kzg_proof_batch api p (size coms) pm
    (size ids) (safe_get_ptr (size ids) (Addr (size m1) 0)) (size cells) pc (size proofs) pp (Addr (size m4) 0) in
  verify_result dollar res (cread (fun m => load_bool m (Addr (size m4) 0)))) _ _ m8).
- rewrite /nim_verify_cell_kzg_proof_batch.
  rewrite (cbindE _ (erefl : open_array coms m = CRet (Addr (size m) 0, m1))).
  rewrite (cbindE _ (erefl : alloc (BU64s _ ids) m1 = CRet (Addr (size m1) 0, m2))).
  rewrite (cbindE _ (erefl : open_array cells m2 = CRet (Addr (size m2) 0, m3))).
  rewrite (cbindE _ (erefl : open_array proofs m3 = CRet (Addr (size m3) 0, m4))).
  rewrite (cbindE _ (erefl : alloc (BBool _ false) m4 = CRet (Addr (size m4) 0, m5))).
  by rewrite (cbindE _ E6) (cbindE _ E7) (cbindE _ E8).
- exact: ext_native X.
- by rewrite /m8 /m7 /m6 /m5 /m4 /m3 /m2 /m1 !size_rcons; lia.
have Hc2 := ext_ctx X Hc.
have H1 : arrays_at m8 pm coms := open_at erefl A1 X18 P8.
have H2 : u64s_at m8 (safe_get_ptr (size ids) (Addr (size m1) 0)) ids.
  apply: (ext_u64s X28); exact: safe_u64s (rcons_block _ _).
have H3 : arrays_at m8 pc cells := open_at erefl A2 X38 (ext_ptrs (ext_trans X7 X8) P6).
have H4 : arrays_at m8 pp proofs := open_at erefl A3 X48 (ext_ptrs X8 P7).
have H5 : bool_at m8 (Addr (size m4) 0) false.
  by exists (size m4) => //; exact: ext_block X58 (rcons_block _ _).
rewrite /verdict; case Er: (ra_verify api c coms ids cells proofs) => [[[]|e]|].
- have [m' [E' B U]] := C37_verify_true Hc2 A1 H1 H2 A2 H3 A3 H4 H5 Er.
  by apply: (ndoes_ok _ _ _ E' _ (bool_native H5 B U)); rewrite /cread (load_bool_at B).
- case Ei: (ra_invalid_proof api e).
    have [m' [E' B U]] := C37_verify_false Hc2 A1 H1 H2 A2 H3 A3 H4 H5 Er Ei.
    by apply: (ndoes_ok _ _ _ E' _ (bool_native H5 B U)); rewrite /cread (load_bool_at B).
  exact: (ndoes_err _ _ _ _ (C37_verify_err Hc2 A1 H1 H2 A2 H3 A3 H4 H5 nul Er (negbT Ei))).
by apply: ndoes_abort; rewrite (verify_start _ Hc2 A1 H1 H2 A2 H3 A3 H4 H5) Er.
Qed.
End Procs.
