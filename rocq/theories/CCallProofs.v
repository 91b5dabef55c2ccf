(** The entry points with valid arguments, and the protocol. *)

From Coq Require Import NArith Init.Byte.
From mathcomp Require Import ssreflect ssrfun ssrbool eqtype ssrnat seq div.
From mathcomp Require Import zify_ssreflect.
From Verif Require Import Base Bytes CMem Eip7594 CApi SpecC CProofs.

Set Implicit Arguments.
Unset Strict Implicit.
Unset Printing Implicit Defensive.

Section Calls.
Variables (ctx err : Type) (api : rust_api ctx err).
Local Notation mem := (mem ctx).
Implicit Type m : mem.

Lemma disjoint_catl rs1 rs2 : disjoint_regions (rs1 ++ rs2) -> disjoint_regions rs1.
Proof.
move=> D i j b off /andP[Hij Hj]; have := D i j b off.
by rewrite Hij size_cat ltn_addr // !nth_cat Hj (ltn_trans Hij Hj); apply.
Qed.
Lemma disjoint_catr rs1 rs2 : disjoint_regions (rs1 ++ rs2) -> disjoint_regions rs2.
Proof.
move=> D i j b off /andP[Hij Hj]; have := D (size rs1 + i) (size rs1 + j) b off.
rewrite ltn_add2l Hij size_cat ltn_add2l Hj !nth_cat.
by rewrite !ltnNge !leq_addr /= !addKn; apply.
Qed.
Lemma disjoint_cross rs1 rs2 b off : disjoint_regions (rs1 ++ rs2) ->
  has (fun r => in_region r b off) rs1 -> ~~ has (fun r => in_region r b off) rs2.
Proof.
move=> D /(has_nthP (Null, 0))[i Hi Ri]; apply/hasPn => r /(nthP (Null, 0))[j Hj <-].
have := D i (size rs1 + j) b off; rewrite size_cat ltn_add2l Hj ltn_addr // !nth_cat Hi.
by rewrite ltnNge leq_addr /= addKn; apply.
Qed.

(** *** Reading the arguments *)
Lemma start m p c (k : ctx -> cM ctx c_result) : ctx_at m p c ->
  (clet _ := cassert (~~ is_null p) in clet c := deref_ctx p in k c) m = k c m.
Proof. by move=> H; rewrite /cbind /cassert (ctx_not_null H) /= (deref_ctx_at H). Qed.

Lemma commit_start m p c blob data out : ctx_at m p c -> size data = 2 ^ 17 -> bytes_at m blob data ->
  eth_kzg_blob_to_kzg_commitment api p blob out m =
  ctry api (ra_blob_to_kzg_commitment api c data) (fun com =>
    clet _ := cassert (size com == BYTES_PER_COMMITMENT) in
    clet _ := write_to_slice out com in cret with_ok) m.
Proof.
move=> Hc Sd Hd; rewrite /eth_kzg_blob_to_kzg_commitment (start _ Hc) c_blob /cbind.
by rewrite (create_array_ref_at Sd Hd).
Qed.
Lemma compute_start m p c blob data oc op : ctx_at m p c -> size data = 2 ^ 17 -> bytes_at m blob data ->
  eth_kzg_compute_cells_and_kzg_proofs api p blob oc op m =
  ctry api (ra_compute api c data) (fun cp =>
    clet _ := write_to_2d_slice 128 oc cp.1 in
    clet _ := write_to_2d_slice 128 op cp.2 in cret with_ok) m.
Proof.
move=> Hc Sd Hd; rewrite /eth_kzg_compute_cells_and_kzg_proofs (start _ Hc) c_blob c_cells /cbind.
by rewrite (create_array_ref_at Sd Hd).
Qed.
Lemma recover_start m p c cells cs ids ks oc op : ctx_at m p c ->
  all (fun x => size x == 2048) cs -> arrays_at m cells cs -> u64s_at m ids ks ->
  eth_kzg_recover_cells_and_proofs api p (size cs) cells (size ks) ids oc op m =
  ctry api (ra_recover api c ks cs) (fun cp =>
    clet _ := write_to_2d_slice 128 oc cp.1 in
    clet _ := write_to_2d_slice 128 op cp.2 in cret with_ok) m.
Proof.
move=> Hc Sd Hd Hk; rewrite /eth_kzg_recover_cells_and_proofs (start _ Hc) c_cell c_cells.
by rewrite /cbind (ptr_ptr_to_vec_at Sd Hd) (create_slice_view_u64_at Hk).
Qed.
Lemma verify_start m p c coms cms ids ks cells cs proofs ps v x : ctx_at m p c ->
  all (fun x => size x == 48) cms -> arrays_at m coms cms -> u64s_at m ids ks ->
  all (fun x => size x == 2048) cs -> arrays_at m cells cs ->
  all (fun x => size x == 48) ps -> arrays_at m proofs ps -> bool_at m v x ->
  eth_kzg_verify_cell_kzg_proof_batch api p (size cms) coms (size ks) ids (size cs) cells (size ps) proofs v m =
  ctry api (omap (verification_result_to_bool api) (ra_verify api c cms ks cs ps)) (fun ok =>
    clet _ := cwrite (store_bool v ok) in cret with_ok) m.
Proof.
move=> Hc S1 H1 Hk S2 H2 S3 H3 [b Ev Hb].
rewrite /eth_kzg_verify_cell_kzg_proof_batch (start _ Hc) c_cell.
rewrite /cbind (ptr_ptr_to_vec_at S1 H1) (create_slice_view_u64_at Hk).
rewrite (ptr_ptr_to_vec_at S2 H2) (ptr_ptr_to_vec_at S3 H3).
have -> // : deref_mut_bool v m = CRet (tt, m).
rewrite /deref_mut_bool /cbind /cread Ev /load_bool.
by have -> := proj2 (live_blockP m b _) Hb.
Qed.

(** *** After the call of Rust *)
Lemma ctry_err A e (k : A -> _) m : "000"%byte \notin ra_debug api e ->
  ctry api (Ret (Err e)) k m =
  CRet (MkCResult StErr (Addr (size m) 0), rcons m (Some (BMsg _ (ra_debug api e)))).
Proof. by move=> H; rewrite /ctry /cbind /crust /with_error /cbind /cassert H. Qed.
Lemma ctry_ok A (a : A) (k : A -> _) m : ctry api (Ret (Ok a)) k m = k a m.
Proof. by []. Qed.

Lemma write2_at m oc op cells proofs cps pps :
  size cells = 128 -> size proofs = 128 ->
  all (fun x => size x == 2048) cells -> all (fun x => size x == 48) proofs ->
  ptrs_at m oc cps -> size cps = 128 -> ptrs_at m op pps -> size pps = 128 ->
  (forall i, i < 128 -> writable m (nth Null cps i) 2048) ->
  (forall i, i < 128 -> writable m (nth Null pps i) 48) ->
  disjoint_regions ([seq (p, 2048) | p <- cps] ++ [seq (p, 48) | p <- pps]) ->
  exists m', [/\ (clet _ := write_to_2d_slice 128 oc cells in
    clet _ := write_to_2d_slice 128 op proofs in cret with_ok) m = CRet (with_ok, m'),
    forall i, i < 128 -> bytes_at m' (nth Null cps i) (nth [::] cells i),
    forall i, i < 128 -> bytes_at m' (nth Null pps i) (nth [::] proofs i) &
    unchanged_except ([seq (p, 2048) | p <- cps] ++ [seq (p, 48) | p <- pps]) m m'].
Proof.
move=> Sc Sp Ac Ap Hc Scp Hp Spp Wc Wp D.
have [m1 [E1 B1 U1]] := write_to_2d_slice_at (isT : 0 < 2048) Hc Scp Sc Ac Wc (disjoint_catl D).
have [i Hi|m2 [E2 B2 U2]] := write_to_2d_slice_at (isT : 0 < 48) (unchanged_ptrs U1 Hp) Spp Sp Ap _ (disjoint_catr D).
  by apply: (unchanged_writable U1); exact: Wp.
exists m2; split=> //; last exact: (unchanged_trans U1 U2).
  by rewrite /cbind E1 E2.
move=> i Hi; apply: (unchanged_bytes U2 (B1 i Hi)) => b off.
rewrite (eqP (all_nthP [::] Ac i _)) ?Sc // => Hin.
apply: (disjoint_cross D); apply/hasP; exists (nth Null cps i, 2048) => //.
by apply: map_f; rewrite mem_nth ?Scp.
Qed.
Lemma write2_ok m oc op cells proofs :
  size cells = 128 -> size proofs = 128 ->
  all (fun x => size x == 2048) cells -> all (fun x => size x == 48) proofs ->
  outputs_ok m oc 2048 -> outputs_ok m op 48 ->
  exists m', (clet _ := write_to_2d_slice 128 oc cells in
    clet _ := write_to_2d_slice 128 op proofs in cret with_ok) m = CRet (with_ok, m').
Proof.
move=> Sc Sp Ac Ap [cps [Hc Scp] Wc] [pps [Hp Spp] Wp].
have [m1 [E1 U1]] := write_to_2d_slice_ok (isT : 0 < 2048) Hc Scp Sc Ac Wc.
have [i Hi|m2 [E2 U2]] := write_to_2d_slice_ok (isT : 0 < 48) (unchanged_ptrs U1 Hp) Spp Sp Ap.
  by apply: (unchanged_writable U1); exact: Wp.
by exists m2; rewrite /cbind E1 E2.
Qed.
Lemma store_bool_at m v x ok : bool_at m v x ->
  exists m', [/\ (clet _ := cwrite (store_bool v ok) in cret with_ok) m = CRet (with_ok, m'),
    bool_at m' v ok & unchanged_except_bool v m m'].
Proof.
case=> b -> /[dup] [[Hb _]] /live_blockP E; exists (set_nth None m b (Some (BBool _ ok))); split.
- by rewrite /cbind /cwrite /store_bool E.
- by exists b => //; split; rewrite ?size_set // nth_set_nth /= eqxx.
split; first by rewrite size_set.
by move=> b' Hb'; rewrite nth_set_nth /=; case: eqP => // Eb; rewrite Eb in Hb'.
Qed.
End Calls.

(** ** The protocol *)
Section Protocol.
Variables (ctx err : Type) (api : rust_api ctx err).
Local Notation mem := (mem ctx).
Implicit Types (m : mem) (h : seq (c_event ctx)).

Record invariant h m : Prop := Invariant {
  in_ctx : forall b, (exists c, is_block m b (BCtx c)) <-> Addr b 0 \in live_ctx h;
  in_msg : forall b, (exists s, is_block m b (BMsg _ s)) <-> Addr b 0 \in live_msg h;
  in_ctx_addr : forall p, p \in live_ctx h -> exists b, p = Addr b 0;
  in_msg_addr : forall p, p \in live_msg h -> exists b, p = Addr b 0;
  in_ctx_uniq : uniq (live_ctx h);
  in_msg_uniq : uniq (live_msg h);
  in_ctx_new : forall b c, is_block m b (BCtx c) -> exists u n, ra_new api u n = Ret c
}.

Lemma is_block_rcons m blk b blk' : is_block (rcons m (Some blk)) b blk' <->
  is_block m b blk' \/ (b = size m /\ blk = blk').
Proof.
rewrite /is_block size_rcons nth_rcons ltnS leq_eqVlt; case: (ltngtP b (size m)) => //= H.
- by split=> [|[//|[]]]; [left|lia].
- by split=> [[//]|[[]//|[]]]; lia.
by split=> [[_ [->]]|[[]//|[_ ->]]] //; right.
Qed.
Lemma is_block_lt m b blk : is_block m b blk -> b < size m. Proof. by case. Qed.
Lemma is_block_del m b0 b blk : b0 < size m ->
  is_block (set_nth None m b0 None) b blk <-> is_block m b blk /\ b <> b0.
Proof.
move=> H; rewrite /is_block size_set // nth_set_nth /=; case: eqP => [->|Hn].
  by split=> [[]|[]].
by split=> [|[]].
Qed.

Lemma inv_keeps h h' m m' : invariant h m -> keeps m m' -> live_ctx h' = live_ctx h ->
  live_msg h' = live_msg h -> invariant h' m'.
Proof.
case=> I1 I2 I3 I4 I5 I6 I7 [S K] Ec Em; split; rewrite ?Ec ?Em //.
- move=> b; rewrite -I1; split=> -[c Hc]; exists c; exact/K.
- move=> b; rewrite -I2; split=> -[c Hc]; exists c; exact/K.
by move=> b c /K Hc; apply: I7; exact: Hc.
Qed.

Lemma inv_rcons_caller h h' m blk : invariant h m -> caller_block blk -> live_ctx h' = live_ctx h ->
  live_msg h' = live_msg h -> invariant h' (rcons m (Some blk)).
Proof.
case=> I1 I2 I3 I4 I5 I6 I7 Hb Ec Em; split; rewrite ?Ec ?Em //.
- move=> b; rewrite -I1; split=> -[c Hc]; exists c; last by apply/is_block_rcons; left.
  by case/is_block_rcons: Hc => // -[_ E]; rewrite E in Hb.
- move=> b; rewrite -I2; split=> -[c Hc]; exists c; last by apply/is_block_rcons; left.
  by case/is_block_rcons: Hc => // -[_ E]; rewrite E in Hb.
move=> b c /is_block_rcons[Hc|[_ E]]; [exact: I7 Hc|by rewrite E in Hb].
Qed.

Lemma inv_msg h h' m s : invariant h m -> live_ctx h' = live_ctx h ->
  live_msg h' = Addr (size m) 0 :: live_msg h -> invariant h' (rcons m (Some (BMsg _ s))).
Proof.
case=> I1 I2 I3 I4 I5 I6 I7 Ec Em; split; rewrite ?Ec ?Em //.
- move=> b; rewrite -I1; split=> -[c Hc]; exists c; last by apply/is_block_rcons; left.
  by case/is_block_rcons: Hc => // -[_ E].
- move=> b; rewrite in_cons; split.
    case=> s' /is_block_rcons[Hc|[-> _]]; last by rewrite eqxx.
    by apply/orP; right; apply/I2; exists s'.
  case/orP=> [/eqP[->]|/I2[s' Hs]]; first by exists s; apply/is_block_rcons; right.
  by exists s'; apply/is_block_rcons; left.
- by move=> p; rewrite in_cons => /orP[/eqP ->|/I4//]; exists (size m).
- rewrite /= I6 andbT; apply/negP => /I2[s' /is_block_lt]; by rewrite ltnn.
move=> b c /is_block_rcons[Hc|[_ E]]; [exact: I7 Hc|by []].
Qed.

Lemma inv_new h h' m c u n : invariant h m -> ra_new api u n = Ret c -> live_msg h' = live_msg h ->
  live_ctx h' = Addr (size m) 0 :: live_ctx h -> invariant h' (rcons m (Some (BCtx c))).
Proof.
case=> I1 I2 I3 I4 I5 I6 I7 Hn Em Ec; split; rewrite ?Ec ?Em //.
- move=> b; rewrite in_cons; split.
    case=> s' /is_block_rcons[Hc|[-> _]]; last by rewrite eqxx.
    by apply/orP; right; apply/I1; exists s'.
  case/orP=> [/eqP[->]|/I1[s' Hs]]; first by exists c; apply/is_block_rcons; right.
  by exists s'; apply/is_block_rcons; left.
- move=> b; rewrite -I2; split=> -[s Hc]; exists s; last by apply/is_block_rcons; left.
  by case/is_block_rcons: Hc => // -[_ E].
- by move=> p; rewrite in_cons => /orP[/eqP ->|/I3//]; exists (size m).
- rewrite /= I5 andbT; apply/negP => /I1[s' /is_block_lt]; by rewrite ltnn.
by move=> b c' /is_block_rcons[Hc|[_ [<-]]]; [exact: I7 Hc|exists u, n].
Qed.

Lemma inv_free_ctx h h' m b c : invariant h m -> is_block m b (BCtx c) ->
  live_msg h' = live_msg h -> live_ctx h' = filter (predC1 (Addr b 0)) (live_ctx h) ->
  invariant h' (set_nth None m b None).
Proof.
case=> I1 I2 I3 I4 I5 I6 I7 [Hb Eb] Em Ec.
have D := is_block_del _ _ Hb.
split; rewrite ?Ec ?Em ?filter_uniq //.
- move=> b'; rewrite mem_filter /=; split.
    case=> c' /D[Hc /eqP Hn]; rewrite /= /eq_op /= (negbTE Hn) /=; apply/I1; by exists c'.
  case/andP=> Hn /I1[c' Hc]; exists c'; apply/D; split=> //.
  by move=> E; rewrite E eqxx in Hn.
- move=> b'; rewrite -I2; split=> -[s Hs]; exists s.
    by case/D: Hs.
  by apply/D; split=> // E; move: Hs; rewrite E /is_block Eb => -[].
- by move=> p; rewrite mem_filter => /andP[_ /I3].
by move=> b' c' /D[Hc _]; exact: I7 Hc.
Qed.

Lemma inv_free_msg h h' m b s : invariant h m -> is_block m b (BMsg _ s) ->
  live_ctx h' = live_ctx h -> live_msg h' = filter (predC1 (Addr b 0)) (live_msg h) ->
  invariant h' (set_nth None m b None).
Proof.
case=> I1 I2 I3 I4 I5 I6 I7 [Hb Eb] Ec Em.
have D := is_block_del _ _ Hb.
split; rewrite ?Ec ?Em ?filter_uniq //.
- move=> b'; rewrite -I1; split=> -[c Hc]; exists c.
    by case/D: Hc.
  by apply/D; split=> // E; move: Hc; rewrite E /is_block Eb => -[].
- move=> b'; rewrite mem_filter /=; split.
    case=> c' /D[Hc /eqP Hn]; rewrite /= /eq_op /= (negbTE Hn) /=; apply/I2; by exists c'.
  case/andP=> Hn /I2[c' Hc]; exists c'; apply/D; split=> //.
  by move=> E; rewrite E eqxx in Hn.
- by move=> p; rewrite mem_filter => /andP[_ /I4].
by move=> b' c' /D[Hc _]; exact: I7 Hc.
Qed.

Lemma inv_free_caller h h' m b blk : invariant h m -> is_block m b blk -> caller_block blk ->
  live_ctx h' = live_ctx h -> live_msg h' = live_msg h -> invariant h' (set_nth None m b None).
Proof.
case=> I1 I2 I3 I4 I5 I6 I7 [Hb Eb] Cb Ec Em.
have D := is_block_del _ _ Hb.
split; rewrite ?Ec ?Em //.
- move=> b'; rewrite -I1; split=> -[c Hc]; exists c; first by case/D: Hc.
  by apply/D; split=> // E; move: Hc Cb; rewrite E /is_block Eb => -[_ [->]].
- move=> b'; rewrite -I2; split=> -[c Hc]; exists c; first by case/D: Hc.
  by apply/D; split=> // E; move: Hc Cb; rewrite E /is_block Eb => -[_ [->]].
by move=> b' c' /D[Hc _]; exact: I7 Hc.
Qed.

Lemma inv_null_free h m : invariant h m ->
  filter (predC1 Null) (live_ctx h) = live_ctx h /\ filter (predC1 Null) (live_msg h) = live_msg h.
Proof.
case=> _ _ I3 I4 _ _ _; split; apply/all_filterP/allP => p /=.
  by move/I3 => [b ->].
by move/I4 => [b ->].
Qed.

Lemma free_ctx_exec p m v m' : c_exec api (FreeCtx p) m = CRet (v, m') ->
  v = VUnit /\ ((p = Null /\ m' = m) \/
  exists b c, [/\ p = Addr b 0, is_block m b (BCtx c) & m' = set_nth None m b None]).
Proof.
rewrite /c_exec => H; have [x E ->] := cmapE H; split=> //.
move: E; rewrite /eth_kzg_das_context_free /is_null; case: eqP => [->|_]; first by case=> _ <-; left.
rewrite /cwrite /release_ctx; case: p H => [//|b [|//]] _.
case Eb: (live_block m b) => [[c| | | | |]|] // [_ <-]; right; exists b, c; split=> //.
exact/live_blockP.
Qed.
Lemma free_msg_exec p m v m' : c_exec api (FreeMsg p) m = CRet (v, m') ->
  v = VUnit /\ ((p = Null /\ m' = m) \/
  exists b s, [/\ p = Addr b 0, is_block m b (BMsg _ s) & m' = set_nth None m b None]).
Proof.
rewrite /c_exec => H; have [x E ->] := cmapE H; split=> //.
move: E; rewrite /eth_kzg_free_error_message /is_null; case: eqP => [->|_]; first by case=> _ <-; left.
rewrite /cwrite /release_msg; case: p H => [//|b [|//]] _.
case Eb: (live_block m b) => [[|s| | | |]|] // [_ <-]; right; exists b, s; split=> //.
exact/live_blockP.
Qed.

Lemma new_exec u n m v m' : c_exec api (New u n) m = CRet (v, m') ->
  exists c, [/\ ra_new api u n = Ret c, v = VPtr (Addr (size m) 0) & m' = rcons m (Some (BCtx c))].
Proof.
rewrite /c_exec => H; have [x E ->] := cmapE H.
move: E; rewrite /eth_kzg_das_context_new /cbind /crust.
by case En: (ra_new api u n) => [c|] // [<- <-]; exists c.
Qed.

Definition is_call (c : c_call) : bool :=
  match c with New _ _ | FreeCtx _ | FreeMsg _ => false | _ => true end.
Lemma call_value c m v m' : is_call c -> c_exec api c m = CRet (v, m') -> exists r, v = VResult r.
Proof.
by case: c => [u n|p|p|p blob out|p blob oc op|p n cells k ids oc op|p a coms b ids c cells d proofs w] // _ H;
  have [r _ ->] := cmapE H; exists r.
Qed.

Lemma inv_call h c m v m' : invariant h m -> c_exec api c m = CRet (v, m') ->
  invariant (Call _ c v :: h) m'.
Proof.
move=> I H; have [F1 F2] := inv_null_free I; case Hc: (is_call c).
  have [r Er] := call_value Hc H; subst v.
  have Ectx : live_ctx (Call ctx c (VResult r) :: h) = live_ctx h by case: (c) Hc.
  have Emsg : live_msg (Call ctx c (VResult r) :: h) =
    if cr_error_msg r == Null then live_msg h else cr_error_msg r :: live_msg h by case: (c) Hc.
  case: (exec_result H) => [[Er K]|[e [Er ->]]].
    by apply: (inv_keeps I K) => //; rewrite Emsg Er.
  by apply: (inv_msg _ I) => //; rewrite Emsg Er.
case: c H Hc => // [u n|p|p] H _.
- by have [c [Hn -> ->]] := new_exec H; apply: (inv_new I Hn).
- case: (free_ctx_exec H) => -> [[Ep ->]|[b [c [Ep Hb ->]]]]; rewrite Ep.
    apply: (inv_keeps I (keeps_refl _)); [exact: F1|by []].
  exact: (inv_free_ctx I Hb).
case: (free_msg_exec H) => -> [[Ep ->]|[b [s [Ep Hb ->]]]]; rewrite Ep.
  apply: (inv_keeps I (keeps_refl _)); [by []|exact: F2].
exact: (inv_free_msg I Hb).
Qed.

Lemma good_invariant h m : good_history api h m -> invariant h m.
Proof.
elim=> {h m} [|h m c v m' _ I _ H|h m blk _ I Hb|h m b blk _ I [[old Ho Co] Hb]].
- split=> [b|b|p|p|||b c] //.
  + by split=> [[c [H _]]|H]; move: H; rewrite ?ltn0 ?in_nil.
  + by split=> [[c [H _]]|H]; move: H; rewrite ?ltn0 ?in_nil.
  + by case=> H _; move: H; rewrite ltn0.
- exact: inv_call I H.
- exact: (inv_rcons_caller I Hb).
case: blk Hb => [new|] Hb; last exact: (inv_free_caller I Ho Co).
exact: (inv_keeps I (keeps_set Ho Co Hb)).
Qed.

Lemma live_ctx_at h m p : invariant h m -> p \in live_ctx h -> exists2 c, ctx_at m p c &
  exists u n, ra_new api u n = Ret c.
Proof.
move=> I Hp; have [b Eb] := in_ctx_addr I Hp; rewrite Eb in Hp *.
by have [c Hc] := proj2 (in_ctx I b) Hp; exists c; [exists b|exact: in_ctx_new I b c Hc].
Qed.

Lemma ctry_not_ub A x (k : A -> cM ctx c_result) m : (forall a, x = Ret (Ok a) -> k a m <> CUB) ->
  ctry api x k m <> CUB.
Proof.
rewrite /ctry /cbind /crust; case: x => [[a|e]|] //= Hk; first exact: Hk.
by rewrite /with_error /cbind /cassert; case: ifP.
Qed.
Lemma cmap_not_ub A B (f : A -> B) (e : cM ctx A) m : e m <> CUB -> cmap f e m <> CUB.
Proof. by rewrite /cmap /cbind; case: (e m) => [[]||]. Qed.

Lemma allowed_not_ub h m c : (forall u n x, ra_new api u n = Ret x -> api_typed api x) ->
  invariant h m -> allowed h m c -> c_exec api c m <> CUB.
Proof.
move=> T I; case: c => [u n|p|p|p blob out|p blob oc op|p n cells k ids oc op|p a coms b ids c cells d proofs v].
- by move=> _; apply: cmap_not_ub; rewrite /eth_kzg_das_context_new /cbind /crust; case: ra_new.
- move=> [->|Hp]; apply: cmap_not_ub => //; rewrite /eth_kzg_das_context_free.
  have [c [b -> /live_blockP E] _] := live_ctx_at I Hp.
  by rewrite /= /cwrite /release_ctx E.
- move=> [->|Hp]; apply: cmap_not_ub => //; rewrite /eth_kzg_free_error_message.
  have [b Ep] := in_msg_addr I Hp; rewrite Ep in Hp *.
  have [s /live_blockP E] := proj2 (in_msg I b) Hp.
  by rewrite /= /cwrite /release_msg E.
- move=> [/(live_ctx_at I)[c Hc [u [n /T Tc]]] [data [Sd Hd]] Wo]; apply: cmap_not_ub.
  rewrite (commit_start _ _ Hc Sd Hd); apply: ctry_not_ub => com /(at_commitment Tc Sd) Scom.
  rewrite /cbind /cassert Scom eqxx /write_to_slice /cwrite.
  have [||m' [-> _ _]] // := @store_bytes_ok _ m out com; first by move=> E; rewrite E in Scom.
  by rewrite Scom.
- move=> [/(live_ctx_at I)[c Hc [u [n /T Tc]]] [data [Sd Hd]] Wc Wp]; apply: cmap_not_ub.
  rewrite (compute_start _ _ _ Hc Sd Hd); apply: ctry_not_ub => -[cells proofs] /(at_compute Tc Sd)[S1 S2 A1 A2].
  by have [m' ->] := write2_ok S1 S2 A1 A2 Wc Wp.
- move=> [/(live_ctx_at I)[c Hc [u [nn /T Tc]]] [cs [<- Ac] Hcs] [ks <- Hks] Wc Wp]; apply: cmap_not_ub.
  rewrite (recover_start _ _ _ Hc Ac Hcs Hks); apply: ctry_not_ub => -[cells' proofs] /(at_recover Tc Ac)[S1 S2 A1 A2].
  by have [m' ->] := write2_ok S1 S2 A1 A2 Wc Wp.
move=> [/(live_ctx_at I)[x Hx _] [cms [<- A1] H1] [ks <- Hks] [cs [<- A2] H2] [[ps [<- A3] H3] [y Hv]]].
apply: cmap_not_ub; rewrite (verify_start _ Hx A1 H1 Hks A2 H2 A3 H3 Hv); apply: ctry_not_ub => ok _.
by have [m' [-> _ _]] := store_bool_at ok Hv.
Qed.
End Protocol.
