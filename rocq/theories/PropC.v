(** Properties of the C interface: results and buffers (C37) and the life of contexts and
    messages (C38). *)

From Coq Require Import ZArith NArith Init.Byte Strings.Byte.
From mathcomp Require Import ssreflect ssrfun ssrbool eqtype ssrnat seq ssralg.
From Verif Require Import Base Bytes SpecFr FrEnv Fr FixedBaseMSM FK20Verifier Eip7594 Eip7594Proofs.
From Verif Require Import SpecVerify ApiEip PropProver PropRecover PropVerify.
From Verif Require Import CMem CApi SpecC CProofs CCallProofs.

Set Implicit Arguments.
Unset Strict Implicit.
Unset Printing Implicit Defensive.

Import GRing.Theory.

Section C37.
Variables (ctx err : Type) (api : rust_api ctx err).
Implicit Types (m : mem ctx) (p : ptr) (c : ctx).

(** Whatever the arguments and the memory: a call that returns gives Ok and a null message, or Err
    and a new message; in the second case all memory that was there before is unchanged. *)
Theorem C37_status call m r m' : c_exec api call m = CRet (VResult r, m') ->
  (cr_status r = StOk /\ cr_error_msg r = Null /\ size m' = size m) \/
  (cr_status r = StErr /\ cr_error_msg r = Addr (size m) 0 /\
   exists s, m' = rcons m (Some (BMsg _ s))).
Proof.
case/exec_result=> [[-> [S _]]|[e [-> ->]]]; [by left|right; split=> //; split=> //].
by exists (ra_debug api e).
Qed.

(** ** eth_kzg_blob_to_kzg_commitment *)
Theorem C37_commit_ok m p c blob data out com : ctx_at m p c -> api_typed api c ->
  size data = 2 ^ 17 -> bytes_at m blob data -> writable m out 48 ->
  ra_blob_to_kzg_commitment api c data = Ret (Ok com) ->
  exists m', [/\ eth_kzg_blob_to_kzg_commitment api p blob out m = CRet (MkCResult StOk Null, m'),
    bytes_at m' out com & unchanged_except [:: (out, 48)] m m'].
Proof.
move=> Hc T Sd Hd Ho E; have Scom := at_commitment T Sd E.
rewrite (commit_start _ _ Hc Sd Hd) E ctry_ok.
have [||m' [Es B U]] // := @store_bytes_ok _ m out com; first by move=> E0; rewrite E0 in Scom.
  by rewrite Scom.
exists m'; rewrite Scom in U; split=> //.
by rewrite /cbind /cassert Scom eqxx /write_to_slice /cwrite Es.
Qed.

(** The output pointer may be anything: it is not used. *)
Theorem C37_commit_err m p c blob data out e : ctx_at m p c -> no_nul api ->
  size data = 2 ^ 17 -> bytes_at m blob data ->
  ra_blob_to_kzg_commitment api c data = Ret (Err e) ->
  eth_kzg_blob_to_kzg_commitment api p blob out m =
  CRet (MkCResult StErr (Addr (size m) 0), rcons m (Some (BMsg _ (ra_debug api e)))).
Proof. by move=> Hc N Sd Hd E; rewrite (commit_start _ _ Hc Sd Hd) E; exact: ctry_err (N e). Qed.

(** ** eth_kzg_compute_cells_and_kzg_proofs *)
Theorem C37_compute_ok m p c blob data out_cells out_proofs cps pps cells proofs :
  ctx_at m p c -> api_typed api c -> size data = 2 ^ 17 -> bytes_at m blob data ->
  ptrs_at m out_cells cps -> size cps = 128 -> (forall i, i < 128 -> writable m (nth Null cps i) 2048) ->
  ptrs_at m out_proofs pps -> size pps = 128 -> (forall i, i < 128 -> writable m (nth Null pps i) 48) ->
  disjoint_regions ([seq (q, 2048) | q <- cps] ++ [seq (q, 48) | q <- pps]) ->
  ra_compute api c data = Ret (Ok (cells, proofs)) ->
  exists m', [/\ eth_kzg_compute_cells_and_kzg_proofs api p blob out_cells out_proofs m =
      CRet (MkCResult StOk Null, m'),
    forall i, i < 128 -> bytes_at m' (nth Null cps i) (nth [::] cells i),
    forall i, i < 128 -> bytes_at m' (nth Null pps i) (nth [::] proofs i) &
    unchanged_except ([seq (q, 2048) | q <- cps] ++ [seq (q, 48) | q <- pps]) m m'].
Proof.
move=> Hc T Sd Hd H1 S1 W1 H2 S2 W2 D E; have [Sc Sp Ac Ap] := at_compute T Sd E.
rewrite (compute_start _ _ _ Hc Sd Hd) E ctry_ok.
exact: write2_at Sc Sp Ac Ap H1 S1 H2 S2 W1 W2 D.
Qed.

Theorem C37_compute_err m p c blob data out_cells out_proofs e : ctx_at m p c -> no_nul api ->
  size data = 2 ^ 17 -> bytes_at m blob data -> ra_compute api c data = Ret (Err e) ->
  eth_kzg_compute_cells_and_kzg_proofs api p blob out_cells out_proofs m =
  CRet (MkCResult StErr (Addr (size m) 0), rcons m (Some (BMsg _ (ra_debug api e)))).
Proof. by move=> Hc N Sd Hd E; rewrite (compute_start _ _ _ Hc Sd Hd) E; exact: ctry_err (N e). Qed.

(** ** eth_kzg_recover_cells_and_proofs *)
Theorem C37_recover_ok m p c cells cs indices ks out_cells out_proofs cps pps cells' proofs' :
  ctx_at m p c -> api_typed api c ->
  all (fun x => size x == 2048) cs -> arrays_at m cells cs -> u64s_at m indices ks ->
  ptrs_at m out_cells cps -> size cps = 128 -> (forall i, i < 128 -> writable m (nth Null cps i) 2048) ->
  ptrs_at m out_proofs pps -> size pps = 128 -> (forall i, i < 128 -> writable m (nth Null pps i) 48) ->
  disjoint_regions ([seq (q, 2048) | q <- cps] ++ [seq (q, 48) | q <- pps]) ->
  ra_recover api c ks cs = Ret (Ok (cells', proofs')) ->
  exists m', [/\ eth_kzg_recover_cells_and_proofs api p (size cs) cells (size ks) indices out_cells out_proofs m =
      CRet (MkCResult StOk Null, m'),
    forall i, i < 128 -> bytes_at m' (nth Null cps i) (nth [::] cells' i),
    forall i, i < 128 -> bytes_at m' (nth Null pps i) (nth [::] proofs' i) &
    unchanged_except ([seq (q, 2048) | q <- cps] ++ [seq (q, 48) | q <- pps]) m m'].
Proof.
move=> Hc T Acs Hcs Hks H1 S1 W1 H2 S2 W2 D E; have [Sc Sp Ac Ap] := at_recover T Acs E.
rewrite (recover_start _ _ _ Hc Acs Hcs Hks) E ctry_ok.
exact: write2_at Sc Sp Ac Ap H1 S1 H2 S2 W1 W2 D.
Qed.

Theorem C37_recover_err m p c cells cs indices ks out_cells out_proofs e :
  ctx_at m p c -> no_nul api ->
  all (fun x => size x == 2048) cs -> arrays_at m cells cs -> u64s_at m indices ks ->
  ra_recover api c ks cs = Ret (Err e) ->
  eth_kzg_recover_cells_and_proofs api p (size cs) cells (size ks) indices out_cells out_proofs m =
  CRet (MkCResult StErr (Addr (size m) 0), rcons m (Some (BMsg _ (ra_debug api e)))).
Proof.
by move=> Hc N Acs Hcs Hks E; rewrite (recover_start _ _ _ Hc Acs Hcs Hks) E; exact: ctry_err (N e).
Qed.

(** ** eth_kzg_verify_cell_kzg_proof_batch *)
Section Verify.
Variables (m : mem ctx) (p : ptr) (c : ctx) (commitments indices cells proofs verified : ptr).
Variables (coms : seq (seq byte)) (ks : seq N) (cs ps : seq (seq byte)) (old : bool).
Hypothesis Hc : ctx_at m p c.
Hypothesis S1 : all (fun x => size x == 48) coms.
Hypothesis H1 : arrays_at m commitments coms.
Hypothesis H2 : u64s_at m indices ks.
Hypothesis S3 : all (fun x => size x == 2048) cs.
Hypothesis H3 : arrays_at m cells cs.
Hypothesis S4 : all (fun x => size x == 48) ps.
Hypothesis H4 : arrays_at m proofs ps.
Hypothesis H5 : bool_at m verified old.
Local Notation call := (eth_kzg_verify_cell_kzg_proof_batch api p (size coms) commitments
  (size ks) indices (size cs) cells (size ps) proofs verified m).
Local Notation rust := (ra_verify api c coms ks cs ps).

Theorem C37_verify_true : rust = Ret (Ok tt) ->
  exists m', [/\ call = CRet (MkCResult StOk Null, m'), bool_at m' verified true &
    unchanged_except_bool verified m m'].
Proof.
move=> E; rewrite (verify_start _ Hc S1 H1 H2 S3 H3 S4 H4 H5) E /= ctry_ok.
exact: store_bool_at H5.
Qed.
Theorem C37_verify_false e : rust = Ret (Err e) -> ra_invalid_proof api e ->
  exists m', [/\ call = CRet (MkCResult StOk Null, m'), bool_at m' verified false &
    unchanged_except_bool verified m m'].
Proof.
move=> E He; rewrite (verify_start _ Hc S1 H1 H2 S3 H3 S4 H4 H5) E /= He ctry_ok.
exact: store_bool_at H5.
Qed.
Theorem C37_verify_err e : no_nul api -> rust = Ret (Err e) -> ~~ ra_invalid_proof api e ->
  call = CRet (MkCResult StErr (Addr (size m) 0), rcons m (Some (BMsg _ (ra_debug api e)))).
Proof.
move=> N E /negbTE He; rewrite (verify_start _ Hc S1 H1 H2 S3 H3 S4 H4 H5) E /= He.
exact: ctry_err (N e).
Qed.
End Verify.
End C37.

(** ** The library of Eip7594.v behind the C interface *)
Lemma call_types0 : call_types [::] [::] [::].
Proof. by []. Qed.
Lemma nseq_blob : exists b : seq byte, size b = (2 ^ 17)%N.
Proof. exact: (ex_intro _ _ (size_nseq (2 ^ 17) "000"%byte)). Qed.

Section C37Eip.
Variables (G1 G2 GT : lmodType Fr) (env : das_env G1 G2 GT).
Hypothesis std : env_std env.
Variables (g1s : seq G1) (g2s : seq G2) (ctx : das_context G1 G2).
Hypothesis S1 : size g1s = (2 ^ 12)%N.
Hypothesis S2 : size g2s = 65%N.
Hypothesis Hctx : das_context_new fr_params eip7594_consts g1s g2s PrecompNo = Ret ctx.
Variables (new : bool -> N -> outcome (das_context G1 G2)) (debug : error -> seq byte).
Local Notation api := (eip7594_api env new debug).

Lemma output_sizes f cells proofs : (cells, proofs) = output_of_poly env g1s f ->
  [/\ size cells = 128, size proofs = 128, all (fun x => size x == 2048) cells &
      all (fun x => size x == 48) proofs].
Proof.
case=> -> ->; split; [exact: size_mkseq|exact: size_mkseq| |].
  by apply/allP => x /mapP[k _ ->]; rewrite size_cell_of_poly.
by apply/allP => x /mapP[k _ ->]; rewrite (es_g1_size std).
Qed.

(** The sizes that Rust's types promise are those of the results. *)
Theorem C37_eip7594_typed : api_typed api ctx.
Proof.
split=> [blob com Sb|blob cells proofs Sb|idx cells cells' proofs Sc].
- rewrite -[ra_blob_to_kzg_commitment _ _ _]/(blob_to_kzg_commitment env eip7594_consts ctx blob).
  case: (compute_cases std S1 S2 Hctx Sb) => [[f Hf [_ E]]|[i _ [_ E]]]; rewrite E // => -[<-].
  exact: (es_g1_size std).
- move/(compute_ok std S1 S2 Hctx Sb) => [f _]; exact: output_sizes.
move/(@recover_ok _ _ _ env std g1s g2s ctx S1 S2 Hctx idx cells (cells', proofs) Sc) => [_ [f _]]; exact: output_sizes.
Qed.

Lemma runs_blob blob : size blob = (2 ^ 17)%N ->
  (exists y, ra_blob_to_kzg_commitment api ctx blob = Ret y) /\ (exists y, ra_compute api ctx blob = Ret y).
Proof.
move=> Sb; have [H1 H2 _ _] := C18_no_panic std S1 S2 Hctx [::] [::] Sb (isT : cells_shape [::]) call_types0.
exact: (conj H1 H2).
Qed.
Lemma runs_recover idx cells : all (fun x => size x == 2048) cells ->
  exists y, ra_recover api ctx idx cells = Ret y.
Proof.
move=> Sc; have [blob Sb] := nseq_blob.
have [_ _ H _] := C18_no_panic std S1 S2 Hctx idx [::] Sb Sc call_types0; exact: H.
Qed.
Lemma runs_verify coms ks cs ps : all (fun x => size x == 48) coms ->
  all (fun x => size x == 2048) cs -> all (fun x => size x == 48) ps ->
  exists y, ra_verify api ctx coms ks cs ps = Ret y.
Proof.
move=> A1 A2 A3; have [blob Sb] := nseq_blob.
have [_ _ _ H] := C18_no_panic std S1 S2 Hctx [::] ks Sb (isT : cells_shape [::]) (And3 A1 A2 A3); exact: H.
Qed.

(** The C calls with valid arguments always return: they neither abort nor run into undefined
    behaviour. *)
Theorem C37_eip7594_returns h m call : no_nul api ->
  (forall u n, new u n = Ret ctx) ->
  good_history api h m -> allowed h m call -> exists v m', c_exec api call m = CRet (v, m').
Proof.
move=> Hnul Hnew Hh Ha; have I := good_invariant Hh.
have T u n x : new u n = Ret x -> api_typed api x by rewrite Hnew => -[<-]; exact: C37_eip7594_typed.
have Hub := @allowed_not_ub _ _ api h m call T I Ha.
suff : c_exec api call m <> CAbort by case: (c_exec api call m) Hub => [[v m']||] // _ _; exists v, m'.
have cmapA (A B : Type) (f : A -> B) (e : cM _ A) : e m <> CAbort -> cmap f e m <> CAbort.
  by rewrite /cmap /cbind; case: (e m) => [[]||].
have ctryA (A : Type) (x : outcome (result A error)) (k : A -> cM _ c_result) :
  (exists y, x = Ret y) -> (forall a, x = Ret (Ok a) -> k a m <> CAbort) -> ctry api x k m <> CAbort.
  case=> -[a|e] -> Hk; first exact: (Hk a erefl).
  by rewrite (ctry_err _ _ (Hnul e)).
have ctxE p c : p \in live_ctx h -> ctx_at m p c -> c = ctx.
  move=> Hp Hc; have [c' Hc' [u [n]]] := live_ctx_at I Hp.
  rewrite -[ra_new _ _ _]/(new u n) Hnew => -[E]; rewrite E.
  case: Hc => b Eb Hb; case: Hc' => b'; rewrite Eb => -[E'] Hb'; subst b'.
  by have [] := is_block_inj Hb Hb'.
have ctx_live p : p \in live_ctx h -> ctx_at m p ctx.
  by move=> Hp; have [c Hc _] := live_ctx_at I Hp; rewrite -(ctxE _ _ Hp Hc).
have Tc := C37_eip7594_typed.
case: call Ha Hub => [u n|p|p|p blob out|p blob oc op|p n cells k ids oc op|p a coms b ids c cells d proofs v] Ha Hub.
- by apply: cmapA; rewrite /eth_kzg_das_context_new /cbind /crust -[ra_new _ _ _]/(new u n) Hnew.
- by apply: cmapA; rewrite /eth_kzg_das_context_free /cwrite; case: is_null => //; case: release_ctx.
- by apply: cmapA; rewrite /eth_kzg_free_error_message /cwrite; case: is_null => //; case: release_msg.
- case: Ha => /ctx_live Hc [data [Sd Hd]] Wo; apply: cmapA.
  rewrite (commit_start _ _ Hc Sd Hd); apply: ctryA.
    exact: (proj1 (runs_blob Sd)).
  move=> com /(at_commitment Tc Sd) Scom; rewrite /cbind /cassert Scom eqxx /write_to_slice /cwrite.
  by case: store_bytes.
- case: Ha => /ctx_live Hc [data [Sd Hd]] Wc Wp; apply: cmapA.
  rewrite (compute_start _ _ _ Hc Sd Hd); apply: ctryA.
    exact: (proj2 (runs_blob Sd)).
  move=> [cells proofs] /(at_compute Tc Sd)[Sc Sp Ac Ap].
  by have [m' ->] := write2_ok Sc Sp Ac Ap Wc Wp.
- case: Ha => /ctx_live Hc [cs [<- Acs] Hcs] [ks <- Hks] Wc Wp; apply: cmapA.
  rewrite (recover_start _ _ _ Hc Acs Hcs Hks); apply: ctryA.
    exact: runs_recover Acs.
  move=> [cells' proofs] /(at_recover Tc Acs)[Sc Sp Ac Ap].
  by have [m' ->] := write2_ok Sc Sp Ac Ap Wc Wp.
case: Ha => /ctx_live Hc [cms [<- A1] H1] [ks <- Hks] [cs [<- A2] H2] [[ps [<- A3] H3] [y Hv]].
apply: cmapA; rewrite (verify_start _ Hc A1 H1 Hks A2 H2 A3 H3 Hv); apply: ctryA.
  by have [y' ->] := runs_verify ks A1 A2 A3; eexists.
by move=> ok _; have [m' [-> _ _]] := store_bool_at ok Hv.
Qed.
End C37Eip.

Section C38.
Variables (ctx err : Type) (api : rust_api ctx err).
Hypothesis typed : forall u n c, ra_new api u n = Ret c -> api_typed api c.

(** After any history of a caller that follows the protocol, the next call that follows it does not
    use freed memory, free twice, or access memory that is not there. *)
Theorem C38_safe h m call : good_history api h m -> allowed h m call -> c_exec api call m <> CUB.
Proof. by move=> /good_invariant; exact: allowed_not_ub. Qed.

(** The live contexts and messages of the library are exactly those handed out and not freed,
    each handed out once. *)
Theorem C38_accounting h m : good_history api h m ->
  [/\ forall b, (exists c, is_block m b (BCtx c)) <-> Addr b 0 \in live_ctx h,
      forall b, (exists s, is_block m b (BMsg _ s)) <-> Addr b 0 \in live_msg h,
      uniq (live_ctx h) & uniq (live_msg h)].
Proof. by case/good_invariant=> I1 I2 I3 I4 I5 I6 _; split. Qed.

(** When everything was freed, nothing allocated by the library is left. *)
Theorem C38_no_leak h m : good_history api h m -> live_ctx h = [::] -> live_msg h = [::] ->
  forall b blk, is_block m b blk -> caller_block blk.
Proof.
move=> /good_invariant I Ec Em b [c|s|s|s|s|v] Hb //.
  by have := proj1 (in_ctx I b) (ex_intro _ c Hb); rewrite Ec.
by have := proj1 (in_msg I b) (ex_intro _ s Hb); rewrite Em.
Qed.

Theorem C38_free_null m : c_exec api (FreeCtx Null) m = CRet (VUnit, m) /\
  c_exec api (FreeMsg Null) m = CRet (VUnit, m).
Proof. by []. Qed.

(** The protocol for freeing is also necessary: freeing anything else, such as a context a second
    time, is undefined behaviour. *)
Theorem C38_free_ctx_iff h m p : good_history api h m ->
  c_exec api (FreeCtx p) m <> CUB <-> p = Null \/ p \in live_ctx h.
Proof.
move=> Hh; split; last exact: (@C38_safe h m (FreeCtx p) Hh).
case E: (c_exec api (FreeCtx p) m) => [[v m']||] // _; last first.
  by move: E; rewrite /c_exec /cmap /cbind /eth_kzg_das_context_free /cwrite; case: is_null => //; case: release_ctx.
have [_ [[-> _]|[b [c [-> Hb _]]]]] := free_ctx_exec E; [by left|right].
by apply/(in_ctx (good_invariant Hh)); exists c.
Qed.
Theorem C38_free_msg_iff h m p : good_history api h m ->
  c_exec api (FreeMsg p) m <> CUB <-> p = Null \/ p \in live_msg h.
Proof.
move=> Hh; split; last exact: (@C38_safe h m (FreeMsg p) Hh).
case E: (c_exec api (FreeMsg p) m) => [[v m']||] // _; last first.
  by move: E; rewrite /c_exec /cmap /cbind /eth_kzg_free_error_message /cwrite; case: is_null => //; case: release_msg.
have [_ [[-> _]|[b [s [-> Hb _]]]]] := free_msg_exec E; [by left|right].
by apply/(in_msg (good_invariant Hh)); exists s.
Qed.

Theorem C38_double_free p m v m' : p <> Null ->
  (c_exec api (FreeCtx p) m = CRet (v, m') -> c_exec api (FreeCtx p) m' = CUB) /\
  (c_exec api (FreeMsg p) m = CRet (v, m') -> c_exec api (FreeMsg p) m' = CUB).
Proof.
move=> Hp; split=> H.
  have [_ [[//]|[b [c [Ep [Hb _] ->]]]]] := free_ctx_exec H.
  rewrite Ep /c_exec /cmap /cbind /eth_kzg_das_context_free /= /cwrite /release_ctx.
  by rewrite /live_block (oget_nth None) ?size_set // nth_set_nth /= eqxx.
have [_ [[//]|[b [c [Ep [Hb _] ->]]]]] := free_msg_exec H.
rewrite Ep /c_exec /cmap /cbind /eth_kzg_free_error_message /= /cwrite /release_msg.
by rewrite /live_block (oget_nth None) ?size_set // nth_set_nth /= eqxx.
Qed.

(** The context argument of a call. *)
Definition call_ctx (c : c_call) : option ptr :=
  match c with
  | Commit p _ _ | Compute p _ _ _ | Recover p _ _ _ _ _ _ | Verify p _ _ _ _ _ _ _ _ _ => Some p
  | _ => None
  end.

(** A null context aborts the process; one that is not live is undefined behaviour. *)
Theorem C38_null_context call m : call_ctx call = Some Null -> c_exec api call m = CAbort.
Proof.
by case: call => // [p blob out|p blob oc op|p n cells k ids oc op|p a coms b ids c cells d proofs w] [->].
Qed.
Theorem C38_use_after_free h m call p : good_history api h m -> call_ctx call = Some p ->
  p <> Null -> p \notin live_ctx h -> c_exec api call m = CUB.
Proof.
move=> Hh Hcall Hp Hn.
have E : load_ctx m p = None.
  case: p Hp Hn {Hcall} => [//|b [|off]] // _ Hn; rewrite /load_ctx.
  case Eb: (live_block m b) => [[c| | | | |]|] //; move: Eb => /live_blockP Eb.
  by case/negP: Hn; apply/(in_ctx (good_invariant Hh)); exists c.
have Z : is_null p = false by apply/eqP.
have K (k : ctx -> cM ctx c_result) :
    (clet _ := cassert (~~ is_null p) in clet c := deref_ctx p in k c) m = CUB.
  by rewrite /cbind /cassert Z /= /deref_ctx /cread E.
have KV (e : cM ctx c_result) : e m = CUB -> cmap VResult e m = CUB by rewrite /cmap /cbind => ->.
by case: call Hcall => // [p' blob out|p' blob oc op|p' n cells k ids oc op|p' a coms b ids c cells d proofs w]
  [->]; apply: KV; exact: K.
Qed.
End C38.
