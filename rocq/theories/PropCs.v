(** Properties of the C# object (C41, C46). *)

From Coq Require Import NArith Init.Byte.
From mathcomp Require Import ssreflect ssrfun ssrbool eqtype ssrnat seq.
From mathcomp Require Import zify_ssreflect.
From Verif Require Import Base Bytes Eip7594 CMem CApi SpecC CProofs CCallProofs PropC CsApi SpecCs CsProofs CsMoved.

Set Implicit Arguments.
Unset Strict Implicit.
Unset Printing Implicit Defensive.

Section C41.
Variables (ctx err : Type) (api : rust_api ctx err).
Hypothesis nul : no_nul api.
Implicit Types (m : mem ctx) (state : option ctx).
Local Notation gc := (@no_gc ctx).

(** The field of the object: the address of a context, or null. *)
Definition field_at m (field : ptr) state : Prop :=
  if state is Some c then ctx_at m field c else field = Null.

Lemma exec_map (A : Type) p (f : A -> cs_value) (x : cM ctx (cs_out A)) m e : does x f m e ->
  match e with
  | EReturn v => exists2 m', cs_map p f x m = CRet ((p, CsReturn v), m') & same_native m m'
  | EThrow ex => exists2 m', cs_map p f x m = CRet ((p, CsThrow ex), m') & same_native m m'
  | EAbort => cs_map p f x m = CAbort
  end.
Proof.
case: e => [v|ex|]; rewrite /does /cs_map /cbind.
- by move=> [a [m' [-> <- N]]]; exists m'.
- by move=> [m' [-> N]]; exists m'.
by move=> ->.
Qed.

Definition is_dispose (x : cs_method) : bool := if x is Dispose then true else false.

(** Every method other than Dispose does what [cs_behaves] says; the field, the contexts and the
    messages are as before: an error message that was made has been freed. *)
Theorem C41_call p state x e m : field_at m p state -> (forall c, state = Some c -> api_typed api c) ->
  ~~ is_dispose x -> cs_behaves api state x e ->
  match e with
  | EReturn v => exists2 m', cs_exec api gc p x m = CRet ((p, CsReturn v), m') & same_native m m'
  | EThrow ex => exists2 m', cs_exec api gc p x m = CRet ((p, CsThrow ex), m') & same_native m m'
  | EAbort => cs_exec api gc p x m = CAbort
  end.
Proof.
move=> Hf T Hx B.
have Throw (A : Type) (f : A -> cs_value) ex (y : cM ctx (cs_out A)) : y = cret (CsThrow ex) ->
    exists2 m', cs_map p f y m = CRet ((p, CsThrow ex), m') & same_native m m'.
  by move=> ->; exact: (exec_map p (does_throw f m ex)).
case: B Hx => [|blob H|blob H|coms ids cells proofs i H|coms ids cells proofs i H1 H|
  coms ids cells proofs i H1 H2 H|ids cells i H|blob H|blob H|coms ids cells proofs H1 H2 H3|ids cells H] // _.
- by apply: Throw; rewrite /cs_blob_to_kzg_commitment; move/eqP: H => ->.
- by apply: Throw; rewrite /cs_compute_cells_and_kzg_proofs; move/eqP: H => ->.
- by apply: Throw; exact: check_bad H.
- by apply: Throw; rewrite /cs_verify_cell_kzg_proof_batch (check_good _ _ H1); exact: check_bad H.
- apply: Throw; rewrite /cs_verify_cell_kzg_proof_batch (check_good _ _ H1) (check_good _ _ H2).
  exact: check_bad H.
- by apply: Throw; exact: check_bad H.
- have Hg : collector gc by move=> pinned m1; split.
  case: state Hf T => [c Hf T|-> T]; last exact: (exec_map Null (does_blob_null api Hg m H)).
  exact: (exec_map p (does_blob nul Hg Hf (T c erefl) H)).
- case: state Hf T => [c Hf T|-> T]; last exact: (exec_map Null (does_compute_null api m H)).
  exact: (exec_map p (does_compute nul Hf (T c erefl) H)).
- case: state Hf T => [c Hf T|-> T]; last exact: (exec_map Null (does_verify_null api ids m H1 H2 H3)).
  exact: (exec_map p (does_verify nul ids Hf H1 H2 H3)).
case: state Hf T => [c Hf T|-> T]; last exact: (exec_map Null (does_recover_null api ids m H)).
exact: (exec_map p (does_recover nul ids Hf (T c erefl) H)).
Qed.

(** Dispose frees the context of the object and nothing else; once disposed it does nothing. *)
Theorem C41_dispose p state m : field_at m p state ->
  exists m', [/\ cs_exec api gc p Dispose m = CRet ((Null, CsReturn CsVoid), m'),
    size m' = size m & forall b, nth None m' b = if Addr b 0 == p then None else nth None m b].
Proof.
rewrite /cs_exec /cs_dispose /eth_kzg_das_context_free /is_null.
case: state => [c [b -> Hb]|->]; last by exists m; split=> // b.
have [Hlt Eb] := Hb; exists (set_nth None m b None); split.
- by rewrite /= /cbind /cwrite /release_ctx; move/live_blockP: Hb => ->.
- by rewrite size_set_nth; apply/maxn_idPr.
move=> i; rewrite nth_set_nth /=; congr (if _ then _ else _).
by apply/eqP/eqP=> [->|[]].
Qed.

Lemma behaves_total state x : exists e, cs_behaves api state x e.
Proof.
have W n l : (exists i, first_wrong n l i) \/ all_right n l.
  by have := first_bad_lengthP n 0 l; case: first_bad_length => [i [j _ H]|H]; [left; exists j|right].
case: x => [|blob|blob|coms ids cells proofs|ids cells].
- by eexists; constructor.
- by case: (size blob =P 2 ^ 17) => H; eexists; [exact: BBlob|exact: BBlobLength].
- by case: (size blob =P 2 ^ 17) => H; eexists; [exact: BCompute|exact: BComputeLength].
- case: (W 2048 cells) => [[i H]|H1]; first by eexists; exact: BVerifyCell H.
  case: (W 48 proofs) => [[i H]|H2]; first by eexists; exact: BVerifyProof H.
  case: (W 48 coms) => [[i H]|H3]; first by eexists; exact: BVerifyCommitment H.
  by eexists; exact: BVerify.
case: (W 2048 cells) => [[i H]|H1]; first by eexists; exact: BRecoverCell H.
by eexists; exact: BRecover.
Qed.

(** [cs_program] speaks about every program. *)
Theorem C41_every_program state xs : exists rs aborted, cs_program api state xs rs aborted.
Proof.
elim: xs state => [|x xs IH] state; first by exists [::], false; constructor.
have [[v|e|] B] := behaves_total state x; have [rs [ab P]] := IH (after state x).
- by exists (CsReturn v :: rs), ab; constructor.
- by exists (CsThrow e :: rs), ab; constructor.
by exists [::], true; constructor.
Qed.

Lemma field_after p state x m m' : ~~ is_dispose x -> field_at m p state -> same_native m m' ->
  field_at m' p (after state x).
Proof.
move=> Hx Hf N; rewrite (_ : after state x = state); last by case: x Hx.
by case: state Hf => [c H|] //; exact: native_ctx N H.
Qed.

(** Dispose frees the block of the context. *)
Definition disposed_of (p : ptr) m m' : Prop :=
  forall b blk, ~~ caller_block blk -> is_block m' b blk <-> is_block m b blk /\ Addr b 0 <> p.


Lemma dispose_native p m m1 : size m1 = size m ->
  (forall b, nth None m1 b = if Addr b 0 == p then None else nth None m b) -> disposed_of p m m1.
Proof.
move=> S E b blk Hc; rewrite /is_block S E; case: (Addr b 0 =P p) => H; last by split=> [[]|[[]]].
by split=> [[_]|[_]].
Qed.
Lemma disposed_null m m' : disposed_of Null m m' -> same_native m m'.
Proof. by move=> H b blk Hc; rewrite H //; split=> [[]|]. Qed.
Lemma disposed_then p m m1 m' : disposed_of p m m1 -> same_native m1 m' -> disposed_of p m m'.
Proof. by move=> H N b blk Hc; rewrite N // H. Qed.
Lemma then_disposed p m m1 m' : same_native m m1 -> disposed_of p m1 m' -> disposed_of p m m'.
Proof. by move=> N H b blk Hc; rewrite H // N. Qed.

Lemma run_after p x r m p1 m1 xs : cs_exec api gc p x m = CRet ((p1, r), m1) ->
  cs_run api gc p (x :: xs) m =
  (clet crs := cs_run api gc p1 xs in cret (crs.1, r :: crs.2)) m1.
Proof. by move=> E; rewrite /= {1}/cbind E. Qed.

Lemma run_spec p state xs rs aborted m : field_at m p state ->
  (forall c, state = Some c -> api_typed api c) -> cs_program api state xs rs aborted ->
  if aborted then cs_run api gc p xs m = CAbort
  else exists p' m', cs_run api gc p xs m = CRet ((p', rs), m') /\
    if has is_dispose xs then p' = Null /\ disposed_of p m m' else p' = p /\ same_native m m'.
Proof.
move=> Hf T P; elim: P p m Hf T => {state xs rs aborted} [state|state x xs v rs aborted B P IH|
  state x xs e rs aborted B P IH|state x xs B] p m Hf T.
- by exists p, m.
- case Hx: (is_dispose x).
    case: x Hx B P IH => // _ B P IH; have [m1 [E S N]] := C41_dispose Hf.
    have D := dispose_native S N.
    have {}E : cs_exec api gc p Dispose m = CRet ((Null, CsReturn v), m1) by inversion B.
    have T1 c : after state Dispose = Some c -> api_typed api c by [].
    rewrite (run_after _ E); have := IH Null m1 erefl T1; case: aborted P IH => P IH.
      by rewrite /cbind => ->.
    case=> // p' [m' [E' H]]; exists p', m'; rewrite /cbind E'; split=> //.
    case: ifP H => _ [-> H]; split=> //; last exact: disposed_then H.
    exact: disposed_then (disposed_null H).
  have [m1 E N] := C41_call Hf T (negbT Hx) B; rewrite (run_after _ E).
  have Hf1 := field_after (negbT Hx) Hf N.
  have T1 c : after state x = Some c -> api_typed api c.
    by case: x Hx {B P IH E Hf1} => // *; apply: T.
  have := IH p m1 Hf1 T1; rewrite /= Hx /=; case: aborted P IH => P IH; first by rewrite /cbind => ->.
  case=> p' [m' [E' H]]; exists p', m'; rewrite /cbind E'; split=> //.
  case: ifP H => _ [-> H]; split=> //; [exact: then_disposed N H|exact: native_trans N H].
- case Hx: (is_dispose x); first by case: x Hx B {P IH} => // _ B; inversion B.
  have [m1 E N] := C41_call Hf T (negbT Hx) B; rewrite (run_after _ E).
  have Hf1 := field_after (negbT Hx) Hf N.
  have T1 c : after state x = Some c -> api_typed api c.
    by case: x Hx {B P IH E Hf1} => // *; apply: T.
  have := IH p m1 Hf1 T1; rewrite /= Hx /=; case: aborted P IH => P IH; first by rewrite /cbind => ->.
  case=> p' [m' [E' H]]; exists p', m'; rewrite /cbind E'; split=> //.
  case: ifP H => _ [-> H]; split=> //; [exact: then_disposed N H|exact: native_trans N H].
case Hx: (is_dispose x); first by case: x Hx B => // _ B; inversion B.
by have /= E := C41_call Hf T (negbT Hx) B; rewrite /= /cbind E.
Qed.

(** A program that makes an object and calls methods on it: the process aborts, or every method does
    what it should. In the end no error message is left, and the context is left if and only if there
    was no call of Dispose. There is never undefined behaviour such as freeing a context twice. *)
Theorem C41_program use_precomp num_threads c methods rs aborted m0 :
  ra_new api use_precomp num_threads = Ret c -> api_typed api c ->
  cs_program api (Some c) methods rs aborted ->
  let program := clet p := cs_new api use_precomp num_threads in cs_run api gc p methods in
  if aborted then program m0 = CAbort
  else exists p m, program m0 = CRet ((p, rs), m) /\
    if has is_dispose methods then p = Null /\ same_native m0 m
    else ctx_at m p c /\ same_native (rcons m0 (Some (BCtx c))) m.
Proof.
move=> En T P; set m1 := rcons m0 (Some (BCtx c)); set q := Addr (size m0) 0.
have Hq : ctx_at m1 q c by exists (size m0) => //; exact: rcons_block.
rewrite /= /cbind /cs_new /eth_kzg_das_context_new /cbind /crust En /=.
have := @run_spec q (Some c) methods rs aborted m1 Hq _ P; case: aborted P => P; first by apply=> ? [<-].
case=> [? [<-] //|p [m [E H]]]; exists p, m; split=> //.
case: ifP H => _ [-> H]; split=> //; last exact: native_ctx H Hq.
move=> b blk Hc; rewrite H // /is_block /m1 size_rcons nth_rcons; split=> [[[Hb Eb] Hn]|[Hb Eb]].
  move: Eb; case: ltnP => Hlt //; case: eqP => // Hb2; by case: Hn; rewrite Hb2.
by rewrite Hb ltnS ltnW //; split=> // -[Eb2]; move: Hb; rewrite Eb2 ltnn.
Qed.

(** After Dispose a call with arrays of the right lengths ends the process; there is no exception. *)
Theorem C41_after_dispose_refuted use_precomp num_threads c blob m0 :
  ra_new api use_precomp num_threads = Ret c -> size blob = 2 ^ 17 ->
  exists methods, methods = [:: Dispose; BlobToKzgCommitment blob] /\
  (clet p := cs_new api use_precomp num_threads in cs_run api gc p methods) m0 = CAbort.
Proof.
move=> En Sb; exists [:: Dispose; BlobToKzgCommitment blob]; split=> //.
set m1 := rcons m0 (Some (BCtx c)); set q := Addr (size m0) 0.
have Hq : ctx_at m1 q c by exists (size m0) => //; exact: rcons_block.
have [m2 [E _ _]] := @C41_dispose q (Some c) m1 Hq.
have E0 : cs_new api use_precomp num_threads m0 = CRet (q, m1).
  by rewrite /cs_new /eth_kzg_das_context_new /cbind /crust En.
have E1 : cs_run api gc Null [:: BlobToKzgCommitment blob] m2 = CAbort.
  rewrite /cs_run {1}/cbind.
  by have -> := @C41_call Null None (BlobToKzgCommitment blob) EAbort m2 erefl
    (fun c (e : None = Some c) => False_ind _ (eq_ind None (fun x => if x is Some _ then False else True) I _ e))
    isT (BBlob api None Sb).
by rewrite (cbindE _ E0) (run_after _ E) /cbind E1.
Qed.
End C41.

Section C46.
Variables (ctx err : Type) (api : rust_api ctx err).
Implicit Types (m : mem ctx).

(** BlobToKzgCommitment: whatever the collector does. *)
Theorem C46_blob_pinned gc p c blob m : collector gc -> no_nul api -> api_typed api c -> ctx_at m p c ->
  size blob = 2 ^ 17 ->
  match ra_blob_to_kzg_commitment api c blob with
  | Ret (Ok com) => exists2 m', cs_blob_to_kzg_commitment api gc p blob m = CRet (CsReturn com, m') &
                      same_native m m'
  | Ret (Err e) => exists2 m', cs_blob_to_kzg_commitment api gc p blob m =
                     CRet (CsThrow (FromBindings (ra_debug api e)), m') & same_native m m'
  | Panic => cs_blob_to_kzg_commitment api gc p blob m = CAbort
  end.
Proof.
move=> Hg N T Hc Sb; have := does_blob N Hg Hc T Sb.
case: (ra_blob_to_kzg_commitment api c blob) => [[com|e]|]; rewrite /does /from_native.
- by move=> [a [m' [E [<-] H]]]; exists m'.
- by move=> [m' [E H]]; exists m'.
exact: id.
Qed.

(** The other methods: there is a collector with which every good call has undefined behaviour. *)
Theorem C46_moved_refuted : exists gc, [/\ collector gc,
  forall p c blob m cp, ctx_at m p c -> api_typed api c -> size blob = 2 ^ 17 ->
    ra_compute api c blob = Ret (Ok cp) -> cs_compute_cells_and_kzg_proofs api gc p blob m = CUB,
  forall p c ids cells m, ctx_at m p c -> all_right 2048 cells -> cells <> [::] ->
    cs_recover_cells_and_kzg_proofs api gc p ids cells m = CUB &
  forall p c coms ids cells proofs m, ctx_at m p c -> all_right 2048 cells -> all_right 48 proofs ->
    all_right 48 coms -> coms <> [::] ->
    cs_verify_cell_kzg_proof_batch api gc p coms ids cells proofs m = CUB].
Proof.
exists (@mover ctx); split; first exact: mover_collector.
- by move=> p c blob m cp Hc T Sb Er; exact: (compute_moved Hc T Sb Er).
- by move=> p c ids cells m Hc R Hn; exact: (recover_moved api ids Hc R Hn).
by move=> p c coms ids cells proofs m Hc R1 R2 R3 Hn; exact: (verify_moved api ids Hc R1 R2 R3 Hn).
Qed.
End C46.
