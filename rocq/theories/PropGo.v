(** Properties of the Go binding (C42, C47). *)

From Coq Require Import NArith Init.Byte.
From mathcomp Require Import ssreflect ssrfun ssrbool eqtype ssrnat seq.
From mathcomp Require Import zify_ssreflect.
From Verif Require Import Base Bytes Eip7594 CMem CApi SpecC CProofs CCallProofs PropC CsApi SpecCs CsProofs GoApi.

Set Implicit Arguments.
Unset Strict Implicit.
Unset Printing Implicit Defensive.

Section Go.
Variables (ctx err : Type) (api : rust_api ctx err).
Hypothesis nul : no_nul api.
Implicit Types (m : mem ctx).

(** The error messages and the contexts in memory. *)
Definition is_msg (x : option (block ctx)) : bool := if x is Some (BMsg _) then true else false.
Definition is_ctx (x : option (block ctx)) : bool := if x is Some (BCtx _) then true else false.
Definition messages m : nat := count is_msg m.
Definition contexts m : nat := count is_ctx m.

Lemma count_nth (q : option (block ctx) -> bool) m n : q None = false -> size m <= n ->
  count q m = count (fun b => q (nth None m b)) (iota 0 n).
Proof.
move=> H /subnKC <-; rewrite iotaD count_cat -[in LHS](mkseq_nth None m) count_map.
rewrite [X in _ = _ + X](eq_in_count (a2 := pred0)) ?count_pred0 ?addn0 //.
by move=> b; rewrite mem_iota => /andP[Hb _]; rewrite nth_default.
Qed.
Lemma native_count (q : option (block ctx) -> bool) m m' : q None = false ->
  (forall blk, caller_block blk -> q (Some blk) = false) -> same_native m m' -> size m <= size m' ->
  count q m' = count q m.
Proof.
move=> H0 Hc N S; rewrite (count_nth H0 S) (count_nth H0 (leqnn _)); apply: eq_in_count => b.
rewrite mem_iota add0n => /= Hb.
case E': (nth None m' b) => [blk|]; last first.
  case E: (nth None m b) => [blk|//]; case Cb: (caller_block blk); first by rewrite Hc.
  have Hlt : b < size m by rewrite ltnNge; apply/negP=> /(nth_default None); rewrite E.
  by have [_ /(_ (conj Hlt E)) [_]] := N b blk (negbT Cb); rewrite E'.
case Cb: (caller_block blk); last first.
  by have [/(_ (conj Hb E')) [_ ->] _] := N b blk (negbT Cb).
rewrite Hc //; case E: (nth None m b) => [blk2|//]; case Cb2: (caller_block blk2); first by rewrite Hc.
have Hlt : b < size m by rewrite ltnNge; apply/negP=> /(nth_default None); rewrite E.
have [_ /(_ (conj Hlt E)) [_]] := N b blk2 (negbT Cb2); rewrite E' => -[Eb].
by move: Cb; rewrite Eb Cb2.
Qed.
Lemma native_counts m m' : same_native m m' -> size m <= size m' ->
  messages m' = messages m /\ contexts m' = contexts m.
Proof. by move=> N S; split; apply: native_count => // -[]. Qed.

(** ** C42 *)
Theorem C42_length collected p blob m : size blob <> 2 ^ 17 ->
  go_blob_to_kzg_commitment api collected p blob m = CRet ((None, Some InvalidBlobSize), m).
Proof. by move=> /eqP H; rewrite /go_blob_to_kzg_commitment H. Qed.

Lemma go_prepared p blob m : size blob = 2 ^ 17 ->
  exists m1 b1 b2, [/\ ext m m1, is_block m1 b1 (BBytes _ blob),
    is_block m1 b2 (BBytes _ (nseq 48 "000"%byte)) &
    forall collected, go_blob_to_kzg_commitment api collected p blob m =
    (clet _ := if collected then finalizer p else cret tt in
     clet _ := eth_kzg_blob_to_kzg_commitment api p (Addr b1 0) (Addr b2 0) in
     clet out := cread (fun m => load_bytes m (Addr b2 0) 48) in cret (Some out, None)) m1].
Proof.
move=> Sb; set m1 := rcons m (Some (BBytes _ blob)); set m2 := rcons m1 (Some (BBytes _ (nseq 48 "000"%byte))).
exists m2, (size m), (size m1); split.
- exact: ext_trans (@ext_rcons _ m (Some (BBytes _ blob)) isT) (@ext_rcons _ m1 (Some (BBytes _ _)) isT).
- exact: ext_block (@ext_rcons _ m1 (Some (BBytes _ _)) isT) (rcons_block _ _).
- exact: rcons_block.
by move=> collected; rewrite /go_blob_to_kzg_commitment (if_neq _ _ Sb).
Qed.

(** An accepted blob: the commitment. *)
Theorem C42_accepted p c blob com m : ctx_at m p c -> api_typed api c -> size blob = 2 ^ 17 ->
  ra_blob_to_kzg_commitment api c blob = Ret (Ok com) ->
  exists m', [/\ go_blob_to_kzg_commitment api false p blob m = CRet ((Some com, None), m'), ctx_at m' p c,
    messages m' = messages m & contexts m' = contexts m].
Proof.
move=> Hc T Sb Er; have [m1 [b1 [b2 [X B1 B2 E]]]] := go_prepared p m Sb.
have Hc1 := ext_ctx X Hc.
have W : writable m1 (Addr b2 0) 48.
  by exists (nseq 48 "000"%byte); rewrite size_nseq; split=> //; exact: block_bytes.
have [m' [E' Ho U]] := C37_commit_ok Hc1 T Sb (block_bytes B1) W Er.
have N := native_trans (ext_native X) (keeps_native (unchanged_keeps U)).
have [Nm Nc] : messages m' = messages m /\ contexts m' = contexts m.
  by apply: native_counts N _; case: U => -> _; exact: ext_size X.
have Sc := at_commitment T Sb Er.
have El : load_bytes m' (Addr b2 0) 48 = Some com.
  by rewrite -Sc load_bytes_at //; case: (com) Sc.
exists m'; split=> //; last exact: native_ctx N Hc.
by rewrite E (cbindE _ (erefl : cret tt m1 = CRet (tt, m1))) (cbindE _ E') /cbind /cread El.
Qed.

(** A blob that the library rejects: 48 zero bytes and no error. The message is not freed. *)
Theorem C42_rejected_refuted p c blob e m : ctx_at m p c -> size blob = 2 ^ 17 ->
  ra_blob_to_kzg_commitment api c blob = Ret (Err e) ->
  exists m', [/\ go_blob_to_kzg_commitment api false p blob m = CRet ((Some (nseq 48 "000"%byte), None), m'),
    ctx_at m' p c, messages m' = (messages m).+1 & contexts m' = contexts m].
Proof.
move=> Hc Sb Er; have [m1 [b1 [b2 [X B1 B2 E]]]] := go_prepared p m Sb.
have Hc1 := ext_ctx X Hc.
have [Nm Nc] := native_counts (ext_native X) (ext_size X).
have E' := C37_commit_err (Addr b2 0) Hc1 nul Sb (block_bytes B1) Er.
set m2 := rcons m1 _ in E'.
have Hr : forall b blk, is_block m1 b blk -> is_block m2 b blk.
  by move=> b blk [Hb Eb]; rewrite /m2 /is_block size_rcons nth_rcons Hb Eb ltnS ltnW.
exists m2; split.
- have B2' := block_bytes (Hr _ _ B2).
  have El : load_bytes m2 (Addr b2 0) 48 = Some (nseq 48 "000"%byte).
    by rewrite -{1}(size_nseq 48 "000"%byte) load_bytes_at.
  by rewrite E (cbindE _ (erefl : cret tt m1 = CRet (tt, m1))) (cbindE _ E') /cbind /cread El.
- by case: Hc1 => b -> Hb; exists b => //; exact: Hr.
- by rewrite -Nm /messages /m2 -cats1 count_cat /= addn1.
by rewrite -Nc /contexts /m2 -cats1 count_cat /= !addn0.
Qed.

(** ** C47 *)

(** What a call returns, if the context is there. *)
Definition accepted c (blob : seq byte) : option (seq byte) :=
  if ra_blob_to_kzg_commitment api c blob is Ret (Ok com) then Some com else None.
Definition go_returns c (blob : seq byte) : option (seq byte) * option go_error :=
  if size blob == 2 ^ 17 then
    (Some (if accepted c blob is Some com then com else nseq 48 "000"%byte), None)
  else (None, Some InvalidBlobSize).
Definition go_leaks c (blob : seq byte) : bool := (size blob == 2 ^ 17) && ~~ accepted c blob.

Section Programs.
Variable c : ctx.
Hypothesis T : api_typed api c.
Hypothesis P : forall blob, size blob = 2 ^ 17 -> ra_blob_to_kzg_commitment api c blob <> Panic.

Lemma one_call p blob m : ctx_at m p c ->
  exists m', [/\ go_blob_to_kzg_commitment api false p blob m = CRet (go_returns c blob, m'), ctx_at m' p c,
    messages m' = messages m + go_leaks c blob & contexts m' = contexts m].
Proof.
move=> Hc; rewrite /go_returns /go_leaks /accepted; case: eqP => Sb; last first.
  by exists m; rewrite addn0; split=> //; exact: C42_length.
case Er: (ra_blob_to_kzg_commitment api c blob) => [[com|e]|]; last by case: (P Sb).
  by have [m' [E1 E2 E3 E4]] := C42_accepted Hc T Sb Er; exists m'; rewrite addn0.
by have [m' [E1 E2 E3 E4]] := C42_rejected_refuted Hc Sb Er; exists m'; rewrite addn1.
Qed.

Lemma all_calls p rest blobs when m : ctx_at m p c -> (when = InLastCall -> rest <> [::]) ->
  exists m', [/\ go_commits api when p (blobs ++ rest) m =
      (clet rs := go_commits api when p rest in cret ([seq go_returns c x | x <- blobs] ++ rs)) m',
    ctx_at m' p c, messages m' = messages m + count (go_leaks c) blobs & contexts m' = contexts m].
Proof.
move=> Hc Hw; elim: blobs m Hc => [|x blobs IH] m Hc.
  exists m; rewrite addn0; split=> //=.
  by rewrite /cbind; case: (go_commits api when p rest m) => [[]||].
have [m1 [E1 Hc1 M1 C1]] := one_call x Hc; have [m2 [E2 Hc2 M2 C2]] := IH m1 Hc1.
exists m2; split=> //; [|by rewrite M2 M1 /= addnA|by rewrite C2].
have -> : go_commits api when p ((x :: blobs) ++ rest) m =
  (clet r := go_blob_to_kzg_commitment api false p x in
   clet rs := go_commits api when p (blobs ++ rest) in cret (r :: rs)) m.
  have Hi : in_call when ((x :: blobs) ++ rest) = false.
    case: when Hw {IH E2} => //= Hr.
    by rewrite eqSS size_cat addn_eq0; case: rest Hr => [/(_ erefl)|y rest _] //; rewrite andbF.
  by rewrite cat_cons /= -cat_cons Hi.
rewrite (cbindE _ E1) {1}/cbind E2 /cbind; case: (go_commits api when p rest m2) => [[]||] //.
Qed.

(** The finalizer runs after the last call, or never: all is well. *)
Theorem C47_program blobs m : ra_new api true 1 = Ret c ->
  (exists m', [/\ go_program api AfterLastCall blobs m = CRet ([seq go_returns c x | x <- blobs], m'),
     contexts m' = contexts m & messages m' = messages m + count (go_leaks c) blobs]) /\
  (exists m', [/\ go_program api Never blobs m = CRet ([seq go_returns c x | x <- blobs], m'),
     contexts m' = (contexts m).+1 & messages m' = messages m + count (go_leaks c) blobs]).
Proof.
move=> En; set m1 := rcons m (Some (BCtx c)); set p := Addr (size m) 0.
have Hc : ctx_at m1 p c by exists (size m) => //; exact: rcons_block.
have E0 : new_prover_context api m = CRet (p, m1).
  by rewrite /new_prover_context /eth_kzg_das_context_new /cbind /crust En.
have M1 : messages m1 = messages m by rewrite /messages /m1 -cats1 count_cat /= !addn0.
have C1 : contexts m1 = (contexts m).+1 by rewrite /contexts /m1 -cats1 count_cat /= addn1.
split.
  have [m2 [E2 [b Ep Hb] M2 C2]] := @all_calls p [::] blobs AfterLastCall m1 Hc (fun e => False_rect _ ltac:(discriminate e)).
  have [Hlt Eb] := Hb; exists (set_nth None m2 b None); split.
  - rewrite /go_program (cbindE _ E0) -[blobs in LHS]cats0 E2 /= Ep.
    rewrite /finalizer /eth_kzg_das_context_free /= /cbind /cwrite /release_ctx.
    by move/live_blockP: Hb => ->; rewrite /= cats0.
  - have : contexts m2 = (contexts (set_nth None m2 b None)).+1; last by rewrite C2 C1 => -[].
    rewrite /contexts set_nthE Hlt -[in LHS](cat_take_drop b m2) (drop_nth None Hlt) Eb.
    by rewrite !count_cat /= !add0n addnCA add1n.
  rewrite -M1 -M2 /messages set_nthE Hlt -[in RHS](cat_take_drop b m2) (drop_nth None Hlt) Eb.
  by rewrite !count_cat.
have [m2 [E2 _ M2 C2]] := @all_calls p [::] blobs Never m1 Hc (fun e => False_rect _ ltac:(discriminate e)).
exists m2; rewrite C2 M2 M1; split=> //.
by rewrite /go_program (cbindE _ E0) -[blobs in LHS]cats0 E2 /= /cbind /= cats0.
Qed.

(** It runs during the last call: the context is used after it was freed. *)
Theorem C47_collected_refuted blobs blob m : ra_new api true 1 = Ret c -> size blob = 2 ^ 17 ->
  go_program api InLastCall (rcons blobs blob) m = CUB.
Proof.
move=> En Sb; set m1 := rcons m (Some (BCtx c)); set p := Addr (size m) 0.
have Hc : ctx_at m1 p c by exists (size m) => //; exact: rcons_block.
have E0 : new_prover_context api m = CRet (p, m1).
  by rewrite /new_prover_context /eth_kzg_das_context_new /cbind /crust En.
have [m2 [E2 Hc2 _ _]] := @all_calls p [:: blob] blobs InLastCall m1 Hc (fun _ (e : [:: blob] = [::]) => False_rect _ ltac:(discriminate e)).
rewrite /go_program (cbindE _ E0) -cats1 E2.
have -> // : (clet rs := go_commits api InLastCall p [:: blob] in
   cret ([seq go_returns c x | x <- blobs] ++ rs)) m2 =
  (clet rs := (clet r := go_blob_to_kzg_commitment api true p blob in cret [:: r]) in
   cret ([seq go_returns c x | x <- blobs] ++ rs)) m2.
  by rewrite /= /cbind; case: (go_blob_to_kzg_commitment api true p blob m2) => [[]||].
have [m3 [b1 [b2 [X B1 B2 E]]]] := go_prepared p m2 Sb.
have [b Ep Hb] := ext_ctx X Hc2; have [Hlt Eb] := Hb.
rewrite /cbind E /= /cbind Ep /finalizer /eth_kzg_das_context_free /= /cwrite /release_ctx.
move/live_blockP: Hb => ->; rewrite /eth_kzg_blob_to_kzg_commitment /= /cbind /cassert /=.
rewrite /deref_ctx /cread /load_ctx.
have -> // : live_block (set_nth None m3 b None) b = None.
case L: (live_block _ _) => [blk|//]; move/live_blockP: L => [_].
by rewrite nth_set_nth /= eqxx.
Qed.
End Programs.
End Go.
