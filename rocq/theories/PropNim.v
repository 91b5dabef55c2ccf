(** Properties of the Nim procedures (C50). *)

From Coq Require Import NArith Init.Byte.
From mathcomp Require Import ssreflect ssrfun ssrbool eqtype ssrnat seq.
From mathcomp Require Import zify_ssreflect.
From Verif Require Import Base Bytes Eip7594 CMem CApi SpecC CProofs CCallProofs PropC CsApi SpecCs CsProofs PropCs.
From Verif Require Import NimApi NimProofs.

Set Implicit Arguments.
Unset Strict Implicit.
Unset Printing Implicit Defensive.

(** ** Specification *)

(** The types of the Nim parameters: array[131072, byte], array[2048, byte] and array[48, byte]. *)
Definition nim_typed (call : nim_call) : Prop :=
  match call with
  | NimCommit blob | NimCompute blob => size blob = 2 ^ 17
  | NimVerify commitments _ cells proofs =>
      [/\ all_right 48 commitments, all_right 2048 cells & all_right 48 proofs]
  | NimRecover _ cells => all_right 2048 cells
  end.

(** Which procedure it is. *)
Definition nim_kind (call : nim_call) : nat :=
  match call with NimCommit _ => 0 | NimCompute _ => 1 | NimVerify _ _ _ _ => 2 | NimRecover _ _ => 3 end.

(** What the library says to a call: a value, an error, or a panic. *)
Inductive nim_answer (err : Type) := AValue (v : nim_value) | AError (e : err) | APanic.
Arguments AValue {err}.
Arguments APanic {err}.

Section Spec.
Variables (ctx err : Type) (api : rust_api ctx err).

Definition answer_of (A : Type) (f : A -> nim_value) (r : outcome (result A err)) : nim_answer err :=
  match r with Ret (Ok a) => AValue (f a) | Ret (Err e) => AError e | Panic => APanic end.

Definition nim_answers (c : ctx) (call : nim_call) : nim_answer err :=
  match call with
  | NimCommit blob => answer_of NimBytes (ra_blob_to_kzg_commitment api c blob)
  | NimCompute blob => answer_of (fun cp => NimArrays cp.1 cp.2) (ra_compute api c blob)
  | NimRecover ids cells => answer_of (fun cp => NimArrays cp.1 cp.2) (ra_recover api c ids cells)
  | NimVerify commitments ids cells proofs =>
    match ra_verify api c commitments ids cells proofs with
    | Ret (Ok _) => AValue (NimBool true)
    | Ret (Err e) => if ra_invalid_proof api e then AValue (NimBool false) else AError e
    | Panic => APanic
    end
  end.

(** The results of a list of calls; it ends early when the process aborts. *)
Inductive nim_runs (c : ctx) : seq nim_call -> seq (nim_result nim_value) -> bool -> Prop :=
| NEnd : nim_runs c [::] [::] false
| NValue x xs v rs aborted : nim_answers c x = AValue v -> nim_runs c xs rs aborted ->
    nim_runs c (x :: xs) (NimOk v :: rs) aborted
| NError x xs e text rs aborted : nim_answers c x = AError e -> nim_runs c xs rs aborted ->
    nim_runs c (x :: xs) (NimErr text :: rs) aborted
| NPanic x xs : nim_answers c x = APanic -> nim_runs c (x :: xs) [::] true.
End Spec.

(** ** Theorems *)

Section C50.
Variables (ctx err : Type) (api : rust_api ctx err) (dollar : c_result -> seq byte).
Hypothesis nul : no_nul api.
Implicit Types (m : mem ctx).

(** The offset, in blocks, of the message of an error. *)
Definition nim_blocks (call : nim_call) : nat := nth 0 [:: 2; 4; 8; 6] (nim_kind call).

Lemma nim_call_text p c call m : ctx_at m p c -> api_typed api c -> nim_typed call ->
  match nim_answers api c call with
  | AValue v => exists m', nim_exec api dollar p call m = CRet (NimOk v, m') /\ same_native m m'
  | AError _ => exists m', nim_exec api dollar p call m =
      CRet (NimErr (dollar (MkCResult StErr (Addr (size m + nim_blocks call) 0))), m') /\ same_native m m'
  | APanic => nim_exec api dollar p call m = CAbort
  end.
Proof.
move=> Hc T; case: call => [blob|blob|coms ids cells proofs|ids cells] /=.
- move=> Sb; have := nim_blob dollar nul Hc T Sb.
  by case: (ra_blob_to_kzg_commitment api c blob) => [[a|e]|].
- move=> Sb; have := nim_compute dollar nul Hc T Sb.
  by case: (ra_compute api c blob) => [[a|e]|].
- move=> [/all_rightP A1 /all_rightP A2 /all_rightP A3]; have := nim_verify dollar nul ids Hc A1 A2 A3.
  case: (ra_verify api c coms ids cells proofs) => [[[]|e]|] //=.
  by case: (ra_invalid_proof api e).
move=> /all_rightP A; have := nim_recover dollar nul ids Hc T A.
by case: (ra_recover api c ids cells) => [[a|e]|].
Qed.

(** Every call gives the answer of the library: a value, or an error as an error. The contexts and the
    messages in memory are as before, so the message of an error has been freed. There is never
    undefined behaviour; the process aborts only if the library panics. *)
Theorem C50_call p c call m : ctx_at m p c -> api_typed api c -> nim_typed call ->
  match nim_answers api c call with
  | AValue v => exists m', nim_exec api dollar p call m = CRet (NimOk v, m') /\ same_native m m'
  | AError _ => exists text m', nim_exec api dollar p call m = CRet (NimErr text, m') /\ same_native m m'
  | APanic => nim_exec api dollar p call m = CAbort
  end.
Proof.
move=> Hc T Hn; have := nim_call_text Hc T Hn; case: nim_answers => // _ H.
by eexists; exact: H.
Qed.

(** The text of an error does not tell which error it was. *)
Theorem C50_text p c call call' e e' m : ctx_at m p c -> api_typed api c ->
  nim_typed call -> nim_typed call' -> nim_kind call = nim_kind call' ->
  nim_answers api c call = AError e -> nim_answers api c call' = AError e' ->
  exists text m1 m2, nim_exec api dollar p call m = CRet (NimErr text, m1) /\
    nim_exec api dollar p call' m = CRet (NimErr text, m2).
Proof.
move=> Hc T Hn Hn' Hk E E'.
have := nim_call_text Hc T Hn; have := nim_call_text Hc T Hn'; rewrite E E' /nim_blocks -Hk.
by move=> [m2 [H2 _]] [m1 [H1 _]]; do 3 eexists; split; [exact: H1|exact: H2].
Qed.

Lemma runs_spec p c calls m : ctx_at m p c -> api_typed api c ->
  (forall i, i < size calls -> nim_typed (nth (NimCommit [::]) calls i)) ->
  exists rs aborted, nim_runs api c calls rs aborted /\
    if aborted then cmapM (nim_exec api dollar p) calls m = CAbort
    else exists m', cmapM (nim_exec api dollar p) calls m = CRet (rs, m') /\ same_native m m'.
Proof.
elim: calls m => [|x xs IH] m Hc T Hn.
  by exists [::], false; split; [exact: NEnd|exists m].
have Hx := C50_call Hc T (Hn 0 isT); rewrite /= in Hx.
have next r m1 : nim_exec api dollar p x m = CRet (r, m1) -> same_native m m1 ->
    exists rs aborted, nim_runs api c xs rs aborted /\
    if aborted then cmapM (nim_exec api dollar p) (x :: xs) m = CAbort
    else exists m', cmapM (nim_exec api dollar p) (x :: xs) m = CRet (r :: rs, m') /\ same_native m m'.
  move=> E N; have [rs [ab [R H]]] := IH m1 (native_ctx N Hc) T (fun i Hi => Hn i.+1 Hi).
  exists rs, ab; split=> //; rewrite /= {1 3}/cbind E; case: ab H {R} => [|[m' [H N']]].
    by rewrite /cbind => ->.
  by exists m'; rewrite /cbind H; split=> //; exact: native_trans N'.
case Ea: (nim_answers api c x) Hx => [v|e|].
- move=> [m1 [E N]]; have [rs [ab [R H]]] := next _ _ E N.
  by exists (NimOk v :: rs), ab; split=> //; exact: NValue R.
- move=> [text [m1 [E N]]]; have [rs [ab [R H]]] := next _ _ E N.
  by exists (NimErr text :: rs), ab; split=> //; exact: (NError text Ea R).
by move=> E; exists [::], true; split; [exact: NPanic|rewrite /= /cbind E].
Qed.

(** A program that makes a context, calls procedures, and lets go of the context: the process aborts
    where the library panics, or every call gives the answer of the library and no context or message
    is left. *)
Theorem C50_program use_precomp num_threads c calls m :
  ra_new api use_precomp num_threads = Ret c -> api_typed api c ->
  (forall i, i < size calls -> nim_typed (nth (NimCommit [::]) calls i)) ->
  exists rs aborted, nim_runs api c calls rs aborted /\
    if aborted then nim_program api dollar use_precomp num_threads calls m = CAbort
    else exists m', nim_program api dollar use_precomp num_threads calls m = CRet (rs, m') /\ same_native m m'.
Proof.
move=> En T Hn; set m1 := rcons m (Some (BCtx c)); set q := Addr (size m) 0.
have Hq : ctx_at m1 q c by exists (size m) => //; exact: rcons_block.
have E1 : new_kzg_ctx api use_precomp num_threads m = CRet (q, m1).
  by rewrite /new_kzg_ctx /eth_kzg_das_context_new /cbind /crust En.
have [rs [ab [R H]]] := runs_spec Hq T Hn; exists rs, ab; split=> //.
rewrite /nim_program (cbindE _ E1); case: ab H {R} => [H|[m2 [H N]]]; first by rewrite {1}/cbind H.
have Hb : is_block m2 (size m) (BCtx c) by apply/N => //; exact: rcons_block.
have [Hlt Eb] := Hb; exists (set_nth None m2 (size m) None); split.
  have E2 : nim_destroy q m2 = CRet (tt, set_nth None m2 (size m) None).
    by rewrite /nim_destroy /eth_kzg_das_context_free /= /cbind /cwrite /= /release_ctx; move/live_blockP: Hb => ->.
  by rewrite (cbindE _ H) (cbindE _ E2).
have S : size (set_nth None m2 (size m) None) = size m2 by rewrite size_set_nth; apply/maxn_idPr.
move=> b blk Hc; have Hm : is_block m1 b blk <-> is_block m b blk \/ b = size m /\ blk = BCtx c.
  rewrite /is_block /m1 size_rcons nth_rcons; split=> [[Hb1]|[[H1 H2]|[-> ->]]].
  - case: ltnP => Hlt1; first by left.
    by case: eqP => // -> [<-]; right.
  - by rewrite H1 ltnS ltnW.
  by rewrite ltnn eqxx.
have Hs : is_block (set_nth None m2 (size m) None) b blk <-> is_block m2 b blk /\ b <> size m.
  rewrite /is_block S nth_set_nth /=; case: eqP => [->|Hn1].
    by split=> [[]|[]].
  by split=> [[H1 H2]|[]].
split=> [/Hs [/(N _ _ Hc)/Hm [|[]] //]|Hb1].
have E2 : b <> size m by case: Hb1 => Hb1 _ E2; move: Hb1; rewrite E2 ltnn.
by apply/Hs; split=> //; apply/(N _ _ Hc)/Hm; left.
Qed.
End C50.

(** ** The message of an error does not reach the caller *)

(** A library that refuses every blob, with one of two errors. *)
Definition two_errors : rust_api unit bool :=
  MkRustApi (fun _ _ => Ret tt)
    (fun _ blob => Ret (Err (nth "000"%byte blob 0 == "000"%byte))) (fun _ _ => Panic) (fun _ _ _ => Panic)
    (fun _ _ _ _ _ => Panic) xpred0 (fun e => if e then [:: "a"%byte] else [:: "b"%byte]).
Lemma two_errors_no_nul : no_nul two_errors.
Proof. by case. Qed.
Lemma two_errors_typed : api_typed two_errors tt.
Proof. by split. Qed.
Definition full_blob (b : byte) : seq byte := nseq (2 ^ 17) b.
Lemma full_blob_size b : size (full_blob b) = 2 ^ 17.
Proof. exact: size_nseq. Qed.
Lemma nth_nseq_pos (b x : byte) n : 0 < n -> nth x (nseq n b) 0 = b.
Proof. by case: n. Qed.
Lemma full_blob_first b x : nth x (full_blob b) 0 = b.
Proof. by apply: nth_nseq_pos; rewrite expn_gt0. Qed.
Local Opaque full_blob.

Lemma two_errors_answer b : nim_answers two_errors tt (NimCommit (full_blob b)) = AError (b == "000"%byte).
Proof. by rewrite /nim_answers /= full_blob_first. Qed.

(** Claim: what a failed call returns tells the errors of the library apart. It is false, whatever text
    [$] makes of the result. *)
Theorem C50_message_refuted (dollar : c_result -> seq byte) :
  exists p m call call' e e' text m1 m2,
  [/\ [/\ ctx_at m p tt, nim_typed call & nim_typed call'],
      nim_answers two_errors tt call = AError e, nim_answers two_errors tt call' = AError e',
      ra_debug two_errors e <> ra_debug two_errors e' &
      nim_exec two_errors dollar p call m = CRet (NimErr text, m1) /\
      nim_exec two_errors dollar p call' m = CRet (NimErr text, m2)].
Proof.
have Hc : ctx_at [:: Some (BCtx tt)] (Addr 0 0) tt by exists 0.
have [t [m1 [m2 H]]] := @C50_text _ _ two_errors dollar two_errors_no_nul (Addr 0 0) tt
  (NimCommit (full_blob "000")) (NimCommit (full_blob "001")) _ _ _ Hc two_errors_typed
  (full_blob_size _) (full_blob_size _) erefl (two_errors_answer _) (two_errors_answer _).
exists (Addr 0 0), [:: Some (BCtx tt)], (NimCommit (full_blob "000")), (NimCommit (full_blob "001")).
exists true, false, t, m1, m2; split; last exact: H.
- split; [exact: Hc|exact: full_blob_size|exact: full_blob_size].
- exact: two_errors_answer.
- exact: two_errors_answer.
by [].
Qed.
