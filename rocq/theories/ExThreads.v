(** Concrete instances of the hypotheses of PropThreads.v. *)

From Coq Require Import NArith Init.Byte List.
From mathcomp Require Import ssreflect ssrfun ssrbool eqtype ssrnat seq.
From Verif Require Import Base Bytes Eip7594 CMem CApi SpecC CThreads SpecThreads PropC PropThreads PropThreadsReal ExC ExMSM ExCReal.

Set Implicit Arguments.
Unset Strict Implicit.
Unset Printing Implicit Defensive.

Example C62_faithful_applies : faithful toy (p_call toy).
Proof. exact: C62_faithful toy_typed. Qed.
Example C62_library_applies : faithful creal (p_call creal).
Proof. exact (@C62_library _ _ _ ex_envw creal_new real_debug ex_stdw). Qed.

(** ** Two threads commit to the same blob with the same context *)
Local Opaque nseq expn.
Definition two_mem (x : byte) : mem nat :=
  [:: Some (BCtx 5); Some (BBytes _ (nseq (2 ^ 17) x)); Some (BBytes _ (nseq 48 "000"%byte));
      Some (BBytes _ (nseq 48 "000"%byte))].
Definition to_block (b : nat) : c_call := Commit (Addr 0 0) (Addr 1 0) (Addr b 0).
Local Notation run := (run (p_call toy) (proper_start toy) (@proper_change nat)).

Lemma cmap_ret (X A B : Type) (f : A -> B) (e : cM X A) m r m' : e m = CRet (r, m') -> cmap f e m = CRet (f r, m').
Proof. by rewrite /cmap /cbind => ->. Qed.
Lemma commit_returns x b : is_block (two_mem x) b (BBytes _ (nseq 48 "000"%byte)) -> x <> "255"%byte ->
  exists m', c_exec toy (to_block b) (two_mem x) = CRet (VResult (MkCResult StOk Null), m') /\
    bytes_at m' (Addr b 0) (nseq 48 x).
Proof.
move=> Hb Hx; have Hc : ctx_at (two_mem x) (Addr 0 0) 5 by exists 0.
have Hd : bytes_at (two_mem x) (Addr 1 0) (nseq (2 ^ 17) x) by apply: bytes_block; block.
have Ho : writable (two_mem x) (Addr b 0) 48 by apply: (writable_block Hb); rewrite size_nseq.
have E : ra_blob_to_kzg_commitment toy 5 (nseq (2 ^ 17) x) = Ret (Ok (nseq 48 x)).
  by rewrite /toy /= /toy_bad nth0_nseq ?expn_gt0 //; case: eqP.
have [m' [H B _]] := C37_commit_ok Hc (toy_typed 5) (size_nseq (2 ^ 17) x) Hd Ho E.
exists m'; exact (conj (cmap_ret VResult H) B).
Qed.
Lemma region_block b b' n off : region_of (Addr b 0) n b' off -> b' = b.
Proof. by rewrite /region_of /in_region => /andP[/eqP]. Qed.
Lemma uses_commit b (m : mem nat) b' off : uses (to_block b) m b' off -> [\/ b' = 0, b' = 1 | b' = b].
Proof.
by move=> [[H|H]|H]; [apply: Or31|apply: Or32|apply: Or33]; exact: region_block H.
Qed.
Lemma commits_apart b1 b2 (m1 m2 : mem nat) : b1 <> b2 -> 1 < b1 -> apart (writes (to_block b1) m1) (uses (to_block b2) m2).
Proof.
move=> N L b o H1 H2; have E := region_block H1; have := uses_commit H2; rewrite E.
by case=> E'; rewrite E' in L N.
Qed.

(** Both have started. *)
Lemma start_two (X err : Type) (api : rust_api X err) impl m c1 c2 v1 m1 v2 m2 :
  c_exec api c1 m = CRet (v1, m1) -> c_exec api c2 m = CRet (v2, m2) ->
  apart (writes c2 m) (uses c1 m) -> apart (writes c1 m) (uses c2 m) ->
  CThreads.run impl (proper_start api) (@proper_change X) m [:: Started 1 c2 m; Started 0 c1 m]
    (MkState m (set_thread (set_thread (fun _ => Idle) 0 (Running c1 m (impl c1))) 1 (Running c2 m (impl c2)))).
Proof.
move=> E1 E2 A1 A2.
have P0 : proper_start api (MkState m (fun _ => Idle)) c1.
  by split=> [|t c' m' p] //; exists v1, m1.
have R1 := RunStart (t := 0) (RunInit impl _ (@proper_change X) m) erefl P0.
apply: (RunStart (t := 1) R1) => //; split; first by exists v2, m2.
by move=> t c' m' p /=; rewrite /set_thread; case: eqP => // _ [<- <- _].
Qed.
Definition both (x : byte) : state nat :=
  MkState (two_mem x) (set_thread (set_thread (fun _ => Idle)
      0 (Running (to_block 2) (two_mem x) (p_call toy (to_block 2))))
      1 (Running (to_block 3) (two_mem x) (p_call toy (to_block 3)))).
Lemma both_run x : x <> "255"%byte ->
  run (two_mem x) [:: Started 1 (to_block 3) (two_mem x); Started 0 (to_block 2) (two_mem x)] (both x).
Proof.
move=> Hx.
have [m2 [E2 _]] := @commit_returns x 2 (conj isT erefl) Hx.
have [m3 [E3 _]] := @commit_returns x 3 (conj isT erefl) Hx.
apply: (start_two (p_call toy) E2 E3); exact: commits_apart.
Qed.
Lemma both_0 x : st_threads (both x) 0 = Running (to_block 2) (two_mem x) (p_call toy (to_block 2)).
Proof. exact erefl. Qed.
Lemma both_1 x : st_threads (both x) 1 = Running (to_block 3) (two_mem x) (p_call toy (to_block 3)).
Proof. exact erefl. Qed.

(** Thread 0 ends, then thread 1. *)
Example C62_progress_applies x : x <> "255"%byte -> exists s v v' m,
  run (two_mem x) [:: Ended 1 (to_block 3) (two_mem x) v' (st_mem s); Ended 0 (to_block 2) (two_mem x) v m;
    Started 1 (to_block 3) (two_mem x); Started 0 (to_block 2) (two_mem x)] s.
Proof.
move=> Hx; have [s1 [v1 [R1 T1]]] := C62_progress C62_faithful_applies (both_run Hx) (both_0 x).
have N : 1 <> 0 by [].
have H1 := etrans (T1 1 N) (both_1 x).
have [s2 [v2 [R2 _]]] := C62_progress C62_faithful_applies R1 H1.
exists s2, v1, v2, (st_mem s1); exact R2.
Qed.

(** In every run in which both have ended, both have got the commitment. *)
Lemma same_ok (X : Type) v (m m1 : mem X) : same_answer v m (VResult (MkCResult StOk Null)) m1 ->
  v = VResult (MkCResult StOk Null).
Proof. by case: v => [[|b' [|o]]||[[] [|b' [|o]]]]. Qed.
Lemma answer_ok x b v m' : is_block (two_mem x) b (BBytes _ (nseq 48 "000"%byte)) -> x <> "255"%byte ->
  as_alone toy (to_block b) (two_mem x) v m' ->
  v = VResult (MkCResult StOk Null) /\ forall i, i < 48 -> cell_of m' b i = Some (CellByte _ x).
Proof.
move=> Hb Hx [v1 [m1 [E S C]]]; have [m2 [E2 B]] := commit_returns Hb Hx.
move: E; rewrite E2 => -[Ev Em]; rewrite -Ev in S; rewrite -Em in C.
clear Em E2; split; first exact: same_ok S.
move=> i Hi; rewrite C; last first.
- by rewrite /writes /region_of /in_region /= eqxx.
- by have [] := Hb.
case: B => [/(congr1 size)|[b1 [o1 [s [[<- <-] [Sb Nb] Ss A]]]]]; first by rewrite size_nseq.
rewrite size_nseq in Ss A; rewrite /cell_of.
have -> : live_block m2 b = Some (BBytes _ s) by rewrite /live_block (oget_nth None) // Nb.
rewrite /= (oget_nth "000"%byte) /=; last exact: leq_trans Hi Ss.
by rewrite (A i Hi) nth_nseq Hi.
Qed.
Example C62_as_alone_applies x tr s v m v' m' : x <> "255"%byte -> run (two_mem x) tr s ->
  In (Ended 0 (to_block 2) (two_mem x) v m) tr -> In (Ended 1 (to_block 3) (two_mem x) v' m') tr ->
  [/\ v = VResult (MkCResult StOk Null), v' = VResult (MkCResult StOk Null),
      forall i, i < 48 -> cell_of m 2 i = Some (CellByte _ x) &
      forall i, i < 48 -> cell_of m' 3 i = Some (CellByte _ x)].
Proof.
move=> Hx R H1 H2; have [_ A1] := C62_as_alone C62_faithful_applies R H1.
have [_ A2] := C62_as_alone C62_faithful_applies R H2.
have [E1 C1] := @answer_ok x 2 _ _ (conj isT erefl) Hx A1; have [E2 C2] := @answer_ok x 3 _ _ (conj isT erefl) Hx A2.
by split.
Qed.
Example C62_never_broken_applies x t c : x <> "255"%byte ->
  ~ In (Broken t c) [:: Started 1 (to_block 3) (two_mem x); Started 0 (to_block 2) (two_mem x)].
Proof. by move=> Hx; exact: (C62_never_broken C62_faithful_applies (both_run Hx)). Qed.
Example C62_frame_applies x : x <> "255"%byte -> exists p' m', pstep (p_call toy (to_block 2)) (two_mem x) = Next p' m' /\
  cell_of m' 3 0 = cell_of (two_mem x) 3 0.
Proof.
move=> Hx; have [F _] := C62_frame C62_faithful_applies (both_run Hx) (both_0 x).
do 2 eexists; split; first exact: erefl.
have [_ C] := F _ _ erefl; apply: C => H; by have := region_block H.
Qed.
