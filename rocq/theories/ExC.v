(** Concrete instances of the hypotheses of PropC.v, with a small library in place of the real one,
    and with the real one. *)

From Coq Require Import ZArith NArith Init.Byte Strings.Byte.
From mathcomp Require Import ssreflect ssrfun ssrbool eqtype ssrnat seq ssralg.
From mathcomp Require Import zify_ssreflect.
From Verif Require Import Base Bytes FixedBaseMSM Fr FrEnv Eip7594 ExApi.
From Verif Require Import CMem CApi SpecC CProofs CCallProofs PropC.

Set Implicit Arguments.
Unset Strict Implicit.
Unset Printing Implicit Defensive.

(** ** A library: contexts and errors are numbers *)

(** A blob or the first cell that starts with ff is refused. *)
Definition toy_bad (s : seq byte) : bool := nth "000"%byte s 0 == "255"%byte.
Definition toy_outputs (b : byte) : seq (seq byte) * seq (seq byte) :=
  (nseq 128 (nseq 2048 b), nseq 128 (nseq 48 b)).
Definition toy_debug (e : nat) : seq byte := match e with 0 => [::] | 1 => [:: "e"] | _ => [:: "e"; "e"] end%byte.
Definition toy : rust_api nat nat :=
  MkRustApi (fun _ n => Ret (N.to_nat n))
    (fun _ blob => Ret (if toy_bad blob then Err 1 else Ok (nseq 48 (nth "000"%byte blob 0))))
    (fun _ blob => Ret (if toy_bad blob then Err 1 else Ok (toy_outputs (nth "000"%byte blob 0))))
    (fun _ ks cs => Ret (if size ks == size cs then Ok (toy_outputs "007"%byte) else Err 2))
    (fun _ coms ks cs ps => Ret (if size ks != size cs then Err 2
       else if toy_bad (nth [::] cs 0) then Err 0 else Ok tt))
    (fun e => e == 0) toy_debug.

Lemma all_nseq_size T n k (x : seq T) : size x = k -> all (fun y => size y == k) (nseq n x).
Proof. by move=> <-; rewrite all_nseq eqxx orbT. Qed.

Lemma nseq_sizes n k (b : byte) :
  size (nseq n (nseq k b)) = n /\ all (fun x => size x == k) (nseq n (nseq k b)).
Proof. by split; [rewrite size_nseq|apply: all_nseq_size; rewrite size_nseq]. Qed.
Lemma toy_outputs_sizes b : let cp := toy_outputs b in
  [/\ size cp.1 = 128, size cp.2 = 128, all (fun x => size x == 2048) cp.1 &
      all (fun x => size x == 48) cp.2].
Proof.
have [S1 A1] := nseq_sizes 128 2048 b; have [S2 A2] := nseq_sizes 128 48 b.
exact: And4 S1 S2 A1 A2.
Qed.
Opaque toy_outputs nseq.
Lemma if_ok (b : bool) (A : Type) (x y : A) (e : nat) : Ret (if b then Err e else Ok x) = Ret (Ok y) -> x = y.
Proof. by case: b => // -[]. Qed.
Lemma if_ok' (b : bool) (A : Type) (x y : A) (e : nat) : Ret (if b then Ok x else Err e) = Ret (Ok y) -> x = y.
Proof. by case: b => // -[]. Qed.
Example toy_typed c : api_typed toy c.
Proof.
split=> [blob com _ H|blob cells proofs _ H|idx cells cells' proofs _ H].
- rewrite -(if_ok H); exact: size_nseq.
- have E := if_ok H; have := toy_outputs_sizes (nth "000"%byte blob 0); rewrite E; exact: id.
have E := if_ok' H; have := toy_outputs_sizes "007"%byte; rewrite E; exact: id.
Qed.
Example toy_no_nul : no_nul toy.
Proof. by case=> [|[|e]]. Qed.

(** ** Memory *)
Lemma bytes_block (X : Type) (m : mem X) b s : is_block m b (BBytes _ s) -> bytes_at m (Addr b 0) s.
Proof. by move=> H; right; exists b, 0, s; split. Qed.
Lemma ptrs_block (X : Type) (m : mem X) b s : is_block m b (BPtrs _ s) -> ptrs_at m (Addr b 0) s.
Proof. by move=> H; right; exists b, 0, s; split. Qed.
Lemma writable_block (X : Type) (m : mem X) b s off n : is_block m b (BBytes _ s) -> off + n <= size s ->
  writable m (Addr b off) n.
Proof.
move=> H Hs; have St : size (take n (drop off s)) = n by rewrite size_takel // size_drop; lia.
exists (take n (drop off s)); split=> //; right; exists b, off, s; rewrite St; split=> // i Hi.
by rewrite nth_take // nth_drop.
Qed.

Lemma blockI (X : Type) (m : mem X) b blk : b < size m -> nth None m b = Some blk -> is_block m b blk.
Proof. by split. Qed.
Ltac block := apply: blockI; [exact: isT|exact: erefl].

(** 128 consecutive regions of n bytes in block b *)
Definition rows (b n : nat) : seq ptr := mkseq (fun i => Addr b (i * n)) 128.
Lemma rows_region b n i b' off : i < 128 -> in_region (nth Null (rows b n) i, n) b' off ->
  b' = b /\ i * n <= off < i * n + n.
Proof. by move=> Hi; rewrite nth_mkseq // /in_region /= => /andP[/eqP -> ->]. Qed.
Lemma rows_disjoint b1 b2 n1 n2 : b1 <> b2 ->
  disjoint_regions ([seq (q, n1) | q <- rows b1 n1] ++ [seq (q, n2) | q <- rows b2 n2]).
Proof.
move=> Hb i j b off; rewrite size_cat !size_map size_iota => /andP[Hij Hj].
have R b0 n0 k : k < 128 -> nth (Null, 0) [seq (q, n0) | q <- rows b0 n0] k = (nth Null (rows b0 n0) k, n0).
  by move=> Hk; rewrite (nth_map Null) // size_mkseq.
rewrite !nth_cat !size_map size_iota.
case: (ltnP i 128) => Hi; case: (ltnP j 128) => Hj'; rewrite ?R //; try lia.
- move=> /(rows_region Hi)[-> H1]; apply/negP => /(rows_region Hj')[_ H2].
  have : (i + 1) * n1 <= j * n1 by apply: leq_mul => //; lia.
  by lia.
- move=> /(rows_region Hi)[-> _]; apply/negP => Hr.
  by have [|E _] := rows_region _ Hr; first lia.
move=> /rows_region[|-> H1]; first lia.
apply/negP => Hr; have [|_ H2] := rows_region _ Hr; first lia.
have : (i - 128 + 1) * n2 <= (j - 128) * n2 by apply: leq_mul => //; lia.
by lia.
Qed.
Lemma rows_writable (X : Type) (m : mem X) b s n i : is_block m b (BBytes _ s) -> size s = 128 * n -> i < 128 ->
  writable m (nth Null (rows b n) i) n.
Proof.
move=> Hb Ss Hi; rewrite nth_mkseq //; apply: (writable_block Hb); rewrite Ss.
have : (i + 1) * n <= 128 * n by apply: leq_mul => //; lia.
by lia.
Qed.

(** A context, a blob of bytes x, buffers, pointers to them, one index, and a verdict. *)
Definition ex_mem (x : byte) : mem nat :=
  [:: Some (BCtx 5); Some (BBytes _ (nseq (2 ^ 17) x)); Some (BBytes _ (nseq 48 "000"%byte));
      Some (BBytes _ (nseq (128 * 2048) "000"%byte)); Some (BBytes _ (nseq (128 * 48) "000"%byte));
      Some (BPtrs _ (rows 3 2048)); Some (BPtrs _ (rows 4 48)); Some (BU64s _ [:: 7%num]);
      Some (BBool _ false)].
Example ex_ctx x : ctx_at (ex_mem x) (Addr 0 0) 5. Proof. by exists 0. Qed.
Example ex_blob_at x : bytes_at (ex_mem x) (Addr 1 0) (nseq (2 ^ 17) x).
Proof. apply: bytes_block; block. Qed.
Example ex_out x : writable (ex_mem x) (Addr 2 0) 48.
Proof. apply: (@writable_block _ _ 2 (nseq 48 "000"%byte)); [by []|by rewrite size_nseq]. Qed.
Example ex_cells x : ptrs_at (ex_mem x) (Addr 5 0) (rows 3 2048). Proof. apply: ptrs_block; block. Qed.
Example ex_proofs x : ptrs_at (ex_mem x) (Addr 6 0) (rows 4 48). Proof. apply: ptrs_block; block. Qed.
Example ex_cells_writable x i : i < 128 -> writable (ex_mem x) (nth Null (rows 3 2048) i) 2048.
Proof. apply: (@rows_writable _ _ 3); [block|exact: size_nseq]. Qed.
Example ex_proofs_writable x i : i < 128 -> writable (ex_mem x) (nth Null (rows 4 48) i) 48.
Proof. apply: (@rows_writable _ _ 4); [block|exact: size_nseq]. Qed.

Lemma nth0_nseq (x : byte) n : 0 < n -> nth "000"%byte (nseq n x) 0 = x.
Proof. by move=> H; rewrite nth_nseq H. Qed.

(** *** C37 *)
Example C37_commit_ok_applies : exists m',
  [/\ eth_kzg_blob_to_kzg_commitment toy (Addr 0 0) (Addr 1 0) (Addr 2 0) (ex_mem "002") =
        CRet (MkCResult StOk Null, m'),
      bytes_at m' (Addr 2 0) (nseq 48 "002"%byte) & unchanged_except [:: (Addr 2 0, 48)] (ex_mem "002") m'].
Proof.
apply: (C37_commit_ok (ex_ctx _) (toy_typed _) (size_nseq _ _) (ex_blob_at _) (ex_out _)).
by rewrite /toy /= /toy_bad nth0_nseq // expn_gt0.
Qed.
Example C37_commit_err_applies :
  eth_kzg_blob_to_kzg_commitment toy (Addr 0 0) (Addr 1 0) Null (ex_mem "255") =
  CRet (MkCResult StErr (Addr 9 0), rcons (ex_mem "255") (Some (BMsg _ [:: "e"%byte]))).
Proof.
apply: (@C37_commit_err _ _ toy (ex_mem "255") (Addr 0 0) 5 (Addr 1 0) _ Null 1 (ex_ctx _) toy_no_nul (size_nseq _ _) (ex_blob_at _)).
by rewrite /toy /= /toy_bad nth0_nseq // expn_gt0.
Qed.
Example C37_compute_ok_applies : exists m',
  [/\ eth_kzg_compute_cells_and_kzg_proofs toy (Addr 0 0) (Addr 1 0) (Addr 5 0) (Addr 6 0) (ex_mem "002") =
        CRet (MkCResult StOk Null, m'),
      forall i, i < 128 -> bytes_at m' (nth Null (rows 3 2048) i) (nth [::] (nseq 128 (nseq 2048 "002"%byte)) i),
      forall i, i < 128 -> bytes_at m' (nth Null (rows 4 48) i) (nth [::] (nseq 128 (nseq 48 "002"%byte)) i) &
      unchanged_except ([seq (q, 2048) | q <- rows 3 2048] ++ [seq (q, 48) | q <- rows 4 48]) (ex_mem "002") m'].
Proof.
apply: (C37_compute_ok (ex_ctx _) (toy_typed _) (size_nseq _ _) (ex_blob_at _)
  (ex_cells _) (size_mkseq _ _) (@ex_cells_writable _) (ex_proofs _) (size_mkseq _ _) (@ex_proofs_writable _)).
  exact: rows_disjoint.
rewrite -[ra_compute _ _ _]/(Ret (if toy_bad (nseq (2 ^ 17) "002"%byte) then Err 1
  else Ok (toy_outputs (nth "000"%byte (nseq (2 ^ 17) "002"%byte) 0)))).
by rewrite /toy_bad nth0_nseq // expn_gt0.
Qed.
Example C37_compute_err_applies :
  eth_kzg_compute_cells_and_kzg_proofs toy (Addr 0 0) (Addr 1 0) Null Null (ex_mem "255") =
  CRet (MkCResult StErr (Addr 9 0), rcons (ex_mem "255") (Some (BMsg _ [:: "e"%byte]))).
Proof.
apply: (@C37_compute_err _ _ toy (ex_mem "255") (Addr 0 0) 5 (Addr 1 0) _ Null Null 1 (ex_ctx _) toy_no_nul (size_nseq _ _) (ex_blob_at _)).
rewrite -[ra_compute _ _ _]/(Ret (if toy_bad (nseq (2 ^ 17) "255"%byte) then Err 1
  else Ok (toy_outputs (nth "000"%byte (nseq (2 ^ 17) "255"%byte) 0)))).
by rewrite /toy_bad nth0_nseq // expn_gt0.
Qed.

(** One cell, at the start of the buffer for cells. *)
Definition ex_cell : seq byte := nseq 2048 "000"%byte.
Definition ex_mem2 (first : byte) : mem nat :=
  ex_mem "002" ++ [:: Some (BBytes _ (first :: nseq 2047 "000"%byte)); Some (BPtrs _ [:: Addr 9 0]);
                      Some (BPtrs _ [:: Addr 2 0])].
Example ex_arrays f : arrays_at (ex_mem2 f) (Addr 10 0) [:: f :: nseq 2047 "000"%byte].
Proof.
have B : bytes_at (ex_mem2 f) (Addr 9 0) (f :: nseq 2047 "000"%byte) by apply: bytes_block; block.
exists [:: Addr 9 0]; split=> //; first by apply: ptrs_block; block.
by case=> // _; exact: B.
Qed.
Example ex_coms f : arrays_at (ex_mem2 f) (Addr 11 0) [:: nseq 48 "000"%byte].
Proof.
have B : bytes_at (ex_mem2 f) (Addr 2 0) (nseq 48 "000"%byte) by apply: bytes_block; block.
exists [:: Addr 2 0]; split=> //; first by apply: ptrs_block; block.
by case=> // _; exact: B.
Qed.
Example ex_u64 f : u64s_at (ex_mem2 f) (Addr 7 0) [:: 7%num].
Proof. by right; exists 7, 0, [:: 7%num]; split. Qed.
Example C37_recover_ok_applies : exists m',
  [/\ eth_kzg_recover_cells_and_proofs toy (Addr 0 0) 1 (Addr 10 0) 1 (Addr 7 0) (Addr 5 0) (Addr 6 0) (ex_mem2 "001") =
        CRet (MkCResult StOk Null, m'),
      forall i, i < 128 -> bytes_at m' (nth Null (rows 3 2048) i) (nth [::] (nseq 128 (nseq 2048 "007"%byte)) i),
      forall i, i < 128 -> bytes_at m' (nth Null (rows 4 48) i) (nth [::] (nseq 128 (nseq 48 "007"%byte)) i) &
      unchanged_except ([seq (q, 2048) | q <- rows 3 2048] ++ [seq (q, 48) | q <- rows 4 48]) (ex_mem2 "001") m'].
Proof.
apply: (@C37_recover_ok _ _ toy (ex_mem2 "001") (Addr 0 0) 5 (Addr 10 0) _ (Addr 7 0) [:: 7%num] (Addr 5 0) (Addr 6 0)
  (rows 3 2048) (rows 4 48) _ _ _ (toy_typed _) _ (ex_arrays _) (ex_u64 _)).
- by exists 0.
- by rewrite /= size_nseq.
- apply: ptrs_block; block.
- exact: size_mkseq.
- by move=> i; apply: (@rows_writable _ _ 3); [block|exact: size_nseq].
- apply: ptrs_block; block.
- exact: size_mkseq.
- by move=> i; apply: (@rows_writable _ _ 4); [block|exact: size_nseq].
- exact: rows_disjoint.
by [].
Qed.
(** No index for one cell. *)
Example C37_recover_err_applies :
  eth_kzg_recover_cells_and_proofs toy (Addr 0 0) 1 (Addr 10 0) 0 Null Null Null (ex_mem2 "001") =
  CRet (MkCResult StErr (Addr 12 0), rcons (ex_mem2 "001") (Some (BMsg _ [:: "e"; "e"]%byte))).
Proof.
apply: (@C37_recover_err _ _ toy (ex_mem2 "001") (Addr 0 0) 5 (Addr 10 0) _ Null [::] Null Null 2 _ toy_no_nul
  _ (ex_arrays _)).
- by exists 0.
- by rewrite /= size_nseq.
- by left.
by [].
Qed.
Example C37_verify_true_applies : exists m',
  [/\ eth_kzg_verify_cell_kzg_proof_batch toy (Addr 0 0) 1 (Addr 11 0) 1 (Addr 7 0) 1 (Addr 10 0) 1 (Addr 11 0) (Addr 8 0)
        (ex_mem2 "001") = CRet (MkCResult StOk Null, m'),
      bool_at m' (Addr 8 0) true & unchanged_except_bool (Addr 8 0) (ex_mem2 "001") m'].
Proof.
apply: (@C37_verify_true _ _ toy (ex_mem2 "001") (Addr 0 0) 5 (Addr 11 0) (Addr 7 0) (Addr 10 0) (Addr 11 0) (Addr 8 0)
  _ [:: 7%num] _ _ false _ _ (ex_coms _) (ex_u64 _) _ (ex_arrays _) _ (ex_coms _)); rewrite /= ?size_nseq //.
- by exists 0.
by exists 8.
Qed.
Example C37_verify_false_applies : exists m',
  [/\ eth_kzg_verify_cell_kzg_proof_batch toy (Addr 0 0) 1 (Addr 11 0) 1 (Addr 7 0) 1 (Addr 10 0) 1 (Addr 11 0) (Addr 8 0)
        (ex_mem2 "255") = CRet (MkCResult StOk Null, m'),
      bool_at m' (Addr 8 0) false & unchanged_except_bool (Addr 8 0) (ex_mem2 "255") m'].
Proof.
apply: (@C37_verify_false _ _ toy (ex_mem2 "255") (Addr 0 0) 5 (Addr 11 0) (Addr 7 0) (Addr 10 0) (Addr 11 0) (Addr 8 0)
  _ [:: 7%num] _ _ false _ _ (ex_coms _) (ex_u64 _) _ (ex_arrays _) _ (ex_coms _) _ 0); rewrite /= ?size_nseq //.
- by exists 0.
by exists 8.
Qed.
Example C37_verify_err_applies :
  eth_kzg_verify_cell_kzg_proof_batch toy (Addr 0 0) 1 (Addr 11 0) 0 Null 1 (Addr 10 0) 1 (Addr 11 0) (Addr 8 0)
    (ex_mem2 "001") =
  CRet (MkCResult StErr (Addr 12 0), rcons (ex_mem2 "001") (Some (BMsg _ [:: "e"; "e"]%byte))).
Proof.
apply: (@C37_verify_err _ _ toy (ex_mem2 "001") (Addr 0 0) 5 (Addr 11 0) Null (Addr 10 0) (Addr 11 0) (Addr 8 0)
  _ [::] _ _ false _ _ (ex_coms _) _ _ (ex_arrays _) _ (ex_coms _) _ 2 toy_no_nul); rewrite /= ?size_nseq //.
- by exists 0.
- by left.
by exists 8.
Qed.

(** *** C38: a context is made, a blob is refused, the message and the context are freed *)
Definition ex_blob_bytes : seq byte := nseq (2 ^ 17) "255"%byte.
Definition ex_m3 : mem nat :=
  [:: Some (BCtx 4); Some (BBytes _ ex_blob_bytes); Some (BBytes _ (nseq 48 "000"%byte))].
Definition ex_h3 : seq (c_event nat) :=
  [:: CallerAlloc (BBytes _ (nseq 48 "000"%byte)); CallerAlloc (BBytes _ ex_blob_bytes);
      Call _ (New true 4) (VPtr (Addr 0 0))].
Definition ex_h4 : seq (c_event nat) :=
  Call _ (Commit (Addr 0 0) (Addr 1 0) (Addr 2 0)) (VResult (MkCResult StErr (Addr 3 0))) :: ex_h3.
Definition ex_h6 : seq (c_event nat) :=
  [:: Call _ (FreeCtx (Addr 0 0)) VUnit, Call _ (FreeMsg (Addr 3 0)) VUnit & ex_h4].
Definition ex_m6 : mem nat :=
  [:: None; Some (BBytes _ ex_blob_bytes); Some (BBytes _ (nseq 48 "000"%byte)); None].

Example ex_good3 : good_history toy ex_h3 ex_m3.
Proof.
apply: (@GoodAlloc _ _ toy _ [:: Some (BCtx 4); Some (BBytes _ ex_blob_bytes)]) => //.
apply: (@GoodAlloc _ _ toy _ [:: Some (BCtx 4)]) => //.
exact: (GoodCall (m := [::]) (GoodStart _)).
Qed.
Example ex_allowed3 : allowed ex_h3 ex_m3 (Commit (Addr 0 0) (Addr 1 0) (Addr 2 0)).
Proof.
split; first by [].
  by exists ex_blob_bytes; split; [rewrite size_nseq|apply: bytes_block; block].
by apply: (@writable_block _ _ 2 (nseq 48 "000"%byte)).
Qed.
Example ex_good4 : good_history toy ex_h4 (rcons ex_m3 (Some (BMsg _ [:: "e"%byte]))).
Proof.
apply: (GoodCall ex_good3 ex_allowed3).
rewrite /c_exec /cmap /cbind.
have -> // : eth_kzg_blob_to_kzg_commitment toy (Addr 0 0) (Addr 1 0) (Addr 2 0) ex_m3 =
  CRet (MkCResult StErr (Addr 3 0), rcons ex_m3 (Some (BMsg _ [:: "e"%byte]))).
apply: (@C37_commit_err _ _ toy ex_m3 (Addr 0 0) 4 (Addr 1 0) ex_blob_bytes (Addr 2 0) 1 _ toy_no_nul).
- by exists 0.
- by rewrite size_nseq.
- apply: bytes_block; block.
by rewrite /toy /= /toy_bad nth0_nseq // expn_gt0.
Qed.
Example ex_good6 : good_history toy ex_h6 ex_m6.
Proof.
apply: (GoodCall (m := rcons ex_m3 None)); first apply: (GoodCall ex_good4).
- by right.
- by [].
- by right.
by [].
Qed.
Example ex_all_freed : live_ctx ex_h6 = [::] /\ live_msg ex_h6 = [::]. Proof. by []. Qed.
Example ex_not_all_freed : live_ctx ex_h4 = [:: Addr 0 0] /\ live_msg ex_h4 = [:: Addr 3 0]. Proof. by []. Qed.
Example ex_toy_typed : forall u n c, ra_new toy u n = Ret c -> api_typed toy c.
Proof. by move=> *; exact: toy_typed. Qed.
(** The freed context: used or freed again, it is undefined behaviour. *)
Example ex_use_after_free : c_exec toy (Commit (Addr 0 0) (Addr 1 0) (Addr 2 0)) ex_m6 = CUB.
Proof. exact: (C38_use_after_free ex_good6 (p := Addr 0 0)). Qed.
Example ex_double_free : c_exec toy (FreeCtx (Addr 0 0)) ex_m6 = CUB /\ c_exec toy (FreeMsg (Addr 3 0)) ex_m6 = CUB.
Proof. by []. Qed.

(** ** The real library *)
Section Real.
Variable ctx : das_context G G.
Hypothesis Hctx : das_context_new fr_params eip7594_consts ex_g1s ex_g2s PrecompNo = Ret ctx.
Definition real_debug (e : error) : seq byte := [:: "e"; "r"; "r"]%byte.
Definition real : rust_api (das_context G G) error := eip7594_api ex_env (fun _ _ => Ret ctx) real_debug.
Example real_typed : api_typed real ctx.
Proof. exact: (C37_eip7594_typed ex_std ex_S1 ex_S2 Hctx). Qed.
Example real_no_nul : no_nul real. Proof. by []. Qed.
Example real_history : good_history real [:: Call _ (New false 1) (VPtr (Addr 0 0))] [:: Some (BCtx ctx)].
Proof. exact: (GoodCall (m := [::]) (GoodStart _)). Qed.
Example real_returns : exists v m', c_exec real (FreeCtx (Addr 0 0)) [:: Some (BCtx ctx)] = CRet (v, m').
Proof.
apply: (C37_eip7594_returns ex_std ex_S1 ex_S2 Hctx real_no_nul (fun _ _ => erefl) real_history).
by right.
Qed.
End Real.
