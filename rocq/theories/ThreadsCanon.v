(** The functions of CApi.v, step by step, are faithful. *)

From Coq Require Import NArith Init.Byte.
From mathcomp Require Import ssreflect ssrfun ssrbool eqtype ssrnat seq.
From Verif Require Import Base Bytes CMem Eip7594 CApi SpecC CProofs CThreads SpecThreads ThreadsProofs ThreadsCode.
From mathcomp Require Import zify_ssreflect.

Set Implicit Arguments.
Unset Strict Implicit.
Unset Printing Implicit Defensive.

Local Opaque BYTES_PER_BLOB BYTES_PER_CELL CELLS_PER_EXT_BLOB BYTES_PER_COMMITMENT.
Local Notation K := eip7594_consts.

Section Canon.
Variables (ctx err : Type) (api : rust_api ctx err).
Local Notation mem := (mem ctx).
Implicit Types m : mem.

Section Calls.
Variables (R W : places).
Local Notation ok := (ok R W).

Lemma commit_ok p blob out m v m' :
  within (region_of p 1) (either R W) -> within (region_of blob (BYTES_PER_BLOB K)) (either R W) ->
  within (region_of out BYTES_PER_COMMITMENT) W ->
  c_exec api (Commit p blob out) m = CRet (v, m') -> ok (p_call api (Commit p blob out)) m (v, m').
Proof.
move=> Hp Hb Ho H0.
have [u [m1 [A1 H1]]] := cmap_bind H0; have [N E1] := cassert_inv A1; rewrite E1 in H1.
have [c [m2 [A2 H2]]] := cmap_bind H1; have [E2 D] := deref R W A2; rewrite E2 in H2.
have [s [m3 [A3 H3]]] := cmap_bind H2; have [E3 [S D3]] := array_ref R W A3; rewrite E3 in H3.
apply: ok_assert N _; apply: D Hp _; apply: D3 Hb _; apply: (try_ok H3) => com _ H4.
have [u4 [m4 [A4 H5]]] := cmap_bind H4; have [N4 E4] := cassert_inv A4; rewrite E4 in H5.
have [u5 [m5 [A5 H6]]] := cmap_bind H5.
apply: (ok_assert N4); apply: (store_ok (cwrite_inv A5)); last exact: done_ok H6.
by move/eqP: N4 => ->.
Qed.

Variable m0 : mem.
Lemma outputs_ok out_cells out_proofs (cp : seq (seq byte) * seq (seq byte)) m v m' : same_ptrs m0 m ->
  all (fun x => size x == BYTES_PER_CELL K) cp.1 -> all (fun x => size x == BYTES_PER_COMMITMENT) cp.2 ->
  within (region_of out_cells (CELLS_PER_EXT_BLOB K)) (either R W) ->
  within (region_of out_proofs (CELLS_PER_EXT_BLOB K)) (either R W) ->
  within (rows_of m0 out_cells (CELLS_PER_EXT_BLOB K) (BYTES_PER_CELL K)) W ->
  within (rows_of m0 out_proofs (CELLS_PER_EXT_BLOB K) BYTES_PER_COMMITMENT) W ->
  cmap VResult (cbind (write_to_2d_slice (CELLS_PER_EXT_BLOB K) out_cells cp.1) (fun _ =>
    cbind (write_to_2d_slice (CELLS_PER_EXT_BLOB K) out_proofs cp.2) (fun _ => cret with_ok))) m = CRet (v, m') ->
  ok (p_store_arrays (CELLS_PER_EXT_BLOB K) out_cells cp.1
    (p_store_arrays (CELLS_PER_EXT_BLOB K) out_proofs cp.2 POk)) m (v, m').
Proof.
move=> Hs Ac Ap Rc Rp Wc Wp H0.
have [u1 [m1 [A1 H1]]] := cmap_bind H0; have [u2 [m2 [A2 H2]]] := cmap_bind H1.
have [Hs1 D1] := store_arrays_ok
  (p_store_arrays (CELLS_PER_EXT_BLOB K) out_proofs cp.2 POk) (v, m') A1 Hs Ac Rc Wc.
have [_ D2] := store_arrays_ok POk (v, m') A2 Hs1 Ap Rp Wp.
by apply: D1; apply: D2; exact: done_ok H2.
Qed.

Lemma refl_ptrs : same_ptrs m0 m0. Proof. by []. Qed.

Hypothesis typed : forall c, api_typed api c.

Lemma compute_ok p blob out_cells out_proofs v m' :
  within (region_of p 1) (either R W) -> within (region_of blob (BYTES_PER_BLOB K)) (either R W) ->
  within (region_of out_cells (CELLS_PER_EXT_BLOB K)) (either R W) ->
  within (region_of out_proofs (CELLS_PER_EXT_BLOB K)) (either R W) ->
  within (rows_of m0 out_cells (CELLS_PER_EXT_BLOB K) (BYTES_PER_CELL K)) W ->
  within (rows_of m0 out_proofs (CELLS_PER_EXT_BLOB K) BYTES_PER_COMMITMENT) W ->
  c_exec api (Compute p blob out_cells out_proofs) m0 = CRet (v, m') ->
  ok (p_call api (Compute p blob out_cells out_proofs)) m0 (v, m').
Proof.
move=> Hp Hb Rc Rp Wc Wp H0.
have [u [m1 [A1 H1]]] := cmap_bind H0; have [N E1] := cassert_inv A1; rewrite E1 in H1.
have [c [m2 [A2 H2]]] := cmap_bind H1; have [E2 D] := deref R W A2; rewrite E2 in H2.
have [s [m3 [A3 H3]]] := cmap_bind H2; have [E3 [S D3]] := array_ref R W A3; rewrite E3 in H3.
apply: ok_assert N _; apply: D Hp _; apply: D3 Hb _; apply: (try_ok H3) => cp Ecp H4.
have Ecp' : ra_compute api c s = Ret (Ok (cp.1, cp.2)) by rewrite Ecp; case: (cp).
rewrite c_blob in S; have [_ _ Ac Ap] := at_compute (typed c) S Ecp'.
exact: (outputs_ok refl_ptrs Ac Ap Rc Rp Wc Wp H4).
Qed.

Lemma recover_ok p n cells k ids out_cells out_proofs v m' :
  within (region_of p 1) (either R W) -> within (arrays_of m0 cells n (BYTES_PER_CELL K)) (either R W) ->
  within (region_of ids k) (either R W) ->
  within (region_of out_cells (CELLS_PER_EXT_BLOB K)) (either R W) ->
  within (region_of out_proofs (CELLS_PER_EXT_BLOB K)) (either R W) ->
  within (rows_of m0 out_cells (CELLS_PER_EXT_BLOB K) (BYTES_PER_CELL K)) W ->
  within (rows_of m0 out_proofs (CELLS_PER_EXT_BLOB K) BYTES_PER_COMMITMENT) W ->
  c_exec api (Recover p n cells k ids out_cells out_proofs) m0 = CRet (v, m') ->
  ok (p_call api (Recover p n cells k ids out_cells out_proofs)) m0 (v, m').
Proof.
move=> Hp Hc Hi Rc Rp Wc Wp H0.
have [u [m1 [A1 H1]]] := cmap_bind H0; have [N E1] := cassert_inv A1; rewrite E1 in H1.
have [c [m2 [A2 H2]]] := cmap_bind H1; have [E2 D] := deref R W A2; rewrite E2 in H2.
have [s [m3 [A3 H3]]] := cmap_bind H2; have [E3 [S D3]] := arrays_ok R W A3 refl_ptrs; rewrite E3 in H3.
have [l [m4 [A4 H4]]] := cmap_bind H3; have [E4 D4] := view_u64 R W A4; rewrite E4 in H4.
apply: ok_assert N _; apply: D Hp _; apply: D3 Hc _; apply: D4 Hi _; apply: (try_ok H4) => cp Ecp H5.
have Ecp' : ra_recover api c l s = Ret (Ok (cp.1, cp.2)) by rewrite Ecp; case: (cp).
rewrite c_cell in S; have [_ _ Ac Ap] := at_recover (typed c) S Ecp'.
exact: (outputs_ok refl_ptrs Ac Ap Rc Rp Wc Wp H5).
Qed.

Lemma verify_ok p n1 coms n2 ids n3 cells n4 proofs verified v m' :
  within (region_of p 1) (either R W) -> within (arrays_of m0 coms n1 BYTES_PER_COMMITMENT) (either R W) ->
  within (region_of ids n2) (either R W) -> within (arrays_of m0 cells n3 (BYTES_PER_CELL K)) (either R W) ->
  within (arrays_of m0 proofs n4 BYTES_PER_COMMITMENT) (either R W) -> within (region_of verified 1) W ->
  c_exec api (Verify p n1 coms n2 ids n3 cells n4 proofs verified) m0 = CRet (v, m') ->
  ok (p_call api (Verify p n1 coms n2 ids n3 cells n4 proofs verified)) m0 (v, m').
Proof.
move=> Hp Ha Hi Hc Hq Hv H0.
have [u [m1 [A1 H1]]] := cmap_bind H0; have [N E1] := cassert_inv A1; rewrite E1 in H1.
have [c [m2 [A2 H2]]] := cmap_bind H1; have [E2 D] := deref R W A2; rewrite E2 in H2.
have [s [m3 [A3 H3]]] := cmap_bind H2; have [E3 [_ D3]] := arrays_ok R W A3 refl_ptrs; rewrite E3 in H3.
have [l [m4 [A4 H4]]] := cmap_bind H3; have [E4 D4] := view_u64 R W A4; rewrite E4 in H4.
have [s5 [m5 [A5 H5]]] := cmap_bind H4; have [E5 [_ D5]] := arrays_ok R W A5 refl_ptrs; rewrite E5 in H5.
have [s6 [m6 [A6 H6]]] := cmap_bind H5; have [E6 [_ D6]] := arrays_ok R W A6 refl_ptrs; rewrite E6 in H6.
have [u7 [m7 [A7 H7]]] := cmap_bind H6; have [E7 D7] := deref_bool R W A7; rewrite E7 in H7.
apply: ok_assert N _; apply: D Hp _; apply: D3 Ha _; apply: D4 Hi _; apply: D5 Hc _; apply: D6 Hq _.
have Hv' : within (region_of verified 1) (either R W) by move=> b o H; right; apply: Hv.
apply: D7 Hv' _; apply: (try_ok H7) => valid _ H8.
have [u9 [m9 [A9 H9]]] := cmap_bind H8; move: (cwrite_inv A9) Hv.
case: (verified) => [|b [|o]] //; rewrite /store_bool; case E: (live_block m0 b) => [[| | | | |w]|] // [Em] Hv.
have P : put m0 b 0 (CellBool _ valid) = Some m9 by rewrite /put E /= Em.
have [G1 G2] := done_ok R W H9; split; first by rewrite /= P.
by split; [apply: Hv; rewrite /region_of /in_region /= eqxx|rewrite P => m2' [<-]].
Qed.

Lemma free_ctx_ok p m v m' : within (region_of p 1) W ->
  c_exec api (FreeCtx p) m = CRet (v, m') -> ok (p_call api (FreeCtx p)) m (v, m').
Proof.
move=> Hp /cbind_inv[u [m1 []]]; rewrite /eth_kzg_das_context_free.
case: p Hp => [|b o] Hp /=; first by move=> [_ <-] [<- <-]; split.
move=> A [<- <-]; move: (cwrite_inv A); case: o Hp {A} => [|o] //= Hp.
case E: (live_block m b) => [[c| | | | |]|] // [Em].
have B : W b 0 by apply: Hp; rewrite /region_of /in_region /= eqxx.
have C : cell_of m b 0 = Some (CellCtx c) by rewrite /cell_of E.
have L : release m b = Some m1 by rewrite /release E Em.
split; first by rewrite /= C /= L.
by split; [right|move=> w; rewrite C => -[<-]; split=> // m2; rewrite L].
Qed.
Lemma free_msg_ok p m v m' : within (region_of p 1) W ->
  c_exec api (FreeMsg p) m = CRet (v, m') -> ok (p_call api (FreeMsg p)) m (v, m').
Proof.
move=> Hp /cbind_inv[u [m1 []]]; rewrite /eth_kzg_free_error_message.
case: p Hp => [|b o] Hp /=; first by move=> [_ <-] [<- <-]; split.
move=> A [<- <-]; move: (cwrite_inv A); case: o Hp {A} => [|o] //= Hp.
case E: (live_block m b) => [[|s| | | |]|] // [Em].
have B : W b 0 by apply: Hp; rewrite /region_of /in_region /= eqxx.
have C : cell_of m b 0 = Some (CellMsg _ s) by rewrite /cell_of E.
have L : release m b = Some m1 by rewrite /release E Em.
split; first by rewrite /= C /= L.
by split; [right|move=> w; rewrite C => -[<-]; split=> // m2; rewrite L].
Qed.
Lemma new_ok use n m v m' : c_exec api (New use n) m = CRet (v, m') -> ok (p_call api (New use n)) m (v, m').
Proof.
move=> /cbind_inv[q [m1 [/cbind_inv[c [m2 [A B]]] [<- <-]]]]; have [E Em] := crust_inv A.
by rewrite Em in B; rewrite /p_call E; split=> //=; move: B => [<- <-].
Qed.
End Calls.

Lemma into P Q R' : within P Q -> within P (either Q R').
Proof. by move=> H b o /H; left. Qed.
Lemma into_r P Q R' : within P R' -> within P (either Q R').
Proof. by move=> H b o /H; right. Qed.
Lemma here P : within P P. Proof. by []. Qed.

Lemma p_call_faithful : (forall c, api_typed api c) -> faithful api (p_call api).
Proof.
have C48 : BYTES_PER_COMMITMENT = 48 by [].
move=> typed c m v m' H; suff : ok (reads c m) (writes c m) (p_call api c) m (v, m') by [].
case: c H => [u n|p|p|p blob out|p blob oc op|p n cells k ids oc op|p n1 coms n2 ids n3 cells n4 proofs w] H.
- exact: new_ok H.
- by apply: (free_ctx_ok _ _ H); exact: here.
- by apply: (free_msg_ok _ _ H); exact: here.
- apply: (commit_ok _ _ _ H); rewrite /reads /writes ?c_blob ?C48.
  + apply: into; apply: into; exact (@here _).
  + apply: into; apply: into_r; exact (@here _).
  exact: here.
- apply: (compute_ok typed _ _ _ _ _ _ H); rewrite /reads /writes ?c_blob ?c_cells ?c_cell ?C48.
  + apply: into; apply: into; exact (@here _).
  + apply: into; apply: into_r; apply: into; exact (@here _).
  + apply: into; apply: into_r; apply: into_r; apply: into; exact (@here _).
  + apply: into; apply: into_r; apply: into_r; apply: into_r; exact (@here _).
  + apply: into; exact (@here _).
  apply: into_r; exact (@here _).
- apply: (recover_ok typed _ _ _ _ _ _ _ H); rewrite /reads /writes ?c_cells ?c_cell ?C48.
  + apply: into; apply: into; exact (@here _).
  + apply: into; apply: into_r; apply: into; exact (@here _).
  + apply: into; apply: into_r; apply: into_r; apply: into; exact (@here _).
  + apply: into; apply: into_r; apply: into_r; apply: into_r; apply: into; exact (@here _).
  + apply: into; apply: into_r; apply: into_r; apply: into_r; apply: into_r; exact (@here _).
  + apply: into; exact (@here _).
  apply: into_r; exact (@here _).
apply: (verify_ok _ _ _ _ _ _ H); rewrite /reads /writes ?c_cell ?C48.
- apply: into; apply: into; exact (@here _).
- apply: into; apply: into_r; apply: into; exact (@here _).
- apply: into; apply: into_r; apply: into_r; apply: into; exact (@here _).
- apply: into; apply: into_r; apply: into_r; apply: into_r; apply: into; exact (@here _).
- apply: into; apply: into_r; apply: into_r; apply: into_r; apply: into_r; exact (@here _).
exact: here.
Qed.
End Canon.
