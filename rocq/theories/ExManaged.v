(** Concrete instances for PropManaged.v. *)

From Coq Require Import ZArith NArith Init.Byte Strings.Byte.
From mathcomp Require Import ssreflect ssrfun ssrbool eqtype ssrnat seq ssralg.
From Verif Require Import Base Bytes SpecFr FrEnv Fr FixedBaseMSM FK20Verifier Eip7594.
From Verif Require Import PropProver PropRecover PropVerify ExApi CApi Managed PropManaged ExC.

Set Implicit Arguments.
Unset Strict Implicit.
Unset Printing Implicit Defensive.

Local Opaque nseq.

(** ** Lengths: one byte too few, one too many, an empty array *)
Section Lengths.
Variables (ctx err : Type) (c : ctx).
Example C40_blob_length_applies : [/\ rejected (fun api : rust_api ctx err => java_blob_to_kzg_commitment api c [::]),
      rejected (fun api : rust_api ctx err => java_compute_cells_and_kzg_proofs api c [::]),
      rejected (fun api : rust_api ctx err => node_blob_to_kzg_commitment api c [::]),
      rejected (fun api : rust_api ctx err => node_compute_cells_and_kzg_proofs api c [::]) &
      rejected (fun api : rust_api ctx err => node_compute_cells api c [::])].
Proof. apply: C40_blob_length; rewrite /=; apply/eqP; rewrite eq_sym expn_eq0; exact: isT. Qed.

Definition good_cell : seq byte := nseq 2048 x00.
Definition short_cell : seq byte := nseq 2047 x00.
Definition good_point : seq byte := nseq 48 x00.
Definition long_point : seq byte := nseq 49 x00.
Lemma good_cell_size : size good_cell = 2048. Proof. exact: size_nseq. Qed.
Lemma short_cell_size : size short_cell = 2047. Proof. exact: size_nseq. Qed.

Lemma cells_bad : ~~ all (fun x => size x == 2048) [:: good_cell; short_cell].
Proof.
move: good_cell short_cell good_cell_size short_cell_size => g s; rewrite /all => -> ->; exact: isT.
Qed.
Lemma cells_good : all (fun x => size x == 2048) [:: good_cell].
Proof. move: good_cell good_cell_size => g; rewrite /all => ->; exact: isT. Qed.
Lemma coms_good : all (fun x => size x == 48) [:: good_point]. Proof. by rewrite /all size_nseq. Qed.
Lemma proofs_bad : ~~ all (fun x => size x == 48) [:: long_point]. Proof. by rewrite /all size_nseq. Qed.
Lemma three_bad : ~~ [&& all (fun x => size x == 48) [:: good_point],
  all (fun x => size x == 2048) [:: good_cell] & all (fun x => size x == 48) [:: long_point]].
Proof. by rewrite (negbTE proofs_bad) !andbF. Qed.

Example C40_java_recover_length_applies :
  rejected (fun api : rust_api ctx err => java_recover_cells_and_kzg_proofs api c [:: 0; 1]%Z [:: good_cell; short_cell]).
Proof. exact: (C40_java_recover_length _ _ _ cells_bad). Qed.
Example C40_node_recover_length_applies :
  rejected (fun api : rust_api ctx err => node_recover_cells_and_kzg_proofs api c [:: 0; 1]%Z [:: good_cell; short_cell]).
Proof. by apply: C40_node_recover_length; [exact: isT|exact: cells_bad]. Qed.
Example C40_java_verify_length_applies : rejected (fun api : rust_api ctx err =>
  java_verify_cell_kzg_proof_batch api c [:: good_point] [:: 5]%Z [:: good_cell] [:: long_point]).
Proof. exact: (C40_java_verify_length _ _ _ three_bad). Qed.
Example C40_node_verify_length_applies : rejected (fun api : rust_api ctx err =>
  node_verify_cell_kzg_proof_batch api c [:: good_point] [:: 5]%Z [:: good_cell] [:: long_point]).
Proof. by apply: C40_node_verify_length; [exact: isT|exact: three_bad]. Qed.
End Lengths.

(** ** A toy library: the lengths are right and it is called *)
Example C40_blob_passes_applies : java_blob_to_kzg_commitment toy 7 (nseq (2 ^ 17) x00) =
  shown (ra_blob_to_kzg_commitment toy 7 (nseq (2 ^ 17) x00)).
Proof. by have [E _ _ _] := C40_blob_passes toy 7 (size_nseq (2 ^ 17) x00). Qed.

Lemma toy_compute n : ra_compute toy 7 (nseq n.+1 x00) = Ret (Ok (toy_outputs x00)).
Proof. by []. Qed.
Lemma toy_node_cells n : n.+1 = 2 ^ 17 ->
  node_compute_cells toy 7 (nseq n.+1 x00) = Ret (Ok (toy_outputs x00).1).
Proof.
move=> Hn; have S : size (nseq n.+1 x00) = 2 ^ 17 by rewrite size_nseq.
have [E _] := C40_node_cells toy 7 S; apply: E; exact: toy_compute.
Qed.
Lemma at_succ (T : Type) (P : nat -> T -> Prop) (x : T) (k : nat) : 0 < k ->
  (forall n, n.+1 = k -> P n.+1 x) -> P k x.
Proof. by case: k => // k _; exact. Qed.
Example C40_node_cells_applies : node_compute_cells toy 7 (nseq (2 ^ 17) x00) = Ret (Ok (toy_outputs x00).1).
Proof.
exact (@at_succ _ (fun n o => node_compute_cells toy 7 (nseq n x00) = Ret (Ok o)) (toy_outputs x00).1 (2 ^ 17)
  (expn_gt0 2 17) toy_node_cells).
Qed.

Example C40_java_passes_applies :
  java_recover_cells_and_kzg_proofs toy 7 [:: 3; -1]%Z [:: good_cell] =
  shown (ra_recover toy 7 [:: 3; 2 ^ 64 - 1]%num [:: good_cell]).
Proof.
by have [-> _] := @C40_java_passes _ _ toy 7 [::] [:: 3; -1]%Z [:: good_cell] [::] isT cells_good isT.
Qed.
Example C40_node_passes_applies :
  node_verify_cell_kzg_proof_batch toy 7 [:: good_point] [:: 2 ^ 64 + 3]%Z [:: good_cell] [:: good_point] =
  shown_verdict toy (ra_verify toy 7 [:: good_point] [:: 3]%num [:: good_cell] [:: good_point]).
Proof.
by have [_ ->] := @C40_node_passes _ _ toy 7 [:: good_point] [:: 2 ^ 64 + 3]%Z [:: good_cell] [:: good_point]
  isT coms_good cells_good coms_good.
Qed.
Example C40_node_negative_panics_applies cells :
  node_recover_cells_and_kzg_proofs toy 7 [:: 3; -1]%Z cells = Panic.
Proof. by have [] := @C40_node_negative_panics _ _ toy 7 [:: 3; -1]%Z cells [::] [::] isT. Qed.

(** ** Indices *)
Definition one_high (i : nat) : Z := if i == 3 then (2 ^ 64 + 3)%Z else Z.of_nat i.
Definition high_ids : seq Z := [seq one_high i | i <- iota 0 128].
Lemma high_mod : [seq Z.to_N (z mod 2 ^ 64) | z <- high_ids] = [seq N.of_nat i | i <- iota 0 128].
Proof. by vm_compute. Qed.

Example wrap_as_3 : bigint_to_u64 (2 ^ 64 + 3) = Ret 3%num. Proof. by vm_compute. Qed.
Example minus_one : as_u64 (-1) = (2 ^ 64 - 1)%num. Proof. by vm_compute. Qed.

Section Real.
Variable ctx : das_context G G.
Hypothesis Hctx : das_context_new fr_params eip7594_consts ex_g1s ex_g2s PrecompNo = Ret ctx.

Example C40_java_recover_index_applies cells :
  exists e, java_recover_cells_and_kzg_proofs (real ctx) ctx [:: 0; -1; 5]%Z cells = Ret (Err e).
Proof. exact: (C40_java_recover_index ex_std ex_S1 ex_S2 Hctx). Qed.
Example C40_java_verify_index_applies coms cells proofs :
  exists e, java_verify_cell_kzg_proof_batch (real ctx) ctx coms [:: 128]%Z cells proofs = Ret (Err e).
Proof. exact: (C40_java_verify_index ex_std ex_S1 ex_S2 Hctx). Qed.

Lemma high_out : exists cells out,
  node_recover_cells_and_kzg_proofs (real ctx) ctx high_ids cells = Ret (Ok out).
Proof.
have [cells [proofs E]] := ex_compute Hctx.
have [_ Hu] : True /\ uniq [seq Z.to_N (z mod 2 ^ 64) | z <- high_ids] by split=> //; vm_compute.
have H0 : all (fun z => (0 <=? z)%Z) high_ids by vm_compute.
have Hr : all (fun z => (z mod 2 ^ 64 <? 128)%Z) high_ids by vm_compute.
have Hs : 64 <= size high_ids by vm_compute.
eexists; eexists.
exact: (C40_node_recover_wraps ex_std ex_S1 ex_S2 Hctx (fun _ _ => Ret ctx) real_debug ex_blob_size E H0 Hr Hu Hs).
Qed.
End Real.

(** An index that is not a cell index is accepted by Node. *)
Theorem C40_node_index_refuted : exists (ctx : das_context G G) ids cells out,
  [/\ das_context_new fr_params eip7594_consts ex_g1s ex_g2s PrecompNo = Ret ctx, ~~ all cell_index ids &
      node_recover_cells_and_kzg_proofs (real ctx) ctx ids cells = Ret (Ok out)].
Proof.
have [ctx Hctx] := ex_context; have [cells [out E]] := high_out Hctx.
by exists ctx, high_ids, cells, out; split=> //; vm_compute.
Qed.
