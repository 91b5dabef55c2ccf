(** The calls agree with the reference functions also when the context has tables (C51). *)

From Coq Require Import ZArith NArith Init.Byte Strings.Byte.
From mathcomp Require Import ssreflect ssrfun ssrbool eqtype ssrnat seq.
From mathcomp Require Import ssralg poly.
From Verif Require Import Base Bytes Spec SpecKZG SpecDAS SpecFr FrEnv Fr FixedBaseMSM FK20Verifier Eip7594.
From Verif Require Import BatchAddition SpecMSM FrMsm SpecTables SpecVerify ApiEip ApiTables PropMSM.
From Verif Require Import SpecConsensus PropProver PropRecover PropVerify PropConsensus.

Set Implicit Arguments.
Unset Strict Implicit.
Unset Printing Implicit Defensive.

Import GRing.Theory.

Section Tables.
Variables (Fq : fieldType) (G1 G2 GT : lmodType Fr) (env : das_env G1 G2 GT).
Variables (of_affine : Fq * Fq -> G1) (A : G1 -> Fq * Fq).
Hypothesis HC : curve_coords of_affine A.
Hypothesis std : env_std env.
Hypothesis Eme : de_me env = fr_msm_env of_affine A.
Variables (g1s : seq G1) (g2s : seq G2) (w : nat) (ctx : das_context G1 G2).
Hypothesis S1 : size g1s = (2 ^ 12)%N.
Hypothesis S2 : size g2s = 65%N.
Hypothesis Hw : (0 < w <= 24)%N.
Hypothesis Hctx : das_context_new fr_params eip7594_consts g1s g2s (PrecompYes w) = Ret ctx.
Local Notation compress := (te_g1_to_compressed (de_te env)).
Local Notation decompress := (de_g1_from_compressed env).
Local Notation hash b := (te_reduce_bytes_to_scalar_bias (de_te env) (te_sha256 (de_te env) b)).

Let plain : exists c, das_context_new fr_params eip7594_consts g1s g2s PrecompNo = Ret c.
Proof. exact: (C18_context S1 S2). Qed.

(** No exceptional pair is met with f (C21). *)
Local Notation regular f :=
  (forall j, (j < 128)%N -> no_exceptional_pair w (table_points g1s j) (table_scalars f j)).

Theorem C51_compute_tables blob : size blob = (2 ^ 17)%N -> (forall f, blob_polynomial blob f -> regular f) ->
  exists2 res, compute_cells_and_kzg_proofs env eip7594_consts ctx blob = Ret res &
    ok_value res = ref_compute_cells_and_kzg_proofs g1s compress blob.
Proof.
move=> Sb H; have [c Hc] := plain.
rewrite (C21_compute HC std Eme S1 S2 Hw Hc Hctx Sb H); exact: (C51_compute std S1 S2 Hc Sb).
Qed.

Theorem C51_recover_tables idx cells : cells_shape cells -> (forall f, cells_polynomial idx cells f -> regular f) ->
  exists2 res, recover_cells_and_kzg_proofs env eip7594_consts ctx idx cells = Ret res &
    ok_value res =
    ssrfun.Option.bind (fun out => if has_cells out.1 idx cells then Some out else None)
      (ref_recover_cells_and_kzg_proofs g1s compress idx cells).
Proof.
move=> Sc H; have [c Hc] := plain.
rewrite (C21_recover HC std Eme S1 S2 Hw Hc Hctx Sc H); exact: (C51_recover std S1 S2 Hc idx Sc).
Qed.

(** The other two calls, without a condition on the tables *)
Theorem C51_commitment_tables lag blob : lagrange_setup g1s lag -> size blob = (2 ^ 17)%N ->
  exists2 res, blob_to_kzg_commitment env eip7594_consts ctx blob = Ret res &
    ok_value res = ref_blob_to_kzg_commitment lag compress blob.
Proof.
move=> Hl Sb; have [c Hc] := plain; have [-> _] := C21_commitment_verify env S1 S2 Hc Hctx blob [::] [::] [::] [::].
exact: (C51_commitment std S1 S2 Hc Hl Sb).
Qed.
Theorem C51_verify_tables coms idx cells proofs : call_types coms cells proofs ->
  exists2 res, verify_cell_kzg_proof_batch env eip7594_consts ctx coms idx cells proofs = Ret res &
    verdict res = ref_verify_cell_kzg_proof_batch g1s g2s decompress (de_pair env)
      (fun b => hash b) coms idx cells proofs.
Proof.
move=> T; have [c Hc] := plain; have [_ ->] := C21_commitment_verify env S1 S2 Hc Hctx [::] coms idx cells proofs.
exact: (C51_verify std S1 S2 Hc idx T).
Qed.
End Tables.
