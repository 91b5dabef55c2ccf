(** Properties of [blob_to_kzg_commitment] and [compute_cells_and_kzg_proofs] (C01-C05) and of the
    encodings (C36), at the constants of EIP-7594 over the BLS12-381 scalar field. *)

From Coq Require Import ZArith NArith Init.Byte Strings.Byte.
From mathcomp Require Import ssreflect ssrfun ssrbool eqtype ssrnat seq div fintype bigop.
From mathcomp Require Import ssralg poly polydiv.
From Verif Require Import Base Bytes Spec SpecKZG SpecDAS FixedBaseMSM LincombProofs FK20ProverProofs.
From Verif Require Import FK20Verifier Eip7594 Eip7594Proofs ApiEip.
From Verif Require Import ZField FrPrime Pocklington Fr SpecFr FrEnv.

Set Implicit Arguments.
Unset Strict Implicit.
Unset Printing Implicit Defensive.

Import GRing.Theory.
Local Open Scope ring_scope.


(** The root of unity of the specification is the one of the EIP, and has order 8192. *)
Lemma r_neq0 : r_modulus <> 0%Z.
Proof. by vm_compute. Qed.
Lemma w8192_power_check :
  (powm r_modulus 7 (Z.to_pos ((r_modulus - 1) / 8192)) =?
   0x485d512737b1da3d2ccddea2972e89ed146b58bc434906ac6fdd00bfc78c8967 mod r_modulus)%Z.
Proof. by vm_compute. Qed.
Lemma power_check (r a e v : Z) : r <> 0%Z -> (0 < e)%Z ->
  (powm r a (Z.to_pos e) =? v mod r)%Z -> (v mod r = a ^ e mod r)%Z.
Proof. by move=> Hr He /Z.eqb_eq <-; rewrite powm_spec // Z2Pos.id. Qed.
Lemma exponent_pos : (0 < (r_modulus - 1) / 8192)%Z.
Proof. by vm_compute. Qed.
Theorem w8192_power : zval (p := rZ) w8192 = (7 ^ ((r_modulus - 1) / 8192) mod r_modulus)%Z.
Proof.
rewrite -(power_check r_neq0 exponent_pos w8192_power_check).
exact: (@zval_of_Z rZ).
Qed.
Theorem w8192_order : w8192 ^+ (2 ^ 12) = -1.
Proof. exact: w8192_half. Qed.

Local Opaque w8192 w4096.

Section Prover.
Variables (G1 G2 GT : lmodType Fr) (env : das_env G1 G2 GT).
Hypothesis std : env_std env.
Variables (g1s : seq G1) (g2s : seq G2) (ctx : das_context G1 G2).
Hypothesis S1 : size g1s = (2 ^ 12)%N.
Hypothesis S2 : size g2s = 65%N.
Hypothesis Hctx : das_context_new fr_params eip7594_consts g1s g2s PrecompNo = Ret ctx.
Local Notation compute := (compute_cells_and_kzg_proofs env eip7594_consts ctx).
Local Notation commitment := (blob_to_kzg_commitment env eip7594_consts ctx).
Local Notation compress := (te_g1_to_compressed (de_te env)).

Lemma no_tables : tables_ok env g1s PrecompNo.
Proof. by move=> poly; apply: fk20_msm_ok_no. Qed.

Lemma compute_ok blob out : size blob = (2 ^ 17)%N -> compute blob = Ret (Ok out) ->
  exists2 f, blob_polynomial blob f & out = output_of_poly env g1s f.
Proof.
move=> Sb; case: (compute_cases std S1 S2 Hctx Sb) => [[f Hf [E _]]|[i _ [E _]]].
  by rewrite (E no_tables) => -[<-]; exists f.
by rewrite E.
Qed.

(** ** C01 *)
Theorem C01_systematic blob cells proofs :
  size blob = (2 ^ 17)%N -> compute blob = Ret (Ok (cells, proofs)) ->
  [/\ size cells = 128%N, all (fun cell => size cell == 2048%N) cells &
      flatten (take 64 cells) = blob].
Proof.
move=> Sb /(compute_ok Sb)[f Hf] [-> _]; split; first exact: size_mkseq.
  by apply/allP => x /mapP[k _ ->]; rewrite size_cell_of_poly.
rewrite /mkseq -map_take take_iota; exact: (blob_systematic std Sb Hf).
Qed.

(** ** C02 *)
Theorem C02_cells blob cells proofs :
  size blob = (2 ^ 17)%N -> compute blob = Ret (Ok (cells, proofs)) ->
  exists! f, blob_polynomial blob f /\
    forall k j, (k < 128)%N -> (j < 64)%N ->
      chunk (nth [::] cells k) j = fr_be f.[w8192 ^+ bitrev 13 (k * 64 + j)].
Proof.
move=> Sb /(compute_ok Sb)[f Hf] [-> _]; exists f; split; last first.
  by move=> g [Hg _]; exact: (blob_polynomial_unique std Hf Hg).
split; first exact: Hf.
by move=> k j Hk Hj; rewrite nth_mkseq // (chunk_cell_of_poly std f k Hj).
Qed.

(** ** C03 *)
Theorem C03_proofs blob cells proofs f :
  size blob = (2 ^ 17)%N -> compute blob = Ret (Ok (cells, proofs)) -> blob_polynomial blob f ->
  size proofs = 128%N /\
  forall k, (k < 128)%N -> nth [::] proofs k = compress (commit g1s (f %/ coset_vanishing k)).
Proof.
move=> Sb /(compute_ok Sb)[f' Hf'] [_ ->] Hf.
rewrite (blob_polynomial_unique std Hf Hf'); split; first exact: size_mkseq.
by move=> k Hk; rewrite nth_mkseq.
Qed.

(** With the powers of a secret as setup, the proof is the quotient at the secret. *)
Theorem C03_proofs_tau (tau : Fr) (G : G1) blob cells proofs f :
  g1s = srs_of tau G (2 ^ 12) ->
  size blob = (2 ^ 17)%N -> compute blob = Ret (Ok (cells, proofs)) -> blob_polynomial blob f ->
  forall k, (k < 128)%N -> nth [::] proofs k = compress ((f %/ coset_vanishing k).[tau] *: G).
Proof.
move=> E Sb Hc Hf k Hk; have [_ ->] := C03_proofs Sb Hc Hf; last exact: Hk.
rewrite E commit_srs //; apply: leq_trans (leq_divp _ _) _; by case: Hf.
Qed.

(** ** C04 *)
Theorem C04_commitment blob cells proofs f :
  size blob = (2 ^ 17)%N -> compute blob = Ret (Ok (cells, proofs)) -> blob_polynomial blob f ->
  commitment blob = Ret (Ok (compress (commit g1s f))).
Proof.
move=> Sb Hc Hf; case: (compute_cases std S1 S2 Hctx Sb) => [[g Hg [_ ->]]|[i _ [E _]]].
  by rewrite (blob_polynomial_unique std Hf Hg).
by rewrite Hc in E.
Qed.

Theorem C04_commitment_tau (tau : Fr) (G : G1) blob cells proofs f :
  g1s = srs_of tau G (2 ^ 12) ->
  size blob = (2 ^ 17)%N -> compute blob = Ret (Ok (cells, proofs)) -> blob_polynomial blob f ->
  commitment blob = Ret (Ok (compress (f.[tau] *: G))).
Proof.
move=> E Sb Hc Hf; rewrite (C04_commitment Sb Hc Hf) {1}E commit_srs //; by case: Hf.
Qed.

Theorem C04_fail_together blob err : size blob = (2 ^ 17)%N ->
  commitment blob = Ret (Err err) <-> compute blob = Ret (Err err).
Proof.
move=> Sb; case: (compute_cases std S1 S2 Hctx Sb) => [[g Hg [E ->]]|[i _ [-> ->]]].
  by rewrite (E no_tables); split.
by split=> -[<-].
Qed.

(** ** C05 *)
Theorem C05_accepted blob : size blob = (2 ^ 17)%N ->
  ((exists out, compute blob = Ret (Ok out)) <->
     forall i, (i < 2 ^ 12)%N -> canonical (chunk blob i)) /\
  ((exists c, commitment blob = Ret (Ok c)) <->
     forall i, (i < 2 ^ 12)%N -> canonical (chunk blob i)).
Proof.
move=> Sb; case: (compute_cases std S1 S2 Hctx Sb) => [[f Hf [E Ec]]|[i [Hi Bi Gi] [-> ->]]].
  rewrite (E no_tables) Ec; have H := blob_polynomial_canonical Hf.
  by split; split=> // _; eexists.
by split; split=> [[out]|/(_ i Hi)] //; rewrite (negbTE Bi).
Qed.

Theorem C05_rejected blob i : size blob = (2 ^ 17)%N -> (i < 2 ^ 12)%N ->
  ~~ canonical (chunk blob i) -> (forall j, (j < i)%N -> canonical (chunk blob j)) ->
  compute blob = Ret (Err (ESerialization (CouldNotDeserializeScalar (chunk blob i)))) /\
  commitment blob = Ret (Err (ESerialization (CouldNotDeserializeScalar (chunk blob i)))).
Proof.
move=> Sb Hi Bi Gi; case: (compute_cases std S1 S2 Hctx Sb) => [[f Hf _]|[i' [Hi' Bi' Gi'] H]].
  by have := blob_polynomial_canonical Hf Hi; rewrite (negbTE Bi).
have -> // : i = i'.
case: (ltngtP i i') => // H'; first by have := Gi' i H'; rewrite (negbTE Bi).
by have := Gi i' H'; rewrite (negbTE Bi').
Qed.
End Prover.

(** ** C36 *)
Section Codec.
Variables (G1 G2 GT : lmodType Fr) (env : das_env G1 G2 GT).
Hypothesis std : env_std env.

(** 32 bytes decode exactly when they are canonical, to the scalar with that encoding. *)
Theorem C36_scalar_decode bytes : size bytes = 32%N ->
  deserialize_bytes_to_scalar env bytes =
  Ret (if canonical bytes then Ok (@of_Z rZ (Z.of_N (be_val bytes)) : Fr)
       else Err (CouldNotDeserializeScalar bytes)).
Proof.
move=> Sb; rewrite /deserialize_bytes_to_scalar Sb (es_from std) /scalar_from_bytes_be /canonical /=.
by case: ifP.
Qed.

Theorem C36_scalar_roundtrip (x : Fr) bytes : size bytes = 32%N ->
  deserialize_bytes_to_scalar env bytes = Ret (Ok x) <-> bytes = fr_be x.
Proof.
move=> Sb; have := scalar_from_some x Sb.
rewrite /deserialize_bytes_to_scalar Sb (es_from std) /=.
case: scalar_from_bytes_be => [y|] H.
  by split=> [[E]|E]; [apply/esym/H; rewrite E | case: ((H).2 (esym E)) => ->].
by split=> // E; have := H.2 (esym E).
Qed.

(** A cell decodes exactly when its 64 chunks do; the scalars encode to the same bytes. *)
Theorem C36_cell_roundtrip cell : size cell = 2048%N ->
  (forall j, (j < 64)%N -> canonical (chunk cell j)) <->
  exists2 xs, deserialize_cell_to_scalars env cell = Ret (Ok xs) &
    size xs = 64%N /\ serialize_scalars_to_cell env eip7594_consts xs = Ret cell.
Proof.
move=> Sc; have eok := env_std_ok std; split=> [H|[xs E [Sx]]].
  have [|xs E [Sx He]] := @deserialize_scalars_ok _ _ _ _ env eok cell 64 Sc.
    by move=> i Hi; rewrite (chunk_okE std); exact: H.
  exists xs; first exact: E.
  split; first exact: Sx.
  rewrite eip_constsE (@serialize_cellE _ _ _ _ env 6 6 1 xs Sx); congr Ret.
  by apply/esym/(encodes_flatten eok) => //; rewrite Sx.
rewrite eip_constsE (@serialize_cellE _ _ _ _ env 6 6 1 xs Sx) => -[Ec] j Hj.
rewrite -(chunk_okE std) -Ec; apply: (chunk_ok_encodes eok (xs := xs)); last by rewrite Sx.
by apply/(encodes_flatten eok); rewrite ?(size_flatten_tob eok).
Qed.

(** Distinct scalars have distinct encodings. *)
Theorem C36_injective (x y : Fr) : fr_be x = fr_be y -> x = y.
Proof. by have := tob_inj (env_std_ok std); rewrite (es_to std) => H; exact: (H x y). Qed.
End Codec.

Print Assumptions w8192_power.
Print Assumptions w8192_order.
Print Assumptions C01_systematic.
Print Assumptions C02_cells.
Print Assumptions C03_proofs.
Print Assumptions C03_proofs_tau.
Print Assumptions C04_commitment.
Print Assumptions C04_commitment_tau.
Print Assumptions C04_fail_together.
Print Assumptions C05_accepted.
Print Assumptions C05_rejected.
Print Assumptions C36_scalar_decode.
Print Assumptions C36_scalar_roundtrip.
Print Assumptions C36_cell_roundtrip.
Print Assumptions C36_injective.
