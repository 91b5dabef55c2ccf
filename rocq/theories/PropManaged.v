(** Properties of the conversions of the Java and Node bindings (C40). *)

From Coq Require Import ZArith NArith Init.Byte Strings.Byte.
From mathcomp Require Import ssreflect ssrfun ssrbool eqtype ssrnat seq ssralg.
From mathcomp Require Import zify_ssreflect.
From Verif Require Import Base Bytes SpecFr FrEnv Fr FixedBaseMSM FK20Verifier Eip7594 Eip7594Proofs.
From Verif Require Import PolyCoeffProofs SpecVerify ApiEip PropProver PropRecover PropVerify.
From Verif Require Import CApi CProofs Managed ManagedProofs.

Set Implicit Arguments.
Unset Strict Implicit.
Unset Printing Implicit Defensive.

Import GRing.Theory.

(** ** Lengths *)
Section Lengths.
Variables (ctx err : Type).
Implicit Types (api : rust_api ctx err) (c : ctx).

(** A wrong length: an exception that says so, without a look at what the library would do. *)
Definition rejected (A : Type) (f : rust_api ctx err -> outcome (result A (managed_error err))) : Prop :=
  exists expected got name, got <> expected /\
    forall api, f api = Ret (Err (IncorrectSize expected got name)).

Theorem C40_blob_length c blob : size blob <> 2 ^ 17 ->
  [/\ rejected (fun api => java_blob_to_kzg_commitment api c blob),
      rejected (fun api => java_compute_cells_and_kzg_proofs api c blob),
      rejected (fun api => node_blob_to_kzg_commitment api c blob),
      rejected (fun api => node_compute_cells_and_kzg_proofs api c blob) &
      rejected (fun api => node_compute_cells api c blob)].
Proof.
move=> H.
have E : slice_to_array_ref err (BYTES_PER_BLOB eip7594_consts) NmBlob blob =
  Err (IncorrectSize (2 ^ 17) (size blob) NmBlob) by rewrite c_blob; exact: array_bad.
have R (A : Type) (k : seq byte -> rust_api ctx err -> outcome (result A (managed_error err))) :
  rejected (fun api => rlet blob := Ret (slice_to_array_ref err (BYTES_PER_BLOB eip7594_consts) NmBlob blob) in k blob api).
  by exists (2 ^ 17), (size blob), NmBlob; split=> // api; rewrite E.
split; [exact: R|exact: R|exact: R|exact: R|].
exists (2 ^ 17), (size blob), NmBlob; split=> // api.
by rewrite /node_compute_cells /node_compute_cells_and_kzg_proofs E.
Qed.

Theorem C40_java_recover_length c ids cells : ~~ all (fun x => size x == 2048) cells ->
  rejected (fun api => java_recover_cells_and_kzg_proofs api c ids cells).
Proof.
move=> H; have [got Hg E] := arrays_bad err NmCell H; exists 2048, got, NmCell; split=> // api.
by rewrite /java_recover_cells_and_kzg_proofs c_cell E.
Qed.

Theorem C40_java_verify_length c coms ids cells proofs :
  ~~ [&& all (fun x => size x == 48) coms, all (fun x => size x == 2048) cells &
         all (fun x => size x == 48) proofs] ->
  rejected (fun api => java_verify_cell_kzg_proof_batch api c coms ids cells proofs).
Proof.
rewrite /java_verify_cell_kzg_proof_batch c_cell /BYTES_PER_COMMITMENT.
case H2: (all _ cells); last first.
  move=> _; have [got Hg E] := arrays_bad err NmCell (negbT H2); exists 2048, got, NmCell; split=> // api.
  by rewrite E.
case H1: (all _ coms); last first.
  move=> _; have [got Hg E] := arrays_bad err NmCommitment (negbT H1); exists 48, got, NmCommitment; split=> // api.
  by rewrite (arrays_ok _ _ H2) rbind_Ok E.
rewrite andTb => H3; have [got Hg E] := arrays_bad err NmProof H3; exists 48, got, NmProof; split=> // api.
by rewrite (arrays_ok _ _ H2) rbind_Ok (arrays_ok _ _ H1) rbind_Ok E.
Qed.

(** Node looks at the indices first. *)
Theorem C40_node_negative_panics api c ids cells coms proofs : ~~ all (fun z => (0 <=? z)%Z) ids ->
  node_recover_cells_and_kzg_proofs api c ids cells = Panic /\
  node_verify_cell_kzg_proof_batch api c coms ids cells proofs = Panic.
Proof.
move=> /bigints_bad E.
by rewrite /node_recover_cells_and_kzg_proofs /node_verify_cell_kzg_proof_batch E.
Qed.

Theorem C40_node_recover_length c ids cells : all (fun z => (0 <=? z)%Z) ids ->
  ~~ all (fun x => size x == 2048) cells ->
  rejected (fun api => node_recover_cells_and_kzg_proofs api c ids cells).
Proof.
move=> Hi H; have [got Hg E] := arrays_bad err NmCell H; exists 2048, got, NmCell; split=> // api.
by rewrite /node_recover_cells_and_kzg_proofs (bigints_ok Hi) obind_Ret c_cell E.
Qed.

Theorem C40_node_verify_length c coms ids cells proofs : all (fun z => (0 <=? z)%Z) ids ->
  ~~ [&& all (fun x => size x == 48) coms, all (fun x => size x == 2048) cells &
         all (fun x => size x == 48) proofs] ->
  rejected (fun api => node_verify_cell_kzg_proof_batch api c coms ids cells proofs).
Proof.
move=> Hi.
have Hn api : node_verify_cell_kzg_proof_batch api c coms ids cells proofs =
  rlet commitments := arrays err 48 NmCommitment coms in
  rlet cells := arrays err 2048 NmCell cells in
  rlet proofs := arrays err 48 NmProof proofs in
  omap (verdict api) (ra_verify api c commitments [seq Z.to_N (z mod 2 ^ 64) | z <- ids] cells proofs).
  by rewrite /node_verify_cell_kzg_proof_batch (bigints_ok Hi) c_cell obind_Ret.
case H1: (all _ coms); last first.
  move=> _; have [got Hg E] := arrays_bad err NmCommitment (negbT H1); exists 48, got, NmCommitment; split=> // api.
  by rewrite Hn E.
case H2: (all _ cells); last first.
  move=> _; have [got Hg E] := arrays_bad err NmCell (negbT H2); exists 2048, got, NmCell; split=> // api.
  by rewrite Hn (arrays_ok _ _ H1) rbind_Ok E.
rewrite andTb => H3; have [got Hg E] := arrays_bad err NmProof H3; exists 48, got, NmProof; split=> // api.
by rewrite Hn (arrays_ok _ _ H1) rbind_Ok (arrays_ok _ _ H2) rbind_Ok E.
Qed.

(** ** With the right lengths, the library is called, with the indices modulo 2^64, and its errors
    become exceptions, except for a failed proof, which becomes false. *)
Definition shown (A : Type) (r : outcome (result A err)) : outcome (result A (managed_error err)) :=
  match r with
  | Ret (Ok a) => Ret (Ok a)
  | Ret (Err e) => Ret (Err (Cryptography e))
  | Panic => Panic
  end.
Definition shown_verdict api (r : outcome (result unit err)) : outcome (result bool (managed_error err)) :=
  match r with
  | Ret (Ok _) => Ret (Ok true)
  | Ret (Err e) => if ra_invalid_proof api e then Ret (Ok false) else Ret (Err (Cryptography e))
  | Panic => Panic
  end.

Lemma cryptoE (A : Type) (x : outcome (result A err)) : crypto x = shown x.
Proof. by case: x => [[a|e]|]. Qed.
Lemma verdictE api (x : outcome (result unit err)) : omap (verdict api) x = shown_verdict api x.
Proof. by case: x => [[a|e]|] //=; case: ifP. Qed.

Theorem C40_blob_passes api c blob : size blob = 2 ^ 17 ->
  [/\ java_blob_to_kzg_commitment api c blob = shown (ra_blob_to_kzg_commitment api c blob),
      node_blob_to_kzg_commitment api c blob = shown (ra_blob_to_kzg_commitment api c blob),
      java_compute_cells_and_kzg_proofs api c blob = shown (ra_compute api c blob) &
      node_compute_cells_and_kzg_proofs api c blob = shown (ra_compute api c blob)].
Proof.
move=> H.
have E : slice_to_array_ref err (BYTES_PER_BLOB eip7594_consts) NmBlob blob = Ok blob.
  by rewrite c_blob; exact: array_ok.
rewrite /java_blob_to_kzg_commitment /node_blob_to_kzg_commitment /java_compute_cells_and_kzg_proofs.
rewrite /node_compute_cells_and_kzg_proofs E /rbind !cryptoE.
exact: And4 erefl erefl erefl erefl.
Qed.

(** [computeCells] in Node gives the first part of the result. *)
Theorem C40_node_cells api c blob : size blob = 2 ^ 17 ->
  (forall cells proofs, ra_compute api c blob = Ret (Ok (cells, proofs)) ->
     node_compute_cells api c blob = Ret (Ok cells)) /\
  (forall e, ra_compute api c blob = Ret (Err e) ->
     node_compute_cells api c blob = Ret (Err (Cryptography e))) /\
  (ra_compute api c blob = Panic -> node_compute_cells api c blob = Panic).
Proof.
move=> H; have [_ _ _ E] := C40_blob_passes api c H; rewrite /node_compute_cells E.
by split=> [cells proofs ->|] //; split=> [e ->|->].
Qed.

Theorem C40_java_passes api c coms ids cells proofs :
  all (fun x => size x == 48) coms -> all (fun x => size x == 2048) cells ->
  all (fun x => size x == 48) proofs ->
  java_recover_cells_and_kzg_proofs api c ids cells =
    shown (ra_recover api c [seq Z.to_N (z mod 2 ^ 64) | z <- ids] cells) /\
  java_verify_cell_kzg_proof_batch api c coms ids cells proofs =
    shown_verdict api (ra_verify api c coms [seq Z.to_N (z mod 2 ^ 64) | z <- ids] cells proofs).
Proof.
move=> H1 H2 H3; split.
  by rewrite /java_recover_cells_and_kzg_proofs c_cell (arrays_ok _ _ H2) rbind_Ok cryptoE.
rewrite /java_verify_cell_kzg_proof_batch c_cell (arrays_ok _ _ H2) rbind_Ok (arrays_ok _ _ H1) rbind_Ok.
by rewrite (arrays_ok _ _ H3) rbind_Ok verdictE.
Qed.

Theorem C40_node_passes api c coms ids cells proofs : all (fun z => (0 <=? z)%Z) ids ->
  all (fun x => size x == 48) coms -> all (fun x => size x == 2048) cells ->
  all (fun x => size x == 48) proofs ->
  node_recover_cells_and_kzg_proofs api c ids cells =
    shown (ra_recover api c [seq Z.to_N (z mod 2 ^ 64) | z <- ids] cells) /\
  node_verify_cell_kzg_proof_batch api c coms ids cells proofs =
    shown_verdict api (ra_verify api c coms [seq Z.to_N (z mod 2 ^ 64) | z <- ids] cells proofs).
Proof.
move=> Hi H1 H2 H3; split.
  by rewrite /node_recover_cells_and_kzg_proofs (bigints_ok Hi) obind_Ret c_cell (arrays_ok _ _ H2) rbind_Ok cryptoE.
rewrite /node_verify_cell_kzg_proof_batch (bigints_ok Hi) obind_Ret c_cell (arrays_ok _ _ H1) rbind_Ok.
by rewrite (arrays_ok _ _ H2) rbind_Ok (arrays_ok _ _ H3) rbind_Ok verdictE.
Qed.
Lemma shown_ok (A : Type) (x : outcome (result A err)) a : x = Ret (Ok a) -> shown x = Ret (Ok a).
Proof. by move=> ->. Qed.
Lemma shown_not_ok (A : Type) (x : outcome (result A err)) : x <> Panic ->
  (forall a, x <> Ret (Ok a)) -> exists e, shown x = Ret (Err e).
Proof. by case: x => [[a _ /(_ a)|e _ _]|] //; exists (Cryptography e). Qed.
Lemma shown_verdict_not_ok api (x : outcome (result unit err)) :
  match x with Ret (Ok _) => False | Ret (Err e) => ~ ra_invalid_proof api e | Panic => False end ->
  exists e, shown_verdict api x = Ret (Err e).
Proof. by case: x => [[a|e]|] //= H; exists (Cryptography e); case: ifP. Qed.
End Lengths.

(** ** Indices *)
Lemma low_indices ids : all (fun z => (0 <=? z)%Z) ids -> all (fun z => (z mod 2 ^ 64 <? 128)%Z) ids ->
  all (fun i => (i <? 128)%num) [seq Z.to_N (z mod 2 ^ 64) | z <- ids].
Proof.
have one z : (z mod 2 ^ 64 <? 128)%Z -> (Z.to_N (z mod 2 ^ 64) <? 128)%num.
  have [Hy _] := Z.mod_pos_bound z (2 ^ 64) erefl.
  by move: (Z.modulo z (2 ^ 64)) Hy => y Hy /Z.ltb_lt Hlt; apply/N.ltb_lt; lia.
by elim: ids => [|z ids IH] //= /andP[Hz /IH H] /andP[/one -> /H ->].
Qed.
Lemma nth_indices (T : Type) (x : T) (s : seq T) ids :
  [seq nth x s (Z.to_nat (z mod 2 ^ 64)) | z <- ids] =
  [seq nth x s (N.to_nat i) | i <- [seq Z.to_N (z mod 2 ^ 64) | z <- ids]].
Proof. by rewrite -map_comp; apply: eq_map => z /=; rewrite Z_N_nat. Qed.
Lemma nth_shape (cells : seq (seq byte)) idx : size cells = 128 ->
  all (fun x => size x == 2048) cells -> all (fun i => (i <? 128)%num) idx ->
  all (fun x => size x == 2048) [seq nth [::] cells (N.to_nat i) | i <- idx].
Proof.
move=> Sc Sh Hi; elim: idx Hi => [|i idx IH] //= /andP[/N.ltb_lt Hi /IH ->]; rewrite andbT.
by apply: (all_nthP [::] Sh); rewrite Sc; lia.
Qed.

Section Indices.
Variables (G1 G2 GT : lmodType Fr) (env : das_env G1 G2 GT).
Hypothesis std : env_std env.
Variables (g1s : seq G1) (g2s : seq G2) (ctx : das_context G1 G2).
Hypothesis S1 : size g1s = (2 ^ 12)%N.
Hypothesis S2 : size g2s = 65%N.
Hypothesis Hctx : das_context_new fr_params eip7594_consts g1s g2s PrecompNo = Ret ctx.
Variables (new : bool -> N -> outcome (das_context G1 G2)) (debug : error -> seq byte).
Local Notation api := (eip7594_api env new debug).

Definition java_long (z : Z) : bool := (- 2 ^ 63 <=? z)%Z && (z <? 2 ^ 63)%Z.
Definition cell_index (z : Z) : bool := (0 <=? z)%Z && (z <=? 127)%Z.

Lemma long_index z : java_long z -> index128 (Z.to_N (z mod 2 ^ 64)) -> cell_index z.
Proof.
rewrite /java_long /cell_index /index128 => /andP[/Z.leb_le H1 /Z.ltb_lt H2] /N.ltb_lt H3.
have [Hz|Hz] : (z < 0 \/ 0 <= z)%Z by lia.
  move: H3; rewrite -(Z_mod_plus_full z 1) Z.mod_small; lia.
move: H3; rewrite Z.mod_small; last lia.
by move=> H3; apply/andP; split; apply/Z.leb_le; lia.
Qed.

Lemma recover_range idx cells out : cells_shape cells ->
  recover_cells_and_kzg_proofs env eip7594_consts ctx idx cells = Ret (Ok out) -> all index128 idx.
Proof. by move=> Sc /(recover_ok std S1 S2 Hctx Sc)[[]]. Qed.

Lemma verify_range coms idx cells proofs : call_types coms cells proofs ->
  match verify_cell_kzg_proof_batch env eip7594_consts ctx coms idx cells proofs with
  | Ret (Ok _) => all index128 idx : Prop
  | Ret (Err e) => invalid_proof e -> all index128 idx
  | Panic => False
  end.
Proof.
case=> T1 T2 T3; case: (verify_caseP std S1 S2 Hctx idx T1 T2 T3) => //=.
by move=> C P I evals [_ _ _ H] _ _; case: ifP.
Qed.

Lemma bad_long ids : all java_long ids -> ~~ all cell_index ids ->
  all index128 [seq Z.to_N (z mod 2 ^ 64) | z <- ids] -> False.
Proof.
move=> Hl /negP Hc Hr; apply: Hc; elim: ids Hl Hr => [|z ids IH] //= /andP[Hz Hl] /andP[Hi Hr].
by rewrite (long_index Hz Hi) (IH Hl Hr).
Qed.
Lemma recover_returns idx cells : cells_shape cells ->
  recover_cells_and_kzg_proofs env eip7594_consts ctx idx cells <> Panic.
Proof.
move=> Sc; by case: (recover_caseP std S1 S2 Hctx idx Sc (@no_tables _ _ _ env g1s)).
Qed.
Lemma verify_not (P : Prop) (x : outcome (result unit error)) : (P -> False) ->
  match x with
  | Ret (Ok _) => P
  | Ret (Err e) => invalid_proof e -> P
  | Panic => False
  end ->
  match x with
  | Ret (Ok _) => False
  | Ret (Err e) => ~ ra_invalid_proof api e
  | Panic => False
  end.
Proof. by case: x => [[a|e]|] //= HP H H'; apply: HP; apply: H. Qed.

(** Java: a long that is not a cell index makes the call throw. *)
Theorem C40_java_recover_index ids cells : all java_long ids -> ~~ all cell_index ids ->
  exists e, java_recover_cells_and_kzg_proofs api ctx ids cells = Ret (Err e).
Proof.
move=> Hl Hc.
case Sc: (all (fun x => size x == 2048) cells); last first.
  have [x [y [n [_ H]]]] := @C40_java_recover_length _ error ctx ids cells (negbT Sc).
  by exists (IncorrectSize x y n); exact: H.
have [-> _] := @C40_java_passes _ error api ctx [::] ids cells [::] isT Sc isT.
apply: shown_not_ok.
  exact: (@recover_returns _ cells Sc).
move=> out /(recover_range Sc) Hr; exact: (@bad_long ids Hl Hc Hr).
Qed.

Theorem C40_java_verify_index coms ids cells proofs : all java_long ids -> ~~ all cell_index ids ->
  exists e, java_verify_cell_kzg_proof_batch api ctx coms ids cells proofs = Ret (Err e).
Proof.
move=> Hl Hc.
case Sc: [&& all (fun x => size x == 48) coms, all (fun x => size x == 2048) cells &
             all (fun x => size x == 48) proofs]; last first.
  have [x [y [n [_ H]]]] := @C40_java_verify_length _ error ctx coms ids cells proofs (negbT Sc).
  by exists (IncorrectSize x y n); exact: H.
case/and3P: Sc => T1 T2 T3.
have [_ ->] := @C40_java_passes _ error api ctx coms ids cells proofs T1 T2 T3.
apply: shown_verdict_not_ok.
have := @verify_range coms [seq Z.to_N (z mod 2 ^ 64) | z <- ids] cells proofs (And3 T1 T2 T3).
exact: (verify_not (bad_long Hl Hc)).
Qed.

(** Node: only the value modulo 2^64 counts, so an index such as 2^64 + 3 is used as 3. *)
Theorem C40_node_recover_wraps blob out ids :
  size blob = 2 ^ 17 -> compute_cells_and_kzg_proofs env eip7594_consts ctx blob = Ret (Ok out) ->
  all (fun z => (0 <=? z)%Z) ids -> all (fun z => (z mod 2 ^ 64 <? 128)%Z) ids ->
  uniq [seq Z.to_N (z mod 2 ^ 64) | z <- ids] -> 64 <= size ids ->
  node_recover_cells_and_kzg_proofs api ctx ids
    [seq nth [::] out.1 (Z.to_nat (z mod 2 ^ 64)) | z <- ids] = Ret (Ok out).
Proof.
case: out => cells proofs Sb Hc H0 Hr Hu Hs.
pose idx := [seq Z.to_N (z mod 2 ^ 64) | z <- ids].
have Hi : all (fun i => (i <? 128)%num) idx by exact: low_indices.
have Si : 64 <= size idx by rewrite size_map.
have E : [seq nth [::] cells (Z.to_nat (z mod 2 ^ 64)) | z <- ids] =
         [seq nth [::] cells (N.to_nat i) | i <- idx] by exact: nth_indices.
have R := @C06_recover_any_half _ _ _ _ std _ _ _ S1 S2 Hctx blob cells proofs idx Sb Hc Hu Hi Si.
have [Sc _ _] := @C01_systematic _ _ _ _ std _ _ _ S1 S2 Hctx blob cells proofs Sb Hc.
have [_ Sh _] := @C01_systematic _ _ _ _ std _ _ _ S1 S2 Hctx blob cells proofs Sb Hc.
have T : all (fun x => size x == 2048) [seq nth [::] cells (N.to_nat i) | i <- idx].
  exact: (@nth_shape cells idx Sc Sh Hi).
rewrite E; have [-> _] := @C40_node_passes _ error api ctx [::] ids _ [::] H0 isT T isT.
exact: (shown_ok R).
Qed.
End Indices.
