(** The answers of the library do not depend on the options of the contexts (C61). *)

From Coq Require Import ZArith NArith Init.Byte Strings.Byte.
From mathcomp Require Import ssreflect ssrfun ssrbool eqtype ssrnat seq.
From mathcomp Require Import ssralg poly.
From Verif Require Import Base Bytes Spec SpecKZG SpecDAS SpecFr FrEnv Fr FixedBaseMSM FK20Verifier Eip7594.
From Verif Require Import BatchAddition SpecMSM FrMsm SpecTables Eip7594Proofs SpecVerify ApiEip ApiTables PropMSM.
From Verif Require Import FK20ProverProofs CMem CApi SpecC PropC PropCReal SpecAgree.

Set Implicit Arguments.
Unset Strict Implicit.
Unset Printing Implicit Defensive.

Import GRing.Theory.

Section Real.
Variables (G1 G2 GT : lmodType Fr) (env : das_env G1 G2 GT).
Hypothesis std : env_std env.
Variables (g1s : seq G1) (g2s : seq G2).
Variables (new : bool -> N -> outcome (das_context G1 G2)) (debug : error -> seq byte).
Local Notation api := (eip7594_api env new debug).

(** ** Sizes *)
Lemma obind_inv (A B : Type) (e : outcome A) (k : A -> outcome B) r : obind e k = Ret r ->
  exists2 x, e = Ret x & k x = Ret r.
Proof. by case: e => [x|] //= H; exists x. Qed.
Lemma rbind_inv (A B E : Type) (e : outcome (result A E)) (k : A -> outcome (result B E)) r :
  rbind e k = Ret (Ok r) -> exists2 x, e = Ret (Ok x) & k x = Ret (Ok r).
Proof. by case: e => [[x|y]|] //= H; exists x. Qed.
Lemma oassert_inv (A : Type) b (k : outcome A) r : oassert b k = Ret r -> b /\ k = Ret r.
Proof. by rewrite /oassert; case: b. Qed.
Lemma omapM_all (A B : Type) (f : A -> outcome B) (P : pred B) (l : seq A) r :
  (forall x y, f x = Ret y -> P y) -> omapM f l = Ret r -> all P r.
Proof.
move=> H; elim: l r => [|x l IH] r; first by case=> <-.
rewrite /=; case E: (f x) => [y|] //=; case El: (omapM f l) => [ys|] //= [<-].
by rewrite /= (H x y E) IH.
Qed.
Lemma outputs_sized evals proofs out : serialize_cells_and_proofs env eip7594_consts evals proofs = Ret out ->
  [/\ size out.1 = 128, size out.2 = 128, all (fun x => size x == 2048) out.1 & all (fun x => size x == 48) out.2]%N.
Proof.
move=> H; have [cells Ec Hs] := obind_inv H; have [Sp [<-]] := oassert_inv Hs.
have [cells' El Hc] := obind_inv Ec; have [Sc [Ecells]] := oassert_inv Hc.
rewrite Ecells in El Sc; move: Sc Sp; rewrite CProofs.c_cells => /eqP Sc /eqP Sp; split=> //.
  apply: (omapM_all _ El) => x y Hx; have [cell _ Hl] := obind_inv Hx; have [S [<-]] := oassert_inv Hl.
  exact: S.
by rewrite all_map; apply/allP => P _; apply/eqP; exact: (es_g1_size std).
Qed.

(** The sizes of results are those of the types, with every context. *)
Theorem C61_typed (c : das_context G1 G2) : api_typed api c.
Proof.
split=> [blob com _|blob cells proofs _|idx cells cells' proofs _].
- rewrite -[ra_blob_to_kzg_commitment _ _ _]/(blob_to_kzg_commitment env eip7594_consts c blob) => H.
  have [sc _ Hs] := rbind_inv H; have [P _ [<-]] := obind_inv Hs; exact: (es_g1_size std).
- rewrite -[ra_compute _ _ _]/(compute_cells_and_kzg_proofs env eip7594_consts c blob) => H.
  have [sc _ Hs] := rbind_inv H; have [[ps evs] _ He] := obind_inv Hs; have [out Ho [E]] := obind_inv He.
  by have := outputs_sized Ho; rewrite E.
rewrite -[ra_recover _ _ _ _]/(recover_cells_and_kzg_proofs env eip7594_consts c idx cells) => H.
have [sc _ Hs] := rbind_inv H; have [[ps evs] _ He] := obind_inv Hs; have [out Ho [E]] := obind_inv He.
by have := outputs_sized Ho; rewrite E.
Qed.

(** ** Options *)
Hypothesis S1 : size g1s = (2 ^ 12)%N.
Hypothesis S2 : size g2s = 65%N.
(** Contexts for the same setup, each with its own option. *)
Definition all_built (ups : contexts use_precomp) (cs : contexts (das_context G1 G2)) : Prop :=
  [/\ built g1s g2s (of_c ups) (of_c cs), built g1s g2s (of_cs ups) (of_cs cs),
      built g1s g2s (of_nim ups) (of_nim cs), built g1s g2s (of_java ups) (of_java cs) &
      built g1s g2s (of_node ups) (of_node cs)].

Lemma alike_built (T : Type) (f : das_context G1 G2 -> T) ups cs : all_built ups cs ->
  (forall up up' c c', built g1s g2s up c -> built g1s g2s up' c' -> f c = f c') -> alike f cs.
Proof.
move=> [B1 B2 B3 B4 B5] H.
exact (And4 (H _ _ _ _ B2 B1) (H _ _ _ _ B3 B1) (H _ _ _ _ B4 B1) (H _ _ _ _ B5 B1)).
Qed.

(** Commitments and verdicts are the same with every option. *)
Theorem C61_options ups cs blob coms ks cells proofs : all_built ups cs ->
  alike (fun c => ra_blob_to_kzg_commitment api c blob) cs /\
  alike (fun c => ra_verify api c coms ks cells proofs) cs.
Proof.
move=> B; split; apply: (alike_built B) => up up' c c' [_ Hc] [_ Hc'].
  by have [_ H] := ctx_same env S1 S2 Hc Hc'; exact: (H blob).
exact: (verify_same env S1 S2 Hc Hc').
Qed.
End Real.

Section Tables.
Variables (Fq : fieldType) (G1 G2 GT : lmodType Fr) (env : das_env G1 G2 GT).
Variables (of_affine : Fq * Fq -> G1) (A : G1 -> Fq * Fq).
Hypothesis HC : curve_coords of_affine A.
Hypothesis std : env_std env.
Hypothesis Eme : de_me env = fr_msm_env of_affine A.
Variables (g1s : seq G1) (g2s : seq G2).
Hypothesis S1 : size g1s = (2 ^ 12)%N.
Hypothesis S2 : size g2s = 65%N.
Variables (new : bool -> N -> outcome (das_context G1 G2)) (debug : error -> seq byte).
Local Notation api := (eip7594_api env new debug).

(** No exceptional pair is met with the polynomial, whatever the option (C21). *)
Definition all_regular (ups : contexts use_precomp) (f : {poly Fr}) : Prop :=
  [/\ regular g1s (of_c ups) f, regular g1s (of_cs ups) f, regular g1s (of_nim ups) f,
      regular g1s (of_java ups) f & regular g1s (of_node ups) f].

Lemma tables_regular up c f : built g1s g2s up c -> regular g1s up f -> tables_for env g1s up f.
Proof.
case: up => [w|] [Hw _] H; first exact: (tables_for_regular HC Eme Hw H).
exact: fk20_msm_ok_no.
Qed.

(** Cells and proofs are the same with every option, if no exceptional pair is met. *)
Theorem C61_options_tables ups cs : all_built g1s g2s ups cs ->
  (forall blob, size blob = (2 ^ 17)%N -> (forall f, blob_polynomial blob f -> all_regular ups f) ->
     alike (fun c => ra_compute api c blob) cs) /\
  (forall ks cells, all (fun x => size x == 2048%N) cells ->
     (forall f, cells_polynomial ks cells f -> all_regular ups f) ->
     alike (fun c => ra_recover api c ks cells) cs).
Proof.
move=> [B1 B2 B3 B4 B5]; split.
  move=> blob Sb H.
  have two up c : built g1s g2s up c -> (forall f, blob_polynomial blob f -> regular g1s up f) ->
      ra_compute api c blob = ra_compute api (of_c cs) blob.
    move=> B R; apply: (compute_two std S1 S2 B.2 B1.2 Sb) => f Hf.
      exact: (tables_regular B (R f Hf)).
    by have [R1 _ _ _ _] := H f Hf; exact: (tables_regular B1 R1).
  by split; [apply: (two _ _ B2)|apply: (two _ _ B3)|apply: (two _ _ B4)|apply: (two _ _ B5)] => f /H[].
move=> ks cells Sc H.
have two up c : built g1s g2s up c -> (forall f, cells_polynomial ks cells f -> regular g1s up f) ->
    ra_recover api c ks cells = ra_recover api (of_c cs) ks cells.
  move=> B R; apply: (recover_two std S1 S2 B.2 B1.2 Sc) => f Hf.
    exact: (tables_regular B (R f Hf)).
  by have [R1 _ _ _ _] := H f Hf; exact: (tables_regular B1 R1).
by split; [apply: (two _ _ B2)|apply: (two _ _ B3)|apply: (two _ _ B4)|apply: (two _ _ B5)] => f /H[].
Qed.
End Tables.
