(** The C interface with the library of Eip7594.v behind it (C48): what the calls write, as values
    of polynomials, commitments and pairing equations, and how the calls fit together. *)

From Coq Require Import ZArith NArith Init.Byte Strings.Byte.
From mathcomp Require Import ssreflect ssrfun ssrbool eqtype ssrnat seq fintype bigop ssralg poly polydiv zify_ssreflect.
From Verif Require Import Base Bytes Fr Spec SpecKZG SpecDAS SpecFr FrEnv FixedBaseMSM FK20Verifier Eip7594 Eip7594Proofs.
From Verif Require Import FK20ProverProofs SpecMSM MSMProofs FrMsm SpecTables SpecVerify ApiEip ApiTables PropProver PropRecover PropVerify.
From Verif Require Import CMem CApi SpecC CProofs CCallProofs PropC.

Set Implicit Arguments.
Unset Strict Implicit.
Unset Printing Implicit Defensive.

Import GRing.Theory.
Local Opaque w8192 w4096.

Lemma bytes_at_inj (ctx : Type) (m : mem ctx) p d d' : bytes_at m p d -> bytes_at m p d' ->
  size d = size d' -> d = d'.
Proof.
move=> [->|[b [off [s [Ep Hb Hs H]]]]] H' Sd; first by case: d' Sd {H'}.
case: H' => [Ed|[b' [off' [s' [Ep' Hb' Hs' H']]]]]; first by rewrite Ed in Sd *; case: d Sd {Hs H}.
move: Ep'; rewrite Ep => -[Eb Eo]; subst b' off'; have [Es] := is_block_inj Hb Hb'; subst s'.
by apply: (@eq_from_nth _ "000"%byte) => // i Hi; rewrite -H // -H' // -Sd.
Qed.

Lemma idx_lt k : (k <? 128)%num -> N.to_nat k < 128.
Proof. by move/N.ltb_spec0 => Hk; lia. Qed.

Section C48.
Variables (Fq : fieldType) (G1 G2 GT : lmodType Fr) (env : das_env G1 G2 GT).
Variables (of_affine : Fq * Fq -> G1) (A : G1 -> Fq * Fq).
Hypothesis HC : curve_coords of_affine A.
Hypothesis std : env_std env.
Hypothesis Eme : de_me env = fr_msm_env of_affine A.
Variables (g1s : seq G1) (g2s : seq G2).
Hypothesis S1 : size g1s = (2 ^ 12)%N.
Hypothesis S2 : size g2s = 65%N.
Variables (new : bool -> N -> outcome (das_context G1 G2)) (debug : error -> seq byte).
Local Notation api := (eip7594_api env new debug).
Local Notation compress := (te_g1_to_compressed (de_te env)).
Local Notation challenge b := (te_reduce_bytes_to_scalar_bias (de_te env) (te_sha256 (de_te env) b)).
Local Notation mem := (mem (das_context G1 G2)).

(** ** Vocabulary *)

(** c is a context for the setup: without tables, or with tables of a width from 1 to 24. *)
Definition built (up : use_precomp) (c : das_context G1 G2) : Prop :=
  (if up is PrecompYes w then 0 < w <= 24 else true) /\
  das_context_new fr_params eip7594_consts g1s g2s up = Ret c.

(** If there are tables, no exceptional pair is met with f (C21). *)
Definition regular (up : use_precomp) (f : {poly Fr}) : Prop :=
  if up is PrecompYes w then
    forall j, j < 128 -> no_exceptional_pair w (table_points g1s j) (table_scalars f j)
  else True.

(** Two arrays of 128 pointers to disjoint buffers, of 2048 and of 48 bytes. *)
Record out_buffers (m : mem) (oc op : ptr) (cps pps : seq ptr) : Prop := OutBuffers {
  ob_cells : ptrs_at m oc cps;
  ob_cells_size : size cps = 128;
  ob_cells_writable : forall i, i < 128 -> writable m (nth Null cps i) 2048;
  ob_proofs : ptrs_at m op pps;
  ob_proofs_size : size pps = 128;
  ob_proofs_writable : forall i, i < 128 -> writable m (nth Null pps i) 48;
  ob_disjoint : disjoint_regions ([seq (q, 2048) | q <- cps] ++ [seq (q, 48) | q <- pps])
}.

(** The arguments of eth_kzg_verify_cell_kzg_proof_batch. *)
Record verify_args (m : mem) (coms cells proofs : seq (seq byte)) (ks : seq N)
  (pcoms pks pcells pproofs pv : ptr) : Prop := VerifyArgs {
  va_coms : arrays_at m pcoms coms;
  va_ks : u64s_at m pks ks;
  va_cells : arrays_at m pcells cells;
  va_proofs : arrays_at m pproofs proofs;
  va_verdict : exists old, bool_at m pv old
}.

(** The buffers hold the cells of f and the proofs of the cells of f. *)
Definition holds_outputs (m : mem) (cps pps : seq ptr) (f : {poly Fr}) : Prop :=
  forall k, k < 128 -> bytes_at m (nth Null cps k) (cell_of_poly f k) /\
    bytes_at m (nth Null pps k) (compress (proof_of_poly g1s f k)).

(** The result of a call that failed: Err with a message in a new block. *)
Definition failed (m : mem) (r : cout (c_result * mem)) : Prop :=
  exists s, r = CRet (MkCResult StErr (Addr (size m) 0), rcons m (Some (BMsg _ s))).

(** ** The library with any of the contexts *)
Lemma plain : exists ctx, das_context_new fr_params eip7594_consts g1s g2s PrecompNo = Ret ctx.
Proof. exact: C18_context S1 S2. Qed.

Lemma regular_tables up c f : built up c -> regular up f -> tables_for env g1s up f.
Proof.
case: up => [w|] [Hw _] H; last exact: fk20_msm_ok_no.
exact: (tables_for_regular HC Eme Hw H).
Qed.

Lemma lib_commit up c data f : built up c -> size data = 2 ^ 17 -> blob_polynomial data f ->
  blob_to_kzg_commitment env eip7594_consts c data = Ret (Ok (compress (commit g1s f))).
Proof.
move=> [_ Hc] Sd Hf; case: (compute_cases_for std S1 S2 Hc Sd) => [[g Hg [_ ->]]|[i [Hi Bi _] _]].
  by rewrite (blob_polynomial_unique std Hf Hg).
by case/negP: Bi; exact: (blob_polynomial_canonical Hf Hi).
Qed.

Lemma lib_compute up c data f : built up c -> size data = 2 ^ 17 -> blob_polynomial data f ->
  regular up f ->
  compute_cells_and_kzg_proofs env eip7594_consts c data = Ret (Ok (output_of_poly env g1s f)).
Proof.
move=> Hb Sd Hf Hr; have Ht := regular_tables Hb Hr; case: Hb => _ Hc.
case: (compute_cases_for std S1 S2 Hc Sd) => [[g Hg [E _]]|[i [Hi Bi _] _]].
  by move: E; rewrite -(blob_polynomial_unique std Hf Hg); exact.
by case/negP: Bi; exact: (blob_polynomial_canonical Hf Hi).
Qed.

Lemma lib_bad up c data i : built up c -> size data = 2 ^ 17 -> i < 2 ^ 12 ->
  ~~ canonical (chunk data i) -> exists e,
  blob_to_kzg_commitment env eip7594_consts c data = Ret (Err e) /\
  compute_cells_and_kzg_proofs env eip7594_consts c data = Ret (Err e).
Proof.
move=> [_ Hc] Sd Hi Bi; case: (compute_cases_for std S1 S2 Hc Sd) => [[g Hg _]|[j _ [E1 E2]]].
  by case/negP: Bi; exact: (blob_polynomial_canonical Hg Hi).
by eexists; split; [exact: E2|exact: E1].
Qed.

Lemma lib_recover up c ks cs : built up c -> all (fun x => size x == 2048) cs ->
  (forall f, cells_polynomial ks cs f -> regular up f) ->
  exists2 ctx, das_context_new fr_params eip7594_consts g1s g2s PrecompNo = Ret ctx &
  recover_cells_and_kzg_proofs env eip7594_consts c ks cs =
  recover_cells_and_kzg_proofs env eip7594_consts ctx ks cs.
Proof.
move=> Hb Sc Hr; have [ctx Hctx] := plain; exists ctx; first exact: Hctx.
have [_ Hc] := Hb; apply: (recover_two std S1 S2 Hc Hctx Sc) => f Hf; last exact: fk20_msm_ok_no.
exact: regular_tables Hb (Hr f Hf).
Qed.

Lemma lib_verify up c : built up c ->
  exists2 ctx, das_context_new fr_params eip7594_consts g1s g2s PrecompNo = Ret ctx &
  forall coms ks cs ps, verify_cell_kzg_proof_batch env eip7594_consts c coms ks cs ps =
    verify_cell_kzg_proof_batch env eip7594_consts ctx coms ks cs ps.
Proof.
move=> [_ Hc]; have [ctx Hctx] := plain; exists ctx; first exact: Hctx.
move=> coms ks cs ps.
exact: (verify_same env S1 S2 Hc Hctx).
Qed.

Lemma output_cell f k : k < 128 -> nth [::] (output_of_poly env g1s f).1 k = cell_of_poly f k.
Proof. by move=> Hk; rewrite nth_mkseq. Qed.
Lemma output_proof f k : k < 128 ->
  nth [::] (output_of_poly env g1s f).2 k = compress (proof_of_poly g1s f k).
Proof. by move=> Hk; rewrite nth_mkseq. Qed.

Lemma write_two m oc op cps pps cells proofs (cf pf : nat -> seq byte) : out_buffers m oc op cps pps ->
  [/\ size cells = 128, size proofs = 128, all (fun x => size x == 2048) cells &
      all (fun x => size x == 48) proofs] ->
  (forall k, k < 128 -> nth [::] cells k = cf k) -> (forall k, k < 128 -> nth [::] proofs k = pf k) ->
  exists m', [/\ (clet _ := write_to_2d_slice 128 oc cells in
      clet _ := write_to_2d_slice 128 op proofs in cret with_ok) m = CRet (with_ok, m'),
    forall k, k < 128 -> bytes_at m' (nth Null cps k) (cf k) /\ bytes_at m' (nth Null pps k) (pf k) &
    unchanged_except ([seq (q, 2048) | q <- cps] ++ [seq (q, 48) | q <- pps]) m m'].
Proof.
case=> H1 N1 W1 H2 N2 W2 D [Sc Sp Ac Ap] Ec Ep.
have [m' [E B1 B2 U]] := write2_at Sc Sp Ac Ap H1 N1 H2 N2 W1 W2 D.
exists m'; split; [exact: E| |exact: U].
by move=> k Hk; rewrite -(Ec k Hk) -(Ep k Hk); split; [exact: B1|exact: B2].
Qed.

Lemma write_outputs m oc op cps pps f : out_buffers m oc op cps pps ->
  exists m', [/\ (clet _ := write_to_2d_slice 128 oc (output_of_poly env g1s f).1 in
      clet _ := write_to_2d_slice 128 op (output_of_poly env g1s f).2 in cret with_ok) m = CRet (with_ok, m'),
    holds_outputs m' cps pps f &
    unchanged_except ([seq (q, 2048) | q <- cps] ++ [seq (q, 48) | q <- pps]) m m'].
Proof.
move=> Ho; have Sz := @output_sizes _ _ _ env std g1s f _ _ (esym (surjective_pairing _)).
exact (@write_two m oc op cps pps _ _ (cell_of_poly f) (fun k => compress (proof_of_poly g1s f k)) Ho Sz
  (output_cell f) (output_proof f)).
Qed.

(** ** What the calls write *)

Theorem C48_commit up c m p blob data out f : built up c -> ctx_at m p c ->
  size data = 2 ^ 17 -> bytes_at m blob data -> writable m out 48 -> blob_polynomial data f ->
  exists m', [/\ eth_kzg_blob_to_kzg_commitment api p blob out m = CRet (MkCResult StOk Null, m'),
    bytes_at m' out (compress (commit g1s f)) & unchanged_except [:: (out, 48)] m m'].
Proof.
move=> Hb Hc Sd Hd Ho Hf; rewrite (commit_start api _ Hc Sd Hd).
rewrite -[ra_blob_to_kzg_commitment _ _ _]/(blob_to_kzg_commitment env eip7594_consts c data).
rewrite (lib_commit Hb Sd Hf) ctry_ok; set com := compress _.
have Scom : size com = 48 by exact: (es_g1_size std).
have [||m' [Es B U]] // := @store_bytes_ok _ m out com; first by move=> E0; rewrite E0 in Scom.
  by rewrite Scom.
exists m'; rewrite Scom in U; split=> //.
by rewrite /cbind /cassert Scom eqxx /write_to_slice /cwrite Es.
Qed.

Theorem C48_compute up c m p blob data oc op cps pps f : built up c -> ctx_at m p c ->
  size data = 2 ^ 17 -> bytes_at m blob data -> out_buffers m oc op cps pps ->
  blob_polynomial data f -> regular up f ->
  exists m', [/\ eth_kzg_compute_cells_and_kzg_proofs api p blob oc op m = CRet (MkCResult StOk Null, m'),
    holds_outputs m' cps pps f &
    unchanged_except ([seq (q, 2048) | q <- cps] ++ [seq (q, 48) | q <- pps]) m m'].
Proof.
move=> Hb Hc Sd Hd Ho Hf Hr; rewrite (compute_start api _ _ Hc Sd Hd).
rewrite -[ra_compute _ _ _]/(compute_cells_and_kzg_proofs env eip7594_consts c data).
rewrite (lib_compute Hb Sd Hf Hr) ctry_ok; exact: write_outputs.
Qed.

(** A blob with a chunk that is not the encoding of a field element is refused. *)
Theorem C48_blob_refused up c m p blob data out oc op i : no_nul api -> built up c -> ctx_at m p c ->
  size data = 2 ^ 17 -> bytes_at m blob data -> i < 2 ^ 12 -> ~~ canonical (chunk data i) ->
  failed m (eth_kzg_blob_to_kzg_commitment api p blob out m) /\
  failed m (eth_kzg_compute_cells_and_kzg_proofs api p blob oc op m).
Proof.
move=> Hn Hb Hc Sd Hd Hi Bi; have [e [E1 E2]] := lib_bad Hb Sd Hi Bi; split; exists (debug e).
  exact: (C37_commit_err _ Hc Hn Sd Hd E1).
exact: (C37_compute_err _ _ Hc Hn Sd Hd E2).
Qed.

Theorem C48_recover up c m p cells cs indices ks oc op cps pps f : built up c -> ctx_at m p c ->
  all (fun x => size x == 2048) cs -> arrays_at m cells cs -> u64s_at m indices ks ->
  out_buffers m oc op cps pps ->
  size ks = size cs -> uniq ks -> all (fun i => (i <? 128)%num) ks -> 64 <= size ks ->
  cells_polynomial ks cs f -> regular up f ->
  exists m', [/\ eth_kzg_recover_cells_and_proofs api p (size cs) cells (size ks) indices oc op m =
      CRet (MkCResult StOk Null, m'),
    holds_outputs m' cps pps f &
    unchanged_except ([seq (q, 2048) | q <- cps] ++ [seq (q, 48) | q <- pps]) m m'].
Proof.
move=> Hb Hc Sc Hcs Hks Ho Sz Ui Ar Fw Hf Hr; have sh : eip_recover_shape ks cs by split.
rewrite (recover_start api _ _ Hc Sc Hcs Hks).
have Hr' g : cells_polynomial ks cs g -> regular up g.
  by move=> Hg; rewrite -(cells_polynomial_unique std Sc sh Hf Hg).
have [ctx Hctx E] := lib_recover Hb Sc Hr'.
rewrite -[ra_recover _ _ _ _]/(recover_cells_and_kzg_proofs env eip7594_consts c ks cs) E.
rewrite (recover_complete std S1 S2 Hctx Sc sh Hf) ctry_ok; exact: write_outputs.
Qed.

(** Lists that are not of equal length, repeated indices, indices out of range, too few cells, or
    cells that are not those of a polynomial of degree below 4096, are refused. *)
Theorem C48_recover_refused up c m p cells cs indices ks oc op : no_nul api -> built up c -> ctx_at m p c ->
  all (fun x => size x == 2048) cs -> arrays_at m cells cs -> u64s_at m indices ks ->
  (forall f, cells_polynomial ks cs f -> regular up f) ->
  ~ [/\ size ks = size cs, uniq ks, all (fun i => (i <? 128)%num) ks &
        64 <= size ks /\ exists f, cells_polynomial ks cs f] ->
  failed m (eth_kzg_recover_cells_and_proofs api p (size cs) cells (size ks) indices oc op m).
Proof.
move=> Hn Hb Hc Sc Hcs Hks Hr bad; have [ctx Hctx E] := lib_recover Hb Sc Hr.
have [[out|e] Er] : exists y, recover_cells_and_kzg_proofs env eip7594_consts ctx ks cs = Ret y.
- by have [y Hy] := @runs_recover _ _ _ env std g1s g2s ctx S1 S2 Hctx new debug ks cs Sc; exists y.
- have [[Sz Ar Ui Fw] [f Hf _]] := recover_ok std S1 S2 Hctx Sc Er.
  by case: bad; split=> //; split=> //; exists f.
exists (debug e); apply: (C37_recover_err _ _ Hc Hn Sc Hcs Hks).
by rewrite -[ra_recover _ _ _ _]/(recover_cells_and_kzg_proofs env eip7594_consts c ks cs) E.
Qed.

(** ** The verdict *)

(** For lists of equal length with indices below 128, points and field elements, the call
    succeeds, and the verdict says whether the batch equation of C11 holds. *)
Theorem C48_verdict up c m p coms ks cells proofs pcoms pks pcells pproofs pv (C P : nat -> G1)
  (I : nat -> {poly Fr}) :
  built up c -> ctx_at m p c -> call_types coms cells proofs -> call_shape coms ks cells proofs ->
  verify_args m coms cells proofs ks pcoms pks pcells pproofs pv ->
  (forall t, t < size coms -> opening env coms ks cells proofs t (C t) (P t) (I t)) ->
  let r := challenge (batch_transcript coms ks cells proofs) in
  exists m', [/\ eth_kzg_verify_cell_kzg_proof_batch api p (size coms) pcoms (size ks) pks
      (size cells) pcells (size proofs) pproofs pv m = CRet (MkCResult StOk Null, m'),
    bool_at m' pv (\sum_(t < size coms) (r ^+ t)%R *: defect env g1s g2s (nth 0%num ks t) (C t) (P t) (I t) == 0)%R &
    unchanged_except_bool pv m m'].
Proof.
move=> Hb Hc T sh [H1 H2 H3 H4 [old H5]] O r; have [T1 T2 T3] := T.
have [ctx Hctx E] := lib_verify Hb.
have Hv := C11_batch std S1 S2 Hctx T sh O; rewrite -E in Hv.
move: Hv; rewrite -/r [let r := r in _]/=; move: (\sum_(t < size coms) _)%R => S; case: (S == 0)%R => Hv.
  exact: (@C37_verify_true _ _ api _ _ _ _ _ _ _ _ _ _ _ _ _ Hc T1 H1 H2 T2 H3 T3 H4 H5 Hv).
by apply: (@C37_verify_false _ _ api _ _ _ _ _ _ _ _ _ _ _ _ _ Hc T1 H1 H2 T2 H3 T3 H4 H5 _ Hv).
Qed.

(** Everything else is refused. *)
Theorem C48_verify_refused up c m p coms ks cells proofs pcoms pks pcells pproofs pv :
  no_nul api -> built up c -> ctx_at m p c -> call_types coms cells proofs ->
  verify_args m coms cells proofs ks pcoms pks pcells pproofs pv ->
  ~ [/\ call_shape coms ks cells proofs, forall b, b \in coms -> point_bytes env b,
        forall b, b \in proofs -> point_bytes env b &
        forall cell j, cell \in cells -> j < 64 -> canonical (chunk cell j)] ->
  failed m (eth_kzg_verify_cell_kzg_proof_batch api p (size coms) pcoms (size ks) pks
      (size cells) pcells (size proofs) pproofs pv m).
Proof.
move=> Hn Hb Hc T [H1 H2 H3 H4 [old H5]] bad; have [T1 T2 T3] := T.
have [ctx Hctx E] := lib_verify Hb.
have [y Hy] := @runs_verify _ _ _ env std g1s g2s ctx S1 S2 Hctx new debug coms ks cells proofs T1 T2 T3.
rewrite -[ra_verify _ _ _ _ _ _]/(verify_cell_kzg_proof_batch env eip7594_consts ctx coms ks cells proofs) in Hy.
case: y Hy => [[]|e] Hy.
  case: bad; have [[C [P [I [sh O]]]]|[e]] := verify_run std S1 S2 Hctx ks T; last by rewrite Hy.
  have [Si Sc Sp _] := sh; split=> //.
  - by move=> b /(nthP [::])[t Ht <-]; have [<- _ _] := O t Ht; exists (C t).
  - by move=> b /(nthP [::])[t Ht <-]; rewrite Sp in Ht; have [_ <- _] := O t Ht; exists (P t).
  by move=> cell j /(nthP [::])[t Ht <-] Hj; rewrite Sc in Ht; exact: (opening_canonical (O t Ht) Hj).
have He : ~~ invalid_proof e by apply/negP => /(C17_invalid_proof std S1 S2 Hctx T Hy).
exists (debug e).
apply: (@C37_verify_err _ _ api _ _ _ _ _ _ _ _ _ _ _ _ _ Hc T1 H1 H2 T2 H3 T3 H4 H5 e Hn _ He).
by rewrite -[ra_verify _ _ _ _ _ _]/(verify_cell_kzg_proof_batch env eip7594_consts c coms ks cells proofs) E.
Qed.

(** For one cell the verdict is the pairing equation. *)
Theorem C48_verdict_single up c m p com k cell proof pcoms pks pcells pproofs pv C P I :
  built up c -> ctx_at m p c -> call_types [:: com] [:: cell] [:: proof] -> (k < 128)%num ->
  verify_args m [:: com] [:: cell] [:: proof] [:: k] pcoms pks pcells pproofs pv ->
  compress C = com -> compress P = proof -> cell_interpolant (N.to_nat k) cell I ->
  exists m' v, [/\ eth_kzg_verify_cell_kzg_proof_batch api p 1 pcoms 1 pks 1 pcells 1 pproofs pv m =
      CRet (MkCResult StOk Null, m'), bool_at m' pv v &
    v <-> (de_pair env P (g2s`_64 - coset_point (N.to_nat k) ^+ 64 *: g2s`_0) =
           de_pair env (C - commit g1s I) g2s`_0)%R].
Proof.
move=> Hb Hc T Hk Ha HC' HP HI.
have sh : call_shape [:: com] [:: k] [:: cell] [:: proof] by split=> //=; move/N.ltb_spec0: Hk => ->.
have O t : t < 1 -> opening env [:: com] [:: k] [:: cell] [:: proof] t C P I by case: t.
have [m' [E B _]] := @C48_verdict up c m p _ _ _ _ _ _ _ _ _ (fun=> C) (fun=> P) (fun=> I) Hb Hc T sh Ha O.
exists m'; eexists; split; [exact: E|exact: B|].
by rewrite big_ord_recl big_ord0 addr0 expr0 scale1r /defect subr_eq0; split=> [/eqP|/eqP].
Qed.

(** ** The calls together *)

(** com is what some call of eth_kzg_blob_to_kzg_commitment wrote for the blob. *)
Definition c_commits (data com : seq byte) : Prop :=
  exists up c m p blob out r m',
  [/\ built up c /\ ctx_at m p c, size data = 2 ^ 17 /\ bytes_at m blob data, writable m out 48,
      eth_kzg_blob_to_kzg_commitment api p blob out m = CRet (r, m') /\ cr_status r = StOk &
      size com = 48 /\ bytes_at m' out com].

(** The cells and proofs are what some call of eth_kzg_compute_cells_and_kzg_proofs wrote for the
    blob. *)
Definition c_computes (data : seq byte) (cells proofs : nat -> seq byte) : Prop :=
  exists up c m p blob oc op cps pps r m',
  [/\ built up c /\ ctx_at m p c, size data = 2 ^ 17 /\ bytes_at m blob data,
      out_buffers m oc op cps pps /\ forall f, blob_polynomial data f -> regular up f,
      eth_kzg_compute_cells_and_kzg_proofs api p blob oc op m = CRet (r, m') /\ cr_status r = StOk &
      forall k, k < 128 -> [/\ size (cells k) = 2048, size (proofs k) = 48,
        bytes_at m' (nth Null cps k) (cells k) & bytes_at m' (nth Null pps k) (proofs k)]].

Lemma blob_cases up c data : built up c -> size data = 2 ^ 17 ->
  (exists f, blob_polynomial data f) \/ exists2 i, i < 2 ^ 12 & ~~ canonical (chunk data i).
Proof.
by move=> [_ Hc] Sd; case: (compute_cases_for std S1 S2 Hc Sd) => [[f Hf _]|[i [Hi Bi _] _]];
  [left; exists f|right; exists i].
Qed.

Lemma c_commitsE data com : no_nul api -> c_commits data com ->
  exists2 f, blob_polynomial data f & com = compress (commit g1s f).
Proof.
move=> Hn [up [c [m [p [blob [out [r [m' [[Hb Hc] [Sd Hd] Ho [E Hs] [Sc Bc]]]]]]]]]].
case: (blob_cases Hb Sd) => [[f Hf]|[i Hi Bi]]; last first.
  have [[s Es] _] := C48_blob_refused out Null Null Hn Hb Hc Sd Hd Hi Bi.
  by move: Hs; have [-> _] : r = MkCResult StErr (Addr (size m) 0) /\ True by rewrite Es in E; case: E.
exists f => //; have [m'' [E' B _]] := C48_commit Hb Hc Sd Hd Ho Hf.
move: E; rewrite E' => -[_ Em]; rewrite -Em in Bc.
by apply: bytes_at_inj Bc B _; rewrite Sc; exact/esym/(es_g1_size std).
Qed.

Lemma c_computesE data cells proofs : no_nul api -> c_computes data cells proofs ->
  exists2 f, blob_polynomial data f &
    forall k, k < 128 -> cells k = cell_of_poly f k /\ proofs k = compress (proof_of_poly g1s f k).
Proof.
move=> Hn [up [c [m [p [blob [oc [op [cps [pps [r [m' [[Hb Hc] [Sd Hd] [Ho Hr] [E Hs] H]]]]]]]]]]]].
case: (blob_cases Hb Sd) => [[f Hf]|[i Hi Bi]]; last first.
  have [_ [s Es]] := C48_blob_refused Null oc op Hn Hb Hc Sd Hd Hi Bi.
  by move: Hs; have [-> _] : r = MkCResult StErr (Addr (size m) 0) /\ True by rewrite Es in E; case: E.
exists f => // k Hk; have [m'' [E' B _]] := C48_compute Hb Hc Sd Hd Ho Hf (Hr f Hf).
move: E; rewrite E' => -[_ Em]; rewrite -Em in H; have [Sc Sp B1 B2] := H k Hk; have [B1' B2'] := B k Hk.
split; [apply: bytes_at_inj B1 B1' _; rewrite Sc|apply: bytes_at_inj B2 B2' _; rewrite Sp].
  by rewrite size_cell_of_poly.
exact/esym/(es_g1_size std).
Qed.

(** Commitments, cells and proofs that were written by the calls, for any blobs and with any
    contexts for the setup, verify with any context for the setup. *)
Theorem C48_round_trip (tau : Fr) (G : G1) (H : G2) up c m p coms ks cells proofs pcoms pks pcells pproofs pv :
  g1s = srs_of tau G (2 ^ 12) -> g2s = srs_of tau H 65 -> no_nul api ->
  built up c -> ctx_at m p c ->
  size ks = size coms -> size cells = size coms -> size proofs = size coms ->
  all (fun k => (k <? 128)%num) ks ->
  verify_args m coms cells proofs ks pcoms pks pcells pproofs pv ->
  (forall t, t < size coms -> exists data blob_cells blob_proofs,
     [/\ c_commits data (nth [::] coms t), c_computes data blob_cells blob_proofs,
         nth [::] cells t = blob_cells (N.to_nat (nth 0%num ks t)) &
         nth [::] proofs t = blob_proofs (N.to_nat (nth 0%num ks t))]) ->
  exists m', [/\ eth_kzg_verify_cell_kzg_proof_batch api p (size coms) pcoms (size ks) pks
      (size cells) pcells (size proofs) pproofs pv m = CRet (MkCResult StOk Null, m'),
    bool_at m' pv true & unchanged_except_bool pv m m'].
Proof.
move=> E1 E2 Hn Hb Hc Sk Sc Sp Ar [H1 H2 H3 H4 [old H5]] Hh.
have [ctx Hctx E] := lib_verify Hb.
have sh : call_shape coms ks cells proofs by split.
have Hk t : t < size coms -> N.to_nat (nth 0%num ks t) < 128.
  by move=> Ht; apply: idx_lt; apply: (all_nthP 0%num Ar); rewrite Sk.
have [f Hf] : exists f : nat -> {poly Fr}, forall t, t < size coms ->
    of_poly env g1s (nth [::] coms t) (nth 0%num ks t) (nth [::] cells t) (nth [::] proofs t) (f t).
  apply: (@finite_choice {poly Fr} 0%R (fun t => of_poly env g1s (nth [::] coms t) (nth 0%num ks t) (nth [::] cells t) (nth [::] proofs t))) => t Ht.
  have [data [bc [bp [Hcom Hcmp -> ->]]]] := Hh t Ht.
  have [f Hf ->] := c_commitsE Hn Hcom; have [g Hg /(_ _ (Hk t Ht))[-> ->]] := c_computesE Hn Hcmp.
  by exists f; rewrite -(blob_polynomial_unique std Hf Hg); split=> //; case: Hf.
have Hv := verify_of_poly std S1 S2 Hctx E1 E2 sh Hf; rewrite -E in Hv.
have T1 : all (fun x => size x == 48) coms.
  by apply/(all_nthP [::]) => t Ht; have [_ -> _ _] := Hf t Ht; rewrite (es_g1_size std).
have T2 : all (fun x => size x == 2048) cells.
  apply/(all_nthP [::]) => t; rewrite Sc => Ht; have [_ _ -> _] := Hf t Ht; by rewrite size_cell_of_poly.
have T3 : all (fun x => size x == 48) proofs.
  apply/(all_nthP [::]) => t; rewrite Sp => Ht; have [_ _ _ ->] := Hf t Ht; by rewrite (es_g1_size std).
exact: (@C37_verify_true _ _ api _ _ _ _ _ _ _ _ _ _ _ _ _ Hc T1 H1 H2 T2 H3 T3 H4 H5 Hv).
Qed.

(** From any 64 of the cells that were written for a blob, eth_kzg_recover_cells_and_proofs writes
    all cells and proofs as they were. *)
Theorem C48_any_half up c m p cells indices ks oc op cps pps data blob_cells blob_proofs :
  no_nul api -> c_computes data blob_cells blob_proofs ->
  (forall f, blob_polynomial data f -> regular up f) ->
  built up c -> ctx_at m p c ->
  arrays_at m cells [seq blob_cells (N.to_nat k) | k <- ks] -> u64s_at m indices ks ->
  out_buffers m oc op cps pps ->
  uniq ks -> all (fun i => (i <? 128)%num) ks -> 64 <= size ks ->
  exists m', [/\ eth_kzg_recover_cells_and_proofs api p (size ks) cells (size ks) indices oc op m =
      CRet (MkCResult StOk Null, m'),
    forall k, k < 128 -> bytes_at m' (nth Null cps k) (blob_cells k) /\
                         bytes_at m' (nth Null pps k) (blob_proofs k) &
    unchanged_except ([seq (q, 2048) | q <- cps] ++ [seq (q, 48) | q <- pps]) m m'].
Proof.
move=> Hn Hcmp Hr Hb Hc Hcs Hks Ho Ui Ar Fw; have [f Hf Hfk] := c_computesE Hn Hcmp.
have Hk k : k \in ks -> N.to_nat k < 128.
  by move=> /(allP Ar); exact: idx_lt.
have Hcp : cells_polynomial ks [seq blob_cells (N.to_nat k) | k <- ks] f.
  split; first by case: Hf.
  move=> t j Ht Hj; rewrite (nth_map 0%num) //; have [-> _] := Hfk _ (Hk _ (mem_nth 0%num Ht)).
  by rewrite (chunk_cell_of_poly std f _ Hj).
have Sc : all (fun x => size x == 2048) [seq blob_cells (N.to_nat k) | k <- ks].
  by apply/allP => x /mapP[k Hin ->]; have [-> _] := Hfk _ (Hk _ Hin); rewrite size_cell_of_poly.
have Sz : size ks = size [seq blob_cells (N.to_nat k) | k <- ks] by rewrite size_map.
have [m' [E B U]] := C48_recover Hb Hc Sc Hcs Hks Ho Sz Ui Ar Fw Hcp (Hr f Hf).
exists m'; rewrite -Sz in E; split=> // k Hk'; have [-> ->] := Hfk k Hk'; exact: B.
Qed.
End C48.

Print Assumptions C48_round_trip.
Print Assumptions C48_any_half.
