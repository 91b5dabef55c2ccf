(** Concrete instances of the hypotheses of PropProver.v, PropRecover.v and PropVerify.v. The
    three groups are Fr itself with multiplication as the pairing; a point is encoded by the 48
    bytes of its value; the setup has secret 2. *)

From Coq Require Import ZArith NArith Init.Byte Strings.Byte.
From mathcomp Require Import ssreflect ssrfun ssrbool eqtype ssrnat seq div fintype bigop.
From mathcomp Require Import ssralg poly polydiv zify_ssreflect.
From Verif Require Import Base Bytes Spec SpecKZG SpecDAS FixedBaseMSM LincombProofs FK20ProverProofs.
From Verif Require Import FK20Verifier FK20VerifierProofs Eip7594 Eip7594Proofs ApiEip ReedSolomon.
From Verif Require Import ZField FrPrime Fr SpecFr FrEnv SpecVerify PropProver PropRecover PropVerify.

Set Implicit Arguments.
Unset Strict Implicit.
Unset Printing Implicit Defensive.

Import GRing.Theory.
Local Open Scope ring_scope.

(** ** Environment *)
Definition G : lmodType Fr := [lmodType Fr of Fr^o].

Definition g_compress (P : G) : seq byte := be_bytes 48 (Z.to_N (zval (p := rZ) P)).
Definition g_decompress (b : seq byte) : option G :=
  let v := be_val b in
  if (v <? Z.to_N r_modulus)%num then Some (@of_Z rZ (Z.of_N v) : G) else None.

Definition ex_env : das_env G G G :=
  MkDasEnv
    (MkTranscriptEnv scalar_to_bytes_be g_compress id (fun b => @of_Z rZ (Z.of_nat (size b)) : Fr))
    scalar_from_bytes_be g_decompress (fun P Q : G => (P : Fr) * (Q : Fr) : G)
    {| me_to_bytes_le := fun _ => [::]; me_num_bits := 255; me_multi_batch_addition := fun _ => Panic |}.

Lemma r_lt_256_48 : (Z.to_N r_modulus < 256 ^ N.of_nat 48)%num.
Proof. by []. Qed.

Lemma g_val (P : G) : be_val (g_compress P) = Z.to_N (zval (p := rZ) P).
Proof.
rewrite be_val_bytes N.mod_small //; have := zval_rZ P; have := r_lt_256_48.
move: (256 ^ _)%num r_modulus (zval _) => p r v; lia.
Qed.

Lemma g_decompress_some b P : size b = 48%N -> g_decompress b = Some P <-> g_compress P = b.
Proof.
move=> Sb; rewrite /g_decompress; split.
  case: N.ltb_spec0 => // Hlt [<-].
  rewrite /g_compress zval_of_Z Z.mod_small ?N2Z.id ?be_bytes_val //.
  move: Hlt; rewrite -[pz rZ]/r_modulus; have := r_modulus_bounds.
  by move: r_modulus (be_val b) => r v; lia.
move=> <-; rewrite g_val.
have H1 := zval_rZ P.
have -> : (Z.to_N (zval (p := rZ) P) <? Z.to_N r_modulus)%num.
  by apply/N.ltb_spec0; move: r_modulus (zval _) H1 => r v; lia.
by rewrite Z2N.id ?of_zval //; case: H1.
Qed.

Example ex_std : env_std ex_env.
Proof.
apply: EnvStd; [exact: erefl | exact: erefl | | exact: g_decompress_some |].
  by move=> P; exact: size_be_bytes.
apply: Bilinear => /=.
- by move=> P Q H; exact: mulrDl.
- by move=> a P H; exact: esym (mulrA a (P : Fr) (H : Fr)).
- by move=> P H K; exact: mulrDr.
by move=> a P H; exact: mulrCA.
Qed.

(** ** Setup and context *)
Definition tau : Fr := @of_Z rZ 2.
Definition ex_g1s : seq G := srs_of tau (1 : G) (2 ^ 12).
Definition ex_g2s : seq G := srs_of tau (1 : G) 65.
Example ex_S1 : size ex_g1s = (2 ^ 12)%N. Proof. exact: size_mkseq. Qed.
Example ex_S2 : size ex_g2s = 65%N. Proof. exact: size_mkseq. Qed.
Example ex_context : exists ctx, das_context_new fr_params eip7594_consts ex_g1s ex_g2s PrecompNo = Ret ctx.
Proof. exact: (C18_context ex_S1 ex_S2). Qed.

Lemma size_rep n (s : seq byte) : size (flatten (nseq n s)) = (n * size s)%N.
Proof. by elim: n => [|n IH] //=; rewrite size_cat IH. Qed.
Lemma chunk_cat32 (s t : seq byte) i : size s = 32%N ->
  chunk (s ++ t) i = if i is i'.+1 then chunk t i' else s.
Proof.
move=> Ss; rewrite /chunk; case: i => [|i]; first by rewrite mul0n drop0 take_size_cat.
by rewrite mulSn drop_cat Ss ltnNge leq_addr /= addKn.
Qed.
Lemma chunk_rep n (s : seq byte) i : size s = 32%N -> (i < n)%N -> chunk (flatten (nseq n s)) i = s.
Proof.
move=> Ss; elim: n i => [|n IH] [|i] //= Hi; rewrite chunk_cat32 //; exact: IH.
Qed.

Lemma mkseq_const (T : Type) (f : nat -> T) n c : (forall j, f j = c) -> mkseq f n = nseq n c.
Proof.
move=> H; apply: (@eq_from_nth _ c); first by rewrite size_mkseq size_nseq.
by move=> i; rewrite size_mkseq => Hi; rewrite nth_mkseq // nth_nseq Hi.
Qed.

Lemma all_rep (T : Type) (P : pred T) n x : P x -> all P (nseq n x).
Proof. by move=> H; elim: n => [|n IH] //=; rewrite H. Qed.

Definition pack (f : nat -> seq byte) (n : nat) : seq byte := flatten (mkseq f n).
Lemma size_pack f n : (forall i, size (f i) = 32%N) -> size (pack f n) = (n * 32)%N.
Proof.
by move=> Sf; rewrite /pack /mkseq (size_flatten_const _ Sf) size_iota.
Qed.
Lemma chunk_pack f n i : (forall i, size (f i) = 32%N) -> (i < n)%N -> chunk (pack f n) i = f i.
Proof.
move=> Sf Hi; rewrite -{2}[i](@nth_iota 0 0 n) // -(nth_map 0%N [::]) ?size_iota //.
rewrite /pack /mkseq; move: (iota 0 n) (size_iota 0 n) Hi => s <-.
elim: s i => [|x s IH] [|i] //= Hi; rewrite chunk_cat32 //; exact: IH.
Qed.
Lemma canonical_all_ff : ~~ canonical (nseq 32 "255"%byte).
Proof. by vm_compute. Qed.

Lemma rev_rep (T : Type) n (x : T) : rev (nseq n x) = nseq n x.
Proof.
apply: (@eq_from_nth _ x); first by rewrite size_rev.
by move=> i; rewrite size_rev size_nseq => Hi; rewrite nth_rev size_nseq // !nth_nseq Hi ltn_subrL /= (leq_ltn_trans _ Hi).
Qed.
Lemma perm_zip_rev (T U : eqType) n (s : seq T) (x : U) : size s = n ->
  perm_eq (zip s (nseq n x)) (zip (rev s) (nseq n x)).
Proof.
move=> Ss; rewrite -{2}(rev_rep n x) -rev_zip ?size_nseq // perm_sym; exact/permPl/perm_rev.
Qed.

Lemma cells_shape_cons x s : size x = 2048%N -> cells_shape s -> cells_shape (x :: s).
Proof. by move=> Sx Ss; rewrite /cells_shape /= Sx. Qed.
Lemma cells_shape_rcons x s : size x = 2048%N -> cells_shape s -> cells_shape (rcons s x).
Proof. by move=> Sx Ss; rewrite /cells_shape all_rcons Sx. Qed.
Lemma cells_shape_rep n x : size x = 2048%N -> cells_shape (nseq n x).
Proof. by move=> Sx; apply: all_rep; rewrite Sx. Qed.

Section Ex.
Variable ctx : das_context G G.
Hypothesis Hctx : das_context_new fr_params eip7594_consts ex_g1s ex_g2s PrecompNo = Ret ctx.
Local Notation compute := (compute_cells_and_kzg_proofs ex_env eip7594_consts ctx).
Local Notation commitment := (blob_to_kzg_commitment ex_env eip7594_consts ctx).
Local Notation recover := (recover_cells_and_kzg_proofs ex_env eip7594_consts ctx).
Local Notation verify := (verify_cell_kzg_proof_batch ex_env eip7594_consts ctx).
Local Opaque w8192 w4096 be_bytes be_val.

(** ** A blob with all values 5, and cells with a constant value *)
Definition five : Fr := @of_Z rZ 5.
Definition six : Fr := @of_Z rZ 6.
Definition const_bytes (n : nat) (x : Fr) : seq byte := flatten (nseq n (fr_be x)).
Definition ex_blob : seq byte := const_bytes (2 ^ 12) five.
Definition const_cell (x : Fr) : seq byte := const_bytes 64 x.

Lemma size_const n x : size (const_bytes n x) = (n * 32)%N.
Proof.
by rewrite /const_bytes size_rep (size_be_bytes 32).
Qed.

Lemma chunk_const n x i : (i < n)%N -> chunk (const_bytes n x) i = fr_be x.
Proof.
move=> Hi; rewrite /const_bytes; exact: (chunk_rep (size_be_bytes _ _) Hi).
Qed.

Lemma fr_be_canonical x : canonical (fr_be x).
Proof.
by rewrite -canonicalE -/(scalar_to_bytes_be x) ((scalar_from_some _ _).2 erefl) // size_be_bytes.
Qed.

Lemma cell_const x k : cell_of_poly x%:P k = const_cell x.
Proof.
rewrite /cell_of_poly /const_cell /const_bytes (@mkseq_const _ _ 64 (fr_be x)) => [|j]; first exact: erefl.
by rewrite hornerC.
Qed.

Example ex_blob_size : size ex_blob = (2 ^ 17)%N.
Proof. rewrite size_const; exact: blob_bytesE. Qed.
Example ex_blob_canonical : forall i, (i < 2 ^ 12)%N -> canonical (chunk ex_blob i).
Proof. by move=> i Hi; rewrite (chunk_const _ Hi); exact: fr_be_canonical. Qed.
Example ex_blob_poly : blob_polynomial ex_blob five%:P.
Proof.
split; first exact: leq_trans (size_polyC_leq1 _) (expn_gt0 2 12).
by move=> i Hi; rewrite (chunk_const _ Hi) hornerC.
Qed.

(** C01-C04: the blob is accepted. *)
Example ex_compute : exists cells proofs, compute ex_blob = Ret (Ok (cells, proofs)).
Proof.
have [[_ H] _] := C05_accepted ex_std ex_S1 ex_S2 Hctx ex_blob_size.
by have [[cells proofs] E] := H ex_blob_canonical; exists cells, proofs.
Qed.
Example ex_srs : ex_g1s = srs_of tau (1 : G) (2 ^ 12) /\ ex_g2s = srs_of tau (1 : G) 65.
Proof. by split. Qed.
(** The commitment is 5, and the proofs are 0. *)
Example ex_commitment : commitment ex_blob = Ret (Ok (g_compress (five : G))).
Proof.
have [cells [proofs E]] := ex_compute.
rewrite (C04_commitment_tau ex_std ex_S1 ex_S2 Hctx erefl ex_blob_size E ex_blob_poly) hornerC.
by rewrite /= /GRing.scale /= mulr1.
Qed.

(** C05: the third value is too large. *)
Definition bad_value : seq byte := nseq 32 "255"%byte.
Definition bad_at (k : nat) (i : nat) : seq byte := if i == k then bad_value else fr_be five.
Lemma size_bad_at k i : size (bad_at k i) = 32%N.
Proof. by rewrite /bad_at; case: ifP => _; [rewrite size_nseq | exact: size_be_bytes]. Qed.
Lemma bad_at_bad k n : (k < n)%N -> ~~ canonical (chunk (pack (bad_at k) n) k).
Proof. move=> H; rewrite (chunk_pack (size_bad_at k) H) /bad_at eqxx; exact: canonical_all_ff. Qed.
Lemma bad_at_good k n j : (k < n)%N -> (j < k)%N -> canonical (chunk (pack (bad_at k) n) j).
Proof.
move=> H Hj; rewrite (chunk_pack (size_bad_at k) (ltn_trans Hj H)) /bad_at (ltn_eqF Hj).
exact: fr_be_canonical.
Qed.
Definition ex_bad_blob : seq byte := pack (bad_at 2) (2 ^ 12).
Lemma two_lt : (2 < 2 ^ 12)%N. Proof. exact: (@ltn_exp2l 2 1 12). Qed.
Example ex_rejected : [/\ size ex_bad_blob = (2 ^ 17)%N, (2 < 2 ^ 12)%N,
  ~~ canonical (chunk ex_bad_blob 2) & forall j, (j < 2)%N -> canonical (chunk ex_bad_blob j)].
Proof.
split; [| exact: two_lt | exact: (bad_at_bad two_lt) |].
  by rewrite (size_pack _ (size_bad_at 2)); exact: blob_bytesE.
by move=> j; exact: (bad_at_good two_lt).
Qed.

(** C36: encodings. *)
Example ex_codec : [/\ size (fr_be five) = 32%N, size bad_value = 32%N,
  ~~ canonical bad_value & canonical (fr_be five)].
Proof. by split; [exact: size_be_bytes | rewrite size_nseq | exact: canonical_all_ff | exact: fr_be_canonical]. Qed.
Example ex_codec_cell : size (const_cell five) = 2048%N /\
  forall j, (j < 64)%N -> canonical (chunk (const_cell five) j).
Proof.
split; first by rewrite size_const.
by move=> j Hj; rewrite (chunk_const _ Hj); exact: fr_be_canonical.
Qed.

(** C06: the second half of the cells, in reverse. *)
Definition ex_half : seq N := rev [seq N.of_nat i | i <- iota 64 64].
Example ex_any_half : [/\ uniq ex_half, all (fun i => (i <? 128)%num) ex_half & (64 <= size ex_half)%N].
Proof. by split; vm_compute. Qed.

(** C07: 64 cells with value 5 are consistent; with another cell with value 6 they are not. *)
Definition ex_idx65 : seq N := [seq N.of_nat i | i <- iota 0 65].
Definition ex_cells64 : seq (seq byte) := nseq 64 (const_cell five).
Definition ex_cells65 : seq (seq byte) := rcons ex_cells64 (const_cell six).
Lemma cells64_shape : cells_shape ex_cells64.
Proof. exact: (cells_shape_rep 64 (size_const 64 five)). Qed.
Lemma cells65_shape : cells_shape ex_cells65.
Proof. exact: (cells_shape_rcons (size_const 64 six) cells64_shape). Qed.
Example ex_consistent : [/\ cells_shape ex_cells64, size ex_half = size ex_cells64 &
  cells_polynomial ex_half ex_cells64 five%:P].
Proof.
split; [exact: cells64_shape | by rewrite size_nseq; vm_compute |].
have Sh : size ex_half = 64%N by vm_compute.
split; first exact: leq_trans (size_polyC_leq1 _) (expn_gt0 2 12).
move=> t j; rewrite Sh => Ht Hj.
by rewrite /ex_cells64 nth_nseq Ht hornerC (chunk_const _ Hj).
Qed.
Lemma fr_be_inj : injective fr_be.
Proof. by move=> x y; exact: (C36_injective ex_std). Qed.
Lemma five_neq_six : five != six.
Proof.
apply/eqP => /(congr1 (@zval rZ)) E.
have : (zval (p := rZ) five =? zval (p := rZ) six)%Z = false by vm_compute.
by rewrite E Z.eqb_refl.
Qed.
Example ex_inconsistent : [/\ cells_shape ex_cells65, size ex_idx65 = size ex_cells65, uniq ex_idx65,
  all (fun i => (i <? 128)%num) ex_idx65 & (64 <= size ex_idx65)%N] /\
  (forall cell j, cell \in ex_cells65 -> (j < 64)%N -> canonical (chunk cell j)) /\
  (forall f, ~ cells_polynomial ex_idx65 ex_cells65 f).
Proof.
split; first by split; [exact: cells65_shape | rewrite size_rcons size_nseq; vm_compute | vm_compute | vm_compute | vm_compute].
split.
  move=> cell j; rewrite mem_rcons inE mem_nseq => /orP[/eqP->|/eqP->] Hj; rewrite (chunk_const _ Hj).
    exact: fr_be_canonical.
  exact: fr_be_canonical.
move=> f [Sf Hf].
have S65 : size ex_idx65 = 65%N by vm_compute.
have H5 : cells_polynomial (take 64 ex_idx65) ex_cells64 f.
  split; first exact: Sf.
  move=> t j; rewrite size_takel; last by rewrite S65.
  move=> Ht Hj; rewrite nth_take; last exact: Ht.
  have Ht5 : (t < 65)%N by exact: ltn_trans Ht _.
  have E := Hf t j; rewrite S65 in E; rewrite (E Ht5 Hj).
  by rewrite /ex_cells65 nth_rcons size_nseq Ht.
have H5' : cells_polynomial (take 64 ex_idx65) ex_cells64 five%:P.
  split; first exact: leq_trans (size_polyC_leq1 _) (expn_gt0 2 12).
  move=> t j; rewrite size_takel; last by rewrite S65.
  move=> Ht Hj; by rewrite /ex_cells64 nth_nseq Ht hornerC (chunk_const _ Hj).
have sh : eip_recover_shape (take 64 ex_idx65) ex_cells64.
  by split; [rewrite size_nseq; vm_compute | vm_compute | vm_compute | vm_compute].
have E := cells_polynomial_unique ex_std cells64_shape sh H5 H5'.
have := Hf 64%N 0%N; rewrite S65 => /(_ isT isT).
rewrite E hornerC /ex_cells65 nth_rcons size_nseq ltnn eqxx (@chunk_const 64 six 0 isT) => /fr_be_inj H.
by case/eqP: five_neq_six.
Qed.

(** C08: one example for each rule. *)
Example ex_lengths : cells_shape [::] /\ size [:: 1%num] <> size (Nil (seq byte)).
Proof. by split. Qed.
Lemma two_cells_shape x : cells_shape [:: const_cell x; const_cell x].
Proof. exact: (cells_shape_rep 2 (size_const 64 x)). Qed.
Example ex_range : [/\ cells_shape [:: const_cell five; const_cell five], (1 < size [:: 3; 200]%num)%N,
  (128 <=? nth 0 [:: 3; 200] 1)%num & forall j, (j < 1)%N -> (nth 0 [:: 3; 200] j <? 128)%num].
Proof. by split; [exact: two_cells_shape | exact: isT | exact: isT | case]. Qed.
Example ex_duplicates : all (fun i => (i <? 128)%num) [:: 3; 3]%num /\ ~~ uniq [:: 3; 3]%num.
Proof. by split. Qed.
Example ex_too_few : [/\ all (fun i => (i <? 128)%num) [:: 3; 4]%num, uniq [:: 3; 4]%num &
  (size [:: 3; 4]%num < 64)%N].
Proof. by split. Qed.
Definition ex_bad_cells : seq (seq byte) :=
  [:: const_cell five, pack (bad_at 7) 64 & nseq 62 (const_cell five)].
Example ex_bad_chunk : [/\ cells_shape ex_bad_cells, size ex_half = size ex_bad_cells,
  ~~ canonical (chunk (nth [::] ex_bad_cells 1) 7),
  forall j, (j < 7)%N -> canonical (chunk (nth [::] ex_bad_cells 1) j) &
  forall t j, (t < 1)%N -> (j < 64)%N -> canonical (chunk (nth [::] ex_bad_cells t) j)].
Proof.
split.
- exact: (cells_shape_cons (size_const 64 five) (cells_shape_cons (size_pack 64 (size_bad_at 7))
    (cells_shape_rep 62 (size_const 64 five)))).
- by rewrite -[LHS]/(64%N).
- exact: (@bad_at_bad 7 64 isT).
- by move=> j; exact: (@bad_at_good 7 64 j isT).
move=> t j Ht Hj; have -> : t = 0%N by case: t Ht.
rewrite -[nth _ _ 0]/(const_cell five) /const_cell (chunk_const _ Hj); exact: fr_be_canonical.
Qed.

(** C09: the same cells in another order, and with one more. *)
Lemma ex_half_ok : recover ex_half ex_cells64 = Ret (Ok (output_of_poly ex_env ex_g1s five%:P)).
Proof.
have [Sc Sz Hf] := ex_consistent.
apply: (recover_complete ex_std ex_S1 ex_S2 Hctx Sc _ Hf).
by split; [exact: Sz | vm_compute | vm_compute | vm_compute].
Qed.
Example ex_permutation : exists out, [/\ cells_shape ex_cells64, size (rev ex_half) = size ex_cells64,
  perm_eq (zip (rev ex_half) ex_cells64) (zip ex_half ex_cells64) &
  recover ex_half ex_cells64 = Ret (Ok out)].
Proof.
exists (output_of_poly ex_env ex_g1s five%:P).
split; [exact: cells64_shape | | | exact: ex_half_ok].
  by rewrite size_rev size_nseq; vm_compute.
by rewrite perm_sym; apply: perm_zip_rev; vm_compute.
Qed.
Example ex_choice : exists out out', [/\ cells_shape ex_cells64, cells_shape (const_cell five :: ex_cells64),
  recover ex_half ex_cells64 = Ret (Ok out) &
  recover (0%num :: ex_half) (const_cell five :: ex_cells64) = Ret (Ok out')] /\
  let common := zip ex_half ex_cells64 in
  [/\ (64 <= size common)%N, uniq [seq p.1 | p <- common],
      {subset common <= zip ex_half ex_cells64} &
      {subset common <= zip (0%num :: ex_half) (const_cell five :: ex_cells64)}].
Proof.
exists (output_of_poly ex_env ex_g1s five%:P), (output_of_poly ex_env ex_g1s five%:P).
have Sh : size ex_half = 64%N by vm_compute.
have Sc : cells_shape (const_cell five :: ex_cells64).
  exact: (cells_shape_rep 65 (size_const 64 five)).
split; last first.
  cbv zeta; split.
  - by rewrite size_zip Sh size_nseq.
  - rewrite -/(unzip1 _) unzip1_zip; first by vm_compute.
    by rewrite size_nseq Sh.
  - by move=> p.
  by move=> p Hp; rewrite -[zip (_ :: _) _]/((0%num, const_cell five) :: zip ex_half ex_cells64) in_cons Hp orbT.
split; [exact: cells64_shape | exact: Sc | exact: ex_half_ok |].
apply: (recover_complete ex_std ex_S1 ex_S2 Hctx Sc).
  by split; [rewrite -[LHS]/(size ex_half).+1 -[RHS]/(size ex_cells64).+1 size_nseq Sh | vm_compute | vm_compute | vm_compute].
split; first exact: leq_trans (size_polyC_leq1 _) (expn_gt0 2 12).
move=> t j; rewrite -[size _]/(size ex_half).+1 Sh => Ht Hj; rewrite hornerC.
by rewrite -[_ :: ex_cells64]/(nseq 65 (const_cell five)) nth_nseq Ht (chunk_const _ Hj).
Qed.
End Ex.
