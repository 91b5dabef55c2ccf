(** Properties of the constructors (C49). *)

From Coq Require Import ZArith NArith Init.Byte Lia.
From mathcomp Require Import ssreflect ssrfun ssrbool eqtype ssrnat seq ssralg poly.
From Verif Require Import Base Bytes Fr SpecKZG SpecDAS SpecFr FrEnv FixedBaseMSM Rayon RayonApi RayonApiProofs FK20Verifier.
From Verif Require Import Eip7594 Eip7594Proofs FK20ProverProofs MSMProofs ToeplitzProofs SpecMSM FrMsm SpecTables ApiEip ApiTables PropPar.
From Verif Require Import CMem CApi SpecC CsApi GoApi Managed PropCReal Ctor.

Set Implicit Arguments.
Unset Strict Implicit.
Unset Printing Implicit Defensive.

Section Made.
Variables (rayon_num_threads : nat) (can_start : nat -> bool).
Variables (ctx err : Type) (new : use_precomp -> outcome ctx) (api : rust_api ctx err).
Local Notation papi := (pooled_api rayon_num_threads can_start new api).
Local Notation mem := (mem (pooled ctx)).

(** ** Vocabulary *)

(** A context with T threads, with tables of width 8 or without tables; if the threads or the
    inner context cannot be made, a panic. *)
Definition made (tables : bool) (T : nat) : outcome (pooled ctx) :=
  match can_start T, new (if tables then PrecompYes 8 else PrecompNo) with
  | true, Ret c => Ret (MkPooled T c)
  | _, _ => Panic
  end.
(** 0 stands for the number that rayon chooses. *)
Definition threads (n : N) : nat := if n is N0 then rayon_num_threads.+1 else N.to_nat n.
(** The context of an outcome is put into a new block. *)
Definition placed (m : mem) (o : outcome (pooled ctx)) : cout (ptr * mem) :=
  match o with
  | Ret c => CRet (Addr (size m) 0, rcons m (Some (BCtx c)))
  | Panic => CAbort
  end.

Lemma with_threadsE t u :
  with_threads rayon_num_threads can_start new t (if u then PrecompYes RECOMMENDED_PRECOMP_WIDTH else PrecompNo) =
  made u (pool_size rayon_num_threads t).
Proof. by rewrite /with_threads /made; case: can_start => //=; case: new. Qed.
Lemma threadsE n : pool_size rayon_num_threads (Multi (N.to_nat n)) = threads n.
Proof.
rewrite /pool_size /=; case: eqP; case: n => [//|p] //= E.
by have := Pos2Nat.is_pos p; rewrite E => /PeanoNat.Nat.lt_irrefl.
Qed.

Lemma threads_pos n : n <> 0%num -> threads n = N.to_nat n.
Proof. by case: n. Qed.

(** ** The bindings pass the choices on *)

Theorem C49_c u n m : eth_kzg_das_context_new papi u n m = placed m (made u (threads n)).
Proof.
rewrite /eth_kzg_das_context_new /cbind /crust /= /c_context with_threadsE threadsE.
by case: made.
Qed.

Theorem C49_node options :
  node_create rayon_num_threads can_start new options =
  made (no_use_precomp options) (threads (no_num_threads options)).
Proof. by rewrite /node_create with_threadsE threadsE. Qed.

Theorem C49_cs_nim u n m :
  cs_new papi u n m = placed m (made u (threads n)) /\
  nim_new rayon_num_threads can_start new api u n m = placed m (made u (threads n)).
Proof. by split; exact: C49_c. Qed.

(** A Java long that is a number of threads. *)
Theorem C49_java u z : (0 <= z < 2 ^ 32)%Z ->
  java_new rayon_num_threads can_start new api u z = made u (threads (Z.to_N z)).
Proof.
move=> Hz; rewrite /java_new /java_context_new /= /c_context with_threadsE threadsE.
rewrite /as_u64 Z.mod_small; last by lia.
by rewrite Z2N.id /as_u32 ?Z.mod_small //; lia.
Qed.
(** Any Java long. *)
Theorem C49_java_any u z :
  java_new rayon_num_threads can_start new api u z = made u (threads (Z.to_N (z mod 2 ^ 32))).
Proof.
rewrite /java_new /java_context_new /= /c_context with_threadsE threadsE /as_u32 /as_u64.
rewrite Z2N.id; last by apply: (proj1 (Z.mod_pos_bound _ _ _)).
congr (made u (threads (Z.to_N _))).
rewrite (_ : 2 ^ 64 = 2 ^ 32 * 2 ^ 32)%Z // Z.rem_mul_r // (Z.mul_comm (2 ^ 32)%Z) Z_mod_plus_full.
exact: Z.mod_mod.
Qed.
(** So it is not true that a Java caller gets the number of threads asked for: 2^32 gives the number
    that rayon chooses, and -1 is no error but asks for 2^32 - 1 threads. *)
Theorem C49_java_threads_refuted :
  (exists z, (0 < z < 2 ^ 63)%Z /\ forall u,
     java_new rayon_num_threads can_start new api u z = made u rayon_num_threads.+1) /\
  (exists z, (- 2 ^ 63 <= z < 0)%Z /\ forall u,
     java_new rayon_num_threads can_start new api u z = made u (N.to_nat (2 ^ 32 - 1))).
Proof.
split; [exists (2 ^ 32)%Z|exists (-1)%Z]; (split; first by lia) => u; first exact: C49_java_any.
rewrite C49_java_any (_ : Z.to_N (-1 mod 2 ^ 32) = 2 ^ 32 - 1)%num; last exact: erefl.
by rewrite threads_pos.
Qed.

(** Without arguments: one thread, and tables, except in Rust. *)
Theorem C49_defaults m :
  [/\ context_default rayon_num_threads can_start new = made false 1,
      node_new rayon_num_threads can_start new = made true 1,
      java_new_default rayon_num_threads can_start new api = made true 1 &
      [/\ cs_new_default rayon_num_threads can_start new api m = placed m (made true 1),
          new_prover_context papi m = placed m (made true 1) &
          nim_new_default rayon_num_threads can_start new api m = placed m (made true 1)]].
Proof.
split; [exact: (with_threadsE Single false)|exact: C49_node| |by split; exact: C49_c].
exact: (@C49_java true 1).
Qed.

(** The two other ways in which Rust asks for threads. *)
Theorem C49_rust t u :
  with_threads rayon_num_threads can_start new t (if u then PrecompYes 8 else PrecompNo) =
  made u (match t with Single => 1 | Multi n => threads (N.of_nat n) | SensibleDefault => rayon_num_threads.+1 end).
Proof.
rewrite (with_threadsE t u); congr made; case: t => [|n|] //.
by rewrite -threadsE Nnat.Nat2N.id.
Qed.
End Made.

(** ** All these contexts do the same *)
Section Same.
Import GRing.Theory.
Variables (rayon_num_threads : nat) (can_start : nat -> bool).
Variables (Fq : fieldType) (G1 G2 GT : lmodType Fr) (env : das_env G1 G2 GT).
Variables (of_affine : Fq * Fq -> G1) (A : G1 -> Fq * Fq).
Hypothesis HC : curve_coords of_affine A.
Hypothesis std : env_std env.
Hypothesis Eme : de_me env = fr_msm_env of_affine A.
Variables (g1s : seq G1) (g2s : seq G2).
Hypothesis S1 : size g1s = (2 ^ 12)%N.
Hypothesis S2 : size g2s = 65%N.
Local Notation new := (das_context_new fr_params eip7594_consts g1s g2s).
Local Notation made := (made can_start new).
Local Notation tables u := (if u then PrecompYes 8 else PrecompNo).

(** The constructors panic only if the threads cannot be started. *)
Theorem C49_total u T : (exists c, made u T = Ret c) <-> can_start T.
Proof.
rewrite /PropCtor.made; case: can_start; last by split=> // -[].
have Hw : precomp_width_ok (tables u) by case: u.
have [c ->] := @context_exists _ _ g1s g2s S1 S2 (tables u) Hw.
by split=> // _; exists (MkPooled T c).
Qed.

Lemma made_built u T c : made u T = Ret c -> built g1s g2s (tables u) (pl_inner c) /\ pl_threads c = T.
Proof.
rewrite /PropCtor.made; case: can_start => //; case E: (new _) => [c0|//] [<-]; split=> //.
by split; first by case: u {E}.
Qed.

(** The calls without a parallel section do not depend on the number of threads nor on the tables. *)
Theorem C49_commit_verify u u' T T' c c' blob coms ks cells proofs : made u T = Ret c -> made u' T' = Ret c' ->
  blob_to_kzg_commitment env eip7594_consts (pl_inner c) blob =
    blob_to_kzg_commitment env eip7594_consts (pl_inner c') blob /\
  verify_cell_kzg_proof_batch env eip7594_consts (pl_inner c) coms ks cells proofs =
    verify_cell_kzg_proof_batch env eip7594_consts (pl_inner c') coms ks cells proofs.
Proof.
move=> /made_built[[_ E] _] /made_built[[_ E'] _]; split; first by case: (ctx_same env S1 S2 E E') => _; exact.
exact: (verify_same env S1 S2 E E').
Qed.

(** In the others, a result is possible with the threads of one context exactly if it is possible
    with the threads of the other, and there is one result, where no exceptional pair is met (C21). *)
Theorem C49_compute u u' T T' c c' blob : 0 < T -> 0 < T' -> made u T = Ret c -> made u' T' = Ret c' ->
  size blob = 2 ^ 17 ->
  (forall f, blob_polynomial blob f -> regular g1s (tables u) f /\ regular g1s (tables u') f) ->
  exists r0, forall r,
    (par_compute_cells_and_kzg_proofs env eip7594_consts (pl_threads c) (pl_inner c) blob r <-> r = r0) /\
    (par_compute_cells_and_kzg_proofs env eip7594_consts (pl_threads c') (pl_inner c') blob r <-> r = r0).
Proof.
move=> T0 T0' /made_built[B Et] /made_built[B' Et'] Sb Hr.
exists (compute_cells_and_kzg_proofs env eip7594_consts (pl_inner c) blob) => r; rewrite Et Et'.
split; first exact: par_compute_cells_and_kzg_proofsP.
rewrite (@compute_two _ _ _ env std g1s g2s _ _ S1 S2 _ _ (proj2 B) (proj2 B') blob Sb).
- exact: par_compute_cells_and_kzg_proofsP.
- by move=> f Hf; exact: (regular_tables HC Eme B (proj1 (Hr f Hf))).
by move=> f Hf; exact: (regular_tables HC Eme B' (proj2 (Hr f Hf))).
Qed.

Theorem C49_recover u u' T T' c c' ks cells : 0 < T -> 0 < T' -> made u T = Ret c -> made u' T' = Ret c' ->
  all (fun x => size x == 2048) cells ->
  (forall f, cells_polynomial ks cells f -> regular g1s (tables u) f /\ regular g1s (tables u') f) ->
  exists r0, forall r,
    (par_recover_cells_and_kzg_proofs env eip7594_consts (pl_threads c) (pl_inner c) ks cells r <-> r = r0) /\
    (par_recover_cells_and_kzg_proofs env eip7594_consts (pl_threads c') (pl_inner c') ks cells r <-> r = r0).
Proof.
move=> T0 T0' /made_built[B Et] /made_built[B' Et'] Sb Hr.
exists (recover_cells_and_kzg_proofs env eip7594_consts (pl_inner c) ks cells) => r; rewrite Et Et'.
split; first exact: par_recover_cells_and_kzg_proofsP.
rewrite (@recover_two _ _ _ env std g1s g2s _ _ S1 S2 _ _ (proj2 B) (proj2 B') ks cells Sb).
- exact: par_recover_cells_and_kzg_proofsP.
- by move=> f Hf; exact: (regular_tables HC Eme B (proj1 (Hr f Hf))).
by move=> f Hf; exact: (regular_tables HC Eme B' (proj2 (Hr f Hf))).
Qed.

(** Every constructor asks for at least one thread. *)
Theorem C49_positive n : 0 < threads rayon_num_threads n.
Proof. by rewrite /threads; case: n => [|p] //; apply/ltP; exact: Pos2Nat.is_pos. Qed.
End Same.

Print Assumptions C49_java_threads_refuted.
Print Assumptions C49_compute.
