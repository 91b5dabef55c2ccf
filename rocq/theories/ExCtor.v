(** Concrete constructors. *)

From Coq Require Import ZArith NArith Init.Byte.
From mathcomp Require Import ssreflect ssrfun ssrbool eqtype ssrnat seq ssralg poly.
From Verif Require Import Base Bytes Fr SpecKZG SpecDAS SpecFr FrEnv FixedBaseMSM Rayon RayonApi Eip7594 SpecMSM FrMsm SpecTables.
From Verif Require Import ExApi ExMSM CMem CApi SpecC CsApi GoApi Managed PropCReal ExCReal Ctor PropCtor.

Set Implicit Arguments.
Unset Strict Implicit.
Unset Printing Implicit Defensive.

(** A machine with 8 processors that can start 1000 threads. *)
Definition starts (n : nat) : bool := (N.of_nat n <=? 1000)%num.
Definition ctor_new (up : use_precomp) : outcome nat := if up is PrecompYes w then Ret w else Ret 0.
Definition ctor_api : rust_api nat unit :=
  MkRustApi (fun _ _ => Panic) (fun _ _ => Panic) (fun _ _ => Panic) (fun _ _ _ => Panic)
    (fun _ _ _ _ _ => Panic) (fun=> false) (fun=> [::]).
Local Notation papi := (pooled_api 7 starts ctor_new ctor_api).

Example ex_ctor_c m :
  [/\ eth_kzg_das_context_new papi true 4 m = CRet (Addr (size m) 0, rcons m (Some (BCtx (MkPooled 4 8)))),
      eth_kzg_das_context_new papi false 0 m = CRet (Addr (size m) 0, rcons m (Some (BCtx (MkPooled 8 0)))) &
      eth_kzg_das_context_new papi false 2000 m = CAbort].
Proof. by split; rewrite C49_c. Qed.
Example ex_ctor_node : node_create 7 starts ctor_new (MkNodeOptions false 3) = Ret (MkPooled 3 0).
Proof. by rewrite C49_node. Qed.
Example ex_ctor_cs m : cs_new papi false 3 m = CRet (Addr (size m) 0, rcons m (Some (BCtx (MkPooled 3 0)))).
Proof. by case: (C49_cs_nim 7 starts ctor_new ctor_api false 3 m). Qed.
Example ex_ctor_java : java_new 7 starts ctor_new ctor_api false 16 = Ret (MkPooled 16 0).
Proof. by rewrite C49_java. Qed.
(** 2^32 + 2 threads are 2 threads, 2^32 threads are as many as there are processors, -1 is a panic. *)
Example ex_ctor_java_any :
  [/\ java_new 7 starts ctor_new ctor_api true (2 ^ 32 + 2) = Ret (MkPooled 2 8),
      java_new 7 starts ctor_new ctor_api true (2 ^ 32) = Ret (MkPooled 8 8) &
      java_new 7 starts ctor_new ctor_api true (-1) = Panic].
Proof.
split; [by rewrite C49_java_any|by rewrite C49_java_any|rewrite C49_java_any].
rewrite (_ : Z.to_N (-1 mod 2 ^ 32) = 2 ^ 32 - 1)%num; last exact: erefl.
rewrite threads_pos; last exact: (fun E : (2 ^ 32 - 1)%num = 0%num => ltac:(by [])).
by rewrite /made /starts Nnat.N2Nat.id.
Qed.
Example ex_ctor_defaults m :
  [/\ context_default 7 starts ctor_new = Ret (MkPooled 1 0), node_new 7 starts ctor_new = Ret (MkPooled 1 8),
      java_new_default 7 starts ctor_new ctor_api = Ret (MkPooled 1 8) &
      new_prover_context papi m = CRet (Addr (size m) 0, rcons m (Some (BCtx (MkPooled 1 8))))].
Proof. by have [-> -> -> [_ -> _]] := C49_defaults 7 starts ctor_new ctor_api m. Qed.
Example ex_ctor_rust :
  with_threads 7 starts ctor_new SensibleDefault (PrecompYes 8) = Ret (MkPooled 8 8) /\
  with_threads 7 starts ctor_new (Multi 0) PrecompNo = Ret (MkPooled 8 0).
Proof. by rewrite (C49_rust 7 starts ctor_new SensibleDefault true) (C49_rust 7 starts ctor_new (Multi 0) false). Qed.

(** With the real library: the default context of Java and one of 4 threads without tables. *)
Local Notation new := (das_context_new fr_params eip7594_consts ex_g1s ex_g2s).
Example ex_ctor_total : exists c, made starts new false 4 = Ret c.
Proof. exact: (proj2 (C49_total starts ex_S1 ex_S2 false 4)). Qed.

Section Two.
Variables (c c' : pooled (das_context G G)).
Hypothesis Hc : made starts new true 1 = Ret c.
Hypothesis Hc' : made starts new false 4 = Ret c'.

Example ex_ctor_commit : blob_to_kzg_commitment ex_envw eip7594_consts (pl_inner c) ex_blob =
  blob_to_kzg_commitment ex_envw eip7594_consts (pl_inner c') ex_blob.
Proof. by have [] := C49_commit_verify ex_envw ex_S1 ex_S2 ex_blob [::] [::] [::] [::] Hc Hc'. Qed.
Example ex_ctor_compute : exists r0, forall r,
  (par_compute_cells_and_kzg_proofs ex_envw eip7594_consts (pl_threads c) (pl_inner c) ex_blob r <-> r = r0) /\
  (par_compute_cells_and_kzg_proofs ex_envw eip7594_consts (pl_threads c') (pl_inner c') ex_blob r <-> r = r0).
Proof.
apply: (C49_compute ex_coords ex_stdw erefl ex_S1 ex_S2 (isT : 0 < 1) (isT : 0 < 4) Hc Hc' ex_blob_size) => f Hf.
by split; first exact: (ex_regular (or_intror erefl) Hf).
Qed.
Example ex_ctor_recover : exists r0, forall r,
  (par_recover_cells_and_kzg_proofs ex_envw eip7594_consts (pl_threads c) (pl_inner c) ex_half ex_cells64 r <-> r = r0) /\
  (par_recover_cells_and_kzg_proofs ex_envw eip7594_consts (pl_threads c') (pl_inner c') ex_half ex_cells64 r <-> r = r0).
Proof.
have [Sh _ _] := ex_consistent.
apply: (C49_recover ex_coords ex_stdw erefl ex_S1 ex_S2 (isT : 0 < 1) (isT : 0 < 4) Hc Hc' Sh) => f Hf.
by split; first exact: (ex_tables_cells Hf).
Qed.
End Two.
