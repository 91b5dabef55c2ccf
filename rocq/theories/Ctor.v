(** Model of the constructors of the contexts: /repo/eip7594/src/lib.rs lines 108-146 and the ways
    in which the bindings call it. A context is the pool of threads and the context of Eip7594.v. *)

From Coq Require Import ZArith NArith Init.Byte.
From mathcomp Require Import ssreflect ssrfun ssrbool eqtype ssrnat seq.
From Verif Require Import Base Bytes FixedBaseMSM Rayon CMem CApi CsApi GoApi Managed.

Set Implicit Arguments.
Unset Strict Implicit.
Unset Printing Implicit Defensive.

(** eip7594/src/lib.rs lines 99-106 [DASContext]: [thread_pool], of which only the number of threads
    is kept, and the two other fields together *)
Record pooled (ctx : Type) := MkPooled { pl_threads : nat; pl_inner : ctx }.

(** eip7594/src/constants.rs line 61 *)
Definition RECOMMENDED_PRECOMP_WIDTH : nat := 8.

(** /repo/bindings/node/src/lib.rs lines 44-47 [DASContextOptions] *)
Record node_options := MkNodeOptions { no_use_precomp : bool; no_num_threads : N }.
(** lines 49-56 *)
Definition node_options_default : node_options := MkNodeOptions true 1.

Section Ctor.
(** Rayon and the operating system: the number of threads of a pool for which none is asked, less
    one, and whether threads can be started. Rayon's limit on the size of a pool is not modelled. *)
Variables (rayon_num_threads : nat) (can_start : nat -> bool).
(** The context for the setup of [TrustedSetup::default()], and the calls on it. *)
Variables (ctx err : Type) (new : use_precomp -> outcome ctx) (api : rust_api ctx err).

(** eip7594/src/lib.rs lines 127-146 [with_threads]; [unwrap] of line 138 *)
Definition with_threads (num_threads : thread_count) (up : use_precomp) : outcome (pooled ctx) :=
  let n := pool_size rayon_num_threads num_threads in
  oassert (can_start n) (olet c := new up in Ret (MkPooled n c)).

(** lines 108-115 [default] *)
Definition context_default : outcome (pooled ctx) := with_threads Single PrecompNo.

(** /repo/bindings/c/src/lib.rs lines 65-79 *)
Definition c_context (use_precomp : bool) (num_threads : N) : outcome (pooled ctx) :=
  let up := if use_precomp then PrecompYes RECOMMENDED_PRECOMP_WIDTH else PrecompNo in
  with_threads (Multi (N.to_nat num_threads)) up.

(** The library as the bindings see it: the calls use the fields other than the pool; what the pool
    does is modelled in RayonApi.v. *)
Definition pooled_api : rust_api (pooled ctx) err :=
  MkRustApi c_context
    (fun c => ra_blob_to_kzg_commitment api (pl_inner c))
    (fun c => ra_compute api (pl_inner c))
    (fun c => ra_recover api (pl_inner c))
    (fun c => ra_verify api (pl_inner c))
    (ra_invalid_proof api) (ra_debug api).

(** /repo/bindings/node/src/lib.rs lines 66-86 [create] *)
Definition node_create (options : node_options) : outcome (pooled ctx) :=
  let precomp := if no_use_precomp options then PrecompYes RECOMMENDED_PRECOMP_WIDTH else PrecompNo in
  with_threads (Multi (N.to_nat (no_num_threads options))) precomp.

(** lines 38-42 and 60-63 *)
Definition node_new : outcome (pooled ctx) := node_create node_options_default.

(** LibEthKZG.java lines 36-41 and 49-52 *)
Definition java_new (use_precomp : bool) (num_threads : Z) : outcome (pooled ctx) :=
  java_context_new pooled_api use_precomp num_threads.
Definition java_new_default : outcome (pooled ctx) :=
  let use_precomp := true in
  let num_threads := 1%Z in
  java_context_new pooled_api use_precomp num_threads.

(** ethkzg.cs line 29, the default values *)
Definition cs_new_default : cM (pooled ctx) ptr := cs_new pooled_api true 1.

(** nim_eth_kzg.nim lines 87-90 [newKZGCtx], with its default values *)
Definition nim_new (use_precomp : bool) (num_threads : N) : cM (pooled ctx) ptr :=
  eth_kzg_das_context_new pooled_api use_precomp num_threads.
Definition nim_new_default : cM (pooled ctx) ptr := nim_new true 1.
End Ctor.
