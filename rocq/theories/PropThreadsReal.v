(** The library of Eip7594.v behind the interface of which several threads make calls (C62). *)

From Coq Require Import NArith Init.Byte.
From mathcomp Require Import ssreflect ssrfun ssrbool eqtype ssrnat seq ssralg.
From Verif Require Import Base Bytes FrEnv Fr Eip7594 Eip7594Proofs ApiEip CMem CApi SpecC CThreads SpecThreads.
From Verif Require Import PropAgreeReal PropThreads.

Set Implicit Arguments.
Unset Strict Implicit.
Unset Printing Implicit Defensive.

(** Its calls, step by step, use no memory but what the documentation says, with all contexts. *)
Theorem C62_library (G1 G2 GT : lmodType Fr) (env : das_env G1 G2 GT)
  (new : bool -> N -> outcome (das_context G1 G2)) (debug : error -> seq byte) :
  env_std env -> faithful (eip7594_api env new debug) (p_call (eip7594_api env new debug)).
Proof. by move=> std; apply: C62_faithful => c; exact (C61_typed std new debug c). Qed.
