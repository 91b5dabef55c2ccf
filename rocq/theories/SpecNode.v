(** What arrays, calls and answers of JavaScript stand for, for the statements about the Node binding. *)

From Coq Require Import ZArith NArith Init.Byte Strings.Byte Strings.String.
From mathcomp Require Import ssreflect ssrfun ssrbool eqtype ssrnat seq.
From Verif Require Import Base Bytes SpecJni Node.

Set Implicit Arguments.
Unset Strict Implicit.
Unset Printing Implicit Defensive.

(** The arrays [vs] hold the bytes [bs]. *)
Definition holds (m : jsmem) (vs : seq view) (bs : seq (seq byte)) : Prop := map (vread m) vs = map Some bs.
(** A call with arrays, and the same call with the bytes in them *)
Definition call_values (m : jsmem) (r : request view) (vals : request (seq byte)) : Prop :=
  match r, vals with
  | Commit v, Commit b | Compute v, Compute b | ComputeCells v, ComputeCells b => holds m [:: v] [:: b]
  | Recover ids vs, Recover ids' bs => ids = ids' /\ holds m vs bs
  | Verify vc ids vd vp, Verify bc ids' bd bp => [/\ ids = ids', holds m vc bc, holds m vd bd & holds m vp bp]
  | _, _ => False
  end.

(** [vs] are arrays in new buffers, one for each, that hold [bs]; all buffers of before are as they were. *)
Definition new_holds (m m' : jsmem) (vs : seq view) (bs : seq (seq byte)) : Prop :=
  [/\ exists fresh, m' = m ++ fresh, holds m' vs bs, uniq (map v_buffer vs) &
      all (fun v => size m <= v_buffer v) vs].
(** The answer [a], given in memory [m] and leaving [m'], is the value or error [r]. *)
Definition new_answer (m m' : jsmem) (a : answer) (r : reply) : Prop :=
  match a, r with
  | AArray v, RBytes b => new_holds m m' [:: v] [:: b]
  | ACellsAndProofs vc vp, RCellsAndProofs cells proofs =>
      [/\ size vc = size cells, size vp = size proofs & new_holds m m' (vc ++ vp) (cells ++ proofs)]
  | ACells vc, RCells cells => new_holds m m' vc cells
  | ABool b, RBool b' => b = b' /\ m' = m
  | AThrow msg, RError msg' => msg = msg' /\ m' = m
  | _, _ => False
  end.
(** The synchronous call gives [r]. *)
Definition gives (m : jsmem) (call : option (outcome (answer * jsmem))) (r : reply) : Prop :=
  exists a m', call = Some (Ret (a, m')) /\ new_answer m m' a r.

(** Messages *)
Definition must_have (name : string) (expected got : seq byte) : seq byte :=
  text name ++ text " must have size " ++ expected ++ text ", found size " ++ got ++ [:: "010"%byte] ++
  text " err:could not convert slice to array".
Definition failed (func : string) (debug : seq byte) : seq byte :=
  text "failed to compute " ++ text func ++ text ": " ++ debug.

(** The event changes no byte of the arrays of the call. *)
Definition touches (buffer offset n : nat) (v : view) : bool :=
  [&& v_buffer v == buffer, offset < v_offset v + v_length v & v_offset v < offset + n].
Definition leaves_alone (r : request view) (e : event) : bool :=
  if e is JWrite buffer offset b then ~~ has (touches buffer offset (size b)) (arrays_of r) else true.
(** The worker of [p] reads. *)
Definition reads (p : nat) (e : event) : bool := if e is WRead q then q == p else false.

(** A program that reads only the arrays of the call, and gives the answer of the method if they do
    not change; it may read them in any order and more than once. *)
Fixpoint reads_only (r : request view) (f : reader) : Prop :=
  match f with
  | Answer _ => True
  | Read v k => (exists i, oget (arrays_of r) i = Some v) /\ forall b, reads_only r (k b)
  end.
Definition implements (method : request (seq byte) -> outcome reply) (prog : request view -> reader) : Prop :=
  forall r, reads_only r (prog r) /\
    forall m vals, call_values m r vals -> run_reader m (prog r) = Some (method vals).

(** The promise is settled with [a]. *)
Definition settled (s : jsst) (p : nat) (a : answer) : Prop := oget (js_promises s) p = Some (Settled a).
