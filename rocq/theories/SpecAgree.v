(** What the user of each binding sees of the answer to a call, for the agreement of the bindings (C61). *)

From Coq Require Import ZArith NArith Init.Byte Strings.Byte Strings.String.
From mathcomp Require Import ssreflect ssrfun ssrbool eqtype ssrnat seq.
From Verif Require Import Base Bytes CApi CsApi SpecCs NimApi Jni SpecJni Node SpecNode CMem SpecC.

Set Implicit Arguments.
Unset Strict Implicit.
Unset Printing Implicit Defensive.

(** An answer, in any language: a value; a refusal, with the reason if it is known; or the end of the
    process. *)
Inductive seen (A : Type) := Gives (a : A) | Refuses (why : option (seq byte)) | Dies.
Arguments Refuses {A}.
Arguments Dies {A}.

(** The text is the reason, if one is given. *)
Definition is_reason (why : option (seq byte)) (msg : seq byte) : Prop := if why is Some w then msg = w else True.

Section Seen.
Variables (ctx A : Type).
Implicit Types (m : mem ctx) (v : seen A).

(** C: status Ok, and the value is in the buffers of the caller; or status Err, and the message is at the
    pointer of the result. *)
Definition c_shows (held : mem ctx -> A -> Prop) (call : cM ctx c_result) m v : Prop :=
  match v with
  | Gives a => exists2 m', call m = CRet (MkCResult StOk Null, m') & held m' a
  | Refuses why => exists m' b msg, [/\ call m = CRet (MkCResult StErr (Addr b 0), m'),
      is_block m' b (BMsg _ msg) & is_reason why msg]
  | Dies => call m = CAbort
  end.

(** C#: the method returns the value; or it throws, and if the library gave the reason, then an exception
    with its text. *)
Definition cs_shows (value : A -> cs_value) (call : cM ctx (ptr * cs_out cs_value)) m v : Prop :=
  match v with
  | Gives a => exists p m', call m = CRet ((p, CsReturn (value a)), m')
  | Refuses why => exists p m' ex, call m = CRet ((p, CsThrow ex), m') /\
      if why is Some w then ex = FromBindings w else True
  | Dies => call m = CAbort
  end.

(** Nim: ok with the value, or err with some text. *)
Definition nim_shows (value : A -> nim_value) (call : cM ctx (nim_result nim_value)) m v : Prop :=
  match v with
  | Gives a => exists m', call m = CRet (NimOk (value a), m')
  | Refuses _ => exists text m', call m = CRet (NimErr text, m')
  | Dies => call m = CAbort
  end.

(** Java: the method returns a reference to the value; or it throws an IllegalArgumentException. *)
Definition java_shows (B : Type) (held : seq jobj -> B -> A -> Prop) (func : string) (call : jcall B) v : Prop :=
  match v with
  | Gives a => exists r h, call = Returns r h /\ held h r a
  | Refuses why => exists reason h, call = ThrowsIllegalArgument (thrown func reason) h /\ is_reason why reason
  | Dies => call = Crash
  end.

(** Node: the method returns the value; or it throws an Error. *)
Definition node_shows (value : A -> reply) (func : string) (mem : jsmem)
  (call : option (outcome (answer * jsmem))) v : Prop :=
  match v with
  | Gives a => gives mem call (value a)
  | Refuses why => exists text, gives mem call (RError text) /\
      if why is Some w then text = failed func w else True
  | Dies => call = Some Panic
  end.
End Seen.

(** The buffers of a C program for the cells and proofs, apart from each other; and what is in them. *)
Definition two_buffers (ctx : Type) (m : mem ctx) (out_cells out_proofs : ptr) (cps pps : seq ptr) : Prop :=
  [/\ ptrs_at m out_cells cps /\ ptrs_at m out_proofs pps, size cps = 128 /\ size pps = 128,
      forall i, i < 128 -> writable m (nth Null cps i) 2048 /\ writable m (nth Null pps i) 48 &
      disjoint_regions ([seq (q, 2048) | q <- cps] ++ [seq (q, 48) | q <- pps])].
Definition two_arrays (ctx : Type) (cps pps : seq ptr) (m : mem ctx) (cp : seq (seq byte) * seq (seq byte)) : Prop :=
  forall i, i < 128 -> bytes_at m (nth Null cps i) (nth [::] cp.1 i) /\ bytes_at m (nth Null pps i) (nth [::] cp.2 i).
(** A Java object with these cells and proofs *)
Definition cap_of (h : seq jobj) (r : jref) (cp : seq (seq byte) * seq (seq byte)) : Prop := value_cap h r (no_null cp.1) (no_null cp.2).
(** Commitments, cells and proofs of the right sizes *)
Definition right_sizes (coms cells proofs : seq (seq byte)) : bool :=
  [&& all (fun x => size x == 48) coms, all (fun x => size x == 2048) cells & all (fun x => size x == 48) proofs].

(** The contexts that the programs in the five languages use. *)
Record contexts (ctx : Type) := MkContexts { of_c : ctx; of_cs : ctx; of_nim : ctx; of_java : ctx; of_node : ctx }.

(** The library answers [f] the same with each of them. *)
Definition alike (ctx T : Type) (f : ctx -> T) (cs : contexts ctx) : Prop :=
  [/\ f (of_cs cs) = f (of_c cs), f (of_nim cs) = f (of_c cs), f (of_java cs) = f (of_c cs) &
      f (of_node cs) = f (of_c cs)].

(** An index of a cell as a long of Java, and as a BigInt of JavaScript *)
Definition java_long (k : N) : Z := let z := Z.of_N k in if (z <? 2 ^ 63)%Z then z else (z - 2 ^ 64)%Z.
Definition big_int (k : N) : Z := Z.of_N k.
Definition u64 (k : N) : bool := (k <? 2 ^ 64)%num.
