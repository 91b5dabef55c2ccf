(** Concrete setups for PropSetup.v. *)

From Coq Require Import ZArith NArith Init.Byte Strings.Byte.
From mathcomp Require Import ssreflect ssrfun ssrbool eqtype ssrnat seq ssralg.
From Verif Require Import Base Bytes SpecSetup TrustedSetup TrustedSetupProofs.
From Verif Require Import FixedBaseMSM Eip7594 ZField FrPrime Fr PropSetup ExApi.

Set Implicit Arguments.
Unset Strict Implicit.
Unset Printing Implicit Defensive.

(** Points are numbers; the check wants even ones. *)
Definition toy_unchecked (b : seq byte) : option N := Some (be_val b).
Definition toy_checked (b : seq byte) : option N :=
  if N.even (be_val b) then Some (be_val b) else None.

(** 0x00...00aB, and the like. *)
Definition str (n : nat) (last : seq byte) : seq byte :=
  ([:: "0"; "x"] ++ nseq (2 * n - 2) "0" ++ last)%byte.
Definition ex_ts (d : seq byte) : trusted_setup :=
  MkTrustedSetup (rcons (nseq 65 (str 48 [:: "a"; "B"]%byte)) (str 48 d)) [::]
    (nseq 65 (str 96 [:: "0"; "2"]%byte)).

Local Notation load ts c := (setup_verification_key toy_checked toy_unchecked toy_checked toy_unchecked
  eip7594_consts ts c).
Local Notation key ts c := (to_commit_key toy_checked toy_unchecked ts c).

(** Upper and lower case; 171 is odd, so the check fails. *)
Example ex_setup : [/\ key (ex_ts [:: "0"; "2"]%byte) NoCheck = Ret (rcons (nseq 65 171%num) 2%num),
  omap (@vp_g1s N N) (load (ex_ts [:: "0"; "2"]%byte) NoCheck) = Ret (nseq 65 171%num) &
  key (ex_ts [:: "0"; "2"]%byte) Check = Panic].
Proof. by vm_compute. Qed.

(** A bad digit, the prefix 0X, a missing digit. *)
Example ex_setup_bad : [/\ key (ex_ts [:: "0"; "g"]%byte) NoCheck = Panic,
  deserialize_point 48 toy_unchecked (set_nth "0"%byte (str 48 [:: "0"; "2"]%byte) 1 "X"%byte) = Panic &
  deserialize_point 48 toy_unchecked (behead (str 48 [:: "0"; "2"]%byte)) = Panic].
Proof. by vm_compute. Qed.

(** The text of 48 bytes with value 171, in mixed case. *)
Example ex_hex : hex_string (str 48 [:: "a"; "B"]%byte) (be_bytes 48 171).
Proof. by apply/hex_stringE; eexists; vm_compute. Qed.

(** 64 G2 strings are too few; fewer G1 than G2 strings are refused. *)
Example ex_setup_short : [/\
  load (MkTrustedSetup (nseq 70 (str 48 [:: "0"; "2"]%byte)) [::] (nseq 64 (str 96 [:: "0"; "2"]%byte))) Check = Panic,
  load (MkTrustedSetup (nseq 64 (str 48 [:: "0"; "2"]%byte)) [::] (nseq 65 (str 96 [:: "0"; "2"]%byte))) Check = Panic &
  exists k v, let ts := MkTrustedSetup (nseq 66 (str 48 [:: "0"; "2"]%byte)) [::] (nseq 65 (str 96 [:: "0"; "2"]%byte)) in
    key ts Check = Ret k /\ load ts Check = Ret v].
Proof. by split; [vm_compute|vm_compute|do 2 eexists; vm_compute]. Qed.

Example ex_check_extends b p : toy_checked b = Some p -> toy_unchecked b = Some p.
Proof. by rewrite /toy_checked; case: ifP. Qed.

(** Strings for a context over the group Fr. *)
Definition ctx_ts : trusted_setup :=
  MkTrustedSetup (nseq (2 ^ 12) (str 48 [:: "a"; "B"]%byte)) [::] (nseq 65 (str 96 [:: "0"; "2"]%byte)).
Lemma Forall_nseq (T : Type) (P : T -> Prop) n x : P x -> List.Forall P (nseq n x).
Proof. by move=> H; elim: n => [|n IH]; constructor. Qed.
Example ex_ctx_ts : [/\
  List.Forall (fun s => exists p, point_string 48 g_decompress s p) (ts_g1_monomial ctx_ts),
  List.Forall (fun s => exists p, point_string 96 g_decompress s p) (ts_g2_monomial ctx_ts),
  size (ts_g1_monomial ctx_ts) = 2 ^ 12 & size (ts_g2_monomial ctx_ts) = 65].
Proof.
split; rewrite ?size_nseq //; apply: Forall_nseq.
- exists (@of_Z rZ 171), (be_bytes 48 171); split; [by [] | exact: ex_hex | ].
  by rewrite /g_decompress; vm_compute (be_val _).
- exists (@of_Z rZ 2), (be_bytes 96 2); split; [by [] | by apply/hex_stringE; eexists; vm_compute |].
  by rewrite /g_decompress; vm_compute (be_val _).
Qed.
