(** What a Java reference stands for in a heap, for the statements about the Java binding. *)

From Coq Require Import ZArith NArith Init.Byte Strings.Byte Strings.String DecimalString.
From mathcomp Require Import ssreflect ssrfun ssrbool eqtype ssrnat seq.
From Verif Require Import Base Bytes Jni.

Set Implicit Arguments.
Unset Strict Implicit.
Unset Printing Implicit Defensive.

(** The value of a byte[], a long[] and a byte[][]; [None] is null. *)
Definition value_bytes (h : seq jobj) (r : jref) (v : option (seq byte)) : Prop :=
  match v with
  | None => r = None
  | Some b => exists2 a, r = Some a & oget h a = Some (OBytes b)
  end.
Definition value_longs (h : seq jobj) (r : jref) (v : option (seq Z)) : Prop :=
  match v with
  | None => r = None
  | Some l => exists2 a, r = Some a & oget h a = Some (OLongs l)
  end.
Fixpoint values_bytes (h : seq jobj) (refs : seq jref) (vs : seq (option (seq byte))) : Prop :=
  match refs, vs with
  | [::], [::] => True
  | r :: refs, v :: vs => value_bytes h r v /\ values_bytes h refs vs
  | _, _ => False
  end.
Definition value_arrays (h : seq jobj) (r : jref) (v : option (seq (option (seq byte)))) : Prop :=
  match v with
  | None => r = None
  | Some l => exists a refs, [/\ r = Some a, oget h a = Some (OArrays refs) & values_bytes h refs l]
  end.
(** A CellsAndProofs *)
Definition value_cap (h : seq jobj) (r : jref) (cells proofs : option (seq (option (seq byte)))) : Prop :=
  exists a rc rp, [/\ r = Some a, oget h a = Some (OCap rc rp), value_arrays h rc cells & value_arrays h rp proofs].

(** Arrays without null *)
Definition no_null (T : Type) (l : seq T) : option (seq (option T)) := Some (map Some l).

(** [r] is a new CellsAndProofs with these cells and proofs: the objects that existed are as before,
    and the object, its two arrays and their elements are all new and different objects. *)
Definition new_cap (h h' : seq jobj) (r : jref) (cells proofs : seq (seq byte)) : Prop :=
  exists fresh a ac ap rcells rproofs,
    [/\ h' = h ++ fresh,
        [/\ r = Some a, oget h' a = Some (OCap (Some ac) (Some ap)),
            oget h' ac = Some (OArrays (map Some rcells)) & oget h' ap = Some (OArrays (map Some rproofs))],
        values_bytes h' (map Some rcells) (map Some cells) /\ values_bytes h' (map Some rproofs) (map Some proofs),
        uniq ([:: a; ac; ap] ++ rcells ++ rproofs) &
        all (fun x => size h <= x) ([:: a; ac; ap] ++ rcells ++ rproofs)].

(** A new byte[] *)
Definition new_bytes (h h' : seq jobj) (r : jref) (b : seq byte) : Prop :=
  exists2 fresh, h' = h ++ fresh & exists2 a, r = Some a & size h <= a /\ oget h' a = Some (OBytes b).

(** Text *)
Definition text (s : string) : seq byte := list_byte_of_string s.
Definition thrown (func : string) (reason : seq byte) : seq byte :=
  text "function " ++ text func ++ text " has thrown an exception, with reason: " ++ reason.
Definition wrong_size (name : string) (expected got : seq byte) : seq byte :=
  text name ++ text " is not the correct size. expected: " ++ expected ++ [:: "010"%byte] ++ text "got: " ++ got.
(** A number in decimal *)
Definition number (n : N) : seq byte := text (NilZero.string_of_uint (N.to_uint n)).
(** A null reference, or a null element *)
Definition has_null (v : option (seq (option (seq byte)))) : Prop :=
  if v is Some l then None \in l else True.
(** The length of the first array that does not have length [n] *)
Definition first_wrong (n : nat) (l : seq (seq byte)) : nat :=
  size (nth [::] l (find (fun x => size x != n) l)).
