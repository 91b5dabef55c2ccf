(** Model of the native methods of the Java binding with the objects of the Java heap:
    /repo/bindings/java/rust_code/src/lib.rs lines 30-300, and of
    /repo/bindings/java/java_code/src/main/java/ethereum/cryptography/CellsAndProofs.java.

    The heap is a list of objects, a reference is a place in the list or null; nothing is collected.
    A byte of Java is the byte with the same bits. The heap does not change while a native method
    runs except by what the method does. Memory suffices, and the classes are found. A reference to
    an object of another class than Java's types promise, and a region outside an array, is [JFault].
    The functions of the crate jni are modelled from its documentation: they refuse null, and they do
    not delete the local references that they return. *)

From Coq Require Import ZArith NArith Init.Byte Strings.Byte Strings.String DecimalString.
From mathcomp Require Import ssreflect ssrfun ssrbool eqtype ssrnat seq.
From Verif Require Import Base Bytes Eip7594 CApi Managed.

Set Implicit Arguments.
Unset Strict Implicit.
Unset Printing Implicit Defensive.

(** ** The Java heap *)
Definition jref := option nat.

Inductive jobj :=
| OBytes (b : seq byte)          (* byte[] *)
| OLongs (l : seq Z)             (* long[] *)
| OArrays (l : seq jref)         (* byte[][] *)
| OCap (cells proofs : jref).    (* CellsAndProofs, lines 13-16 *)

(** The functions of jni that are given null *)
Inductive jni_op := ConvertByteArray | GetArrayLength | GetRegion | GetElement | SetElement.
Inductive jni_error := NullPtr (op : jni_op).

(** errors.rs lines 3-12 *)
Inductive jerror (err : Type) :=
| EJni (e : jni_error)
| ESize (expected got : nat) (name : arg_name)
| ECrypto (e : err).
Arguments EJni {err}.
Arguments ESize {err}.
Arguments ECrypto {err}.

(** The heap, the number of local references that were made and not deleted, and the message of the
    IllegalArgumentException that is pending. *)
Record jst := MkJst { jheap : seq jobj; jlocals : nat; jpending : option (seq byte) }.

Inductive jres (A : Type) := JRet (a : A) (s : jst) | JPanic | JFault.
Arguments JRet {A}.
Arguments JPanic {A}.
Arguments JFault {A}.
Definition jM (A : Type) := jst -> jres A.

Definition jret (A : Type) (a : A) : jM A := fun s => JRet a s.
Definition jbind (A B : Type) (x : jM A) (f : A -> jM B) : jM B := fun s =>
  match x s with JRet a s => f a s | JPanic => JPanic | JFault => JFault end.
(** [?] *)
Definition jq (A B E : Type) (x : jM (result A E)) (f : A -> jM (result B E)) : jM (result B E) :=
  jbind x (fun r => match r with Ok a => f a | Err e => jret (Err e) end).

Notation "'jlet' x := e 'in' k" := (jq e (fun x => k))
  (at level 200, x pattern, e at level 100, k at level 200).

(** [for x in l { v.push(f(x)?) }] *)
Fixpoint jmapM (A B E : Type) (f : A -> jM (result B E)) (l : seq A) : jM (result (seq B) E) :=
  match l with
  | [::] => jret (Ok [::])
  | x :: l => jlet y := f x in jlet ys := jmapM f l in jret (Ok (y :: ys))
  end.

(** [for (i, x) in l.iter().enumerate() { f(i, x)? }] *)
Fixpoint jfor (A E : Type) (f : nat -> A -> jM (result unit E)) (i : nat) (l : seq A) : jM (result unit E) :=
  match l with
  | [::] => jret (Ok tt)
  | x :: l => jlet _ := f i x in jfor f i.+1 l
  end.

Fixpoint replace_at (T : Type) (l : seq T) (i : nat) (x : T) : seq T :=
  match l, i with
  | [::], _ => [::]
  | _ :: l, 0 => x :: l
  | y :: l, i.+1 => y :: replace_at l i x
  end.

Section Jni.
Variables (err : Type).
Local Notation jerror := (jerror err).

(** *** Functions of the crate jni, version 0.21 *)

(** Look at the object that [r] refers to. *)
Definition look (A : Type) (op : jni_op) (r : jref) (k : jobj -> option A) : jM (result A jerror) := fun s =>
  match r with
  | None => JRet (Err (EJni (NullPtr op))) s
  | Some a =>
    match oget (jheap s) a with
    | Some o => match k o with Some v => JRet (Ok v) s | None => JFault end
    | None => JFault
    end
  end.

(** A new object, and a local reference to it *)
Definition new (o : jobj) : jM (result jref jerror) := fun s =>
  JRet (Ok (Some (size (jheap s)))) (MkJst (rcons (jheap s) o) (jlocals s).+1 (jpending s)).

(** A local reference to something that exists *)
Definition local (A : Type) (a : A) : jM (result A jerror) := fun s =>
  JRet (Ok a) (MkJst (jheap s) (jlocals s).+1 (jpending s)).

Definition convert_byte_array (r : jref) : jM (result (seq byte) jerror) :=
  look ConvertByteArray r (fun o => if o is OBytes b then Some b else None).
Definition get_array_length (r : jref) : jM (result nat jerror) :=
  look GetArrayLength r (fun o =>
    match o with OBytes b => Some (size b) | OLongs l => Some (size l) | OArrays l => Some (size l) | OCap _ _ => None end).
(** The region starts at 0 and has [n] elements. *)
Definition get_byte_array_region (r : jref) (n : nat) : jM (result (seq byte) jerror) :=
  look GetRegion r (fun o => if o is OBytes b then if n <= size b then Some (take n b) else None else None).
Definition get_long_array_region (r : jref) (n : nat) : jM (result (seq Z) jerror) :=
  look GetRegion r (fun o => if o is OLongs b then if n <= size b then Some (take n b) else None else None).
Definition get_object_array_element (r : jref) (i : nat) : jM (result jref jerror) :=
  jlet x := look GetElement r (fun o => if o is OArrays l then oget l i else None) in
  local x.
Definition find_class : jM (result unit jerror) := local tt.
Definition new_byte_array (n : nat) : jM (result jref jerror) := new (OBytes (nseq n "000"%byte)).
Definition byte_array_from_slice (b : seq byte) : jM (result jref jerror) := new (OBytes b).
Definition new_object_array (n : nat) (initial : jref) : jM (result jref jerror) := new (OArrays (nseq n initial)).
Definition set_object_array_element (r : jref) (i : nat) (x : jref) : jM (result unit jerror) := fun s =>
  match r with
  | None => JRet (Err (EJni (NullPtr SetElement))) s
  | Some a =>
    match oget (jheap s) a with
    | Some (OArrays l) =>
      if i < size l then
        JRet (Ok tt) (MkJst (replace_at (jheap s) a (OArrays (replace_at l i x))) (jlocals s) (jpending s))
      else JFault
    | _ => JFault
    end
  end.
(** The constructor of CellsAndProofs.java, lines 24-27 *)
Definition new_cells_and_proofs (cells proofs : jref) : jM (result jref jerror) := new (OCap cells proofs).
(** The exception and its message are made with local references that are deleted. *)
Definition throw_new (msg : seq byte) : jM unit := fun s =>
  JRet tt (MkJst (jheap s) (jlocals s) (Some msg)).

(** *** lib.rs *)
Variables (ctx : Type) (api : rust_api ctx err) (jni_debug : jni_error -> seq byte).
Local Notation K := eip7594_consts.

(** [format!("{}", n)] *)
Definition decimal (n : nat) : seq byte := list_byte_of_string (NilZero.string_of_uint (N.to_uint (N.of_nat n))).
Definition name_text (n : arg_name) : string :=
  match n with NmBlob => "blob" | NmCell => "cell" | NmCommitment => "commitment" | NmProof => "proof" end.
Definition newline : seq byte := [:: "010"%byte].

(** lines 269-284 [throw_on_error] *)
Definition reason (e : jerror) : seq byte :=
  match e with
  | EJni e => jni_debug e
  | ESize expected got name =>
      list_byte_of_string (name_text name ++ " is not the correct size. expected: ") ++ decimal expected ++
      newline ++ list_byte_of_string "got: " ++ decimal got
  | ECrypto e => ra_debug api e
  end.
Definition throw_on_error (e : jerror) (func_name : string) : jM unit :=
  throw_new (list_byte_of_string ("function " ++ func_name ++ " has thrown an exception, with reason: ") ++ reason e).

(** lines 290-299 [slice_to_array_ref] *)
Definition to_array (n : nat) (name : arg_name) (slice : seq byte) : result (seq byte) jerror :=
  if size slice == n then Ok slice else Err (ESize n (size slice) name).
(** [.iter().map(|x| slice_to_array_ref(x, name)).collect::<Result<_, _>>()] *)
Definition to_arrays (n : nat) (name : arg_name) (l : seq (seq byte)) : jM (result (seq (seq byte)) jerror) :=
  jret (rmapM (to_array n name) l).

(** A call of the library, and [From<KZGError>] of errors.rs lines 20-24 *)
Definition library (A : Type) (x : outcome (result A err)) : jM (result A jerror) := fun s =>
  match x with Ret r => JRet (rmap_err ECrypto r) s | Panic => JPanic end.

(** lines 177-189 *)
Definition jlongarray (array : jref) : jM (result (seq N) jerror) :=
  jlet array_length := get_array_length array in
  jlet buffer := get_long_array_region array array_length in
  jret (Ok (map as_u64 buffer)).

(** lines 192-222; [x as u8] keeps the bits *)
Definition jobject_array_to_2d_byte_array (array : jref) : jM (result (seq (seq byte)) jerror) :=
  jlet outer_len := get_array_length array in
  jmapM (fun i =>
    jlet inner_array := get_object_array_element array i in
    jlet inner_len := get_array_length inner_array in
    get_byte_array_region inner_array inner_len) (iota 0 outer_len).

(** lines 236-245 and 248-257: the array of arrays *)
Definition array_of_slices (slices : seq (seq byte)) : jM (result jref jerror) :=
  jlet initial := new_byte_array 0 in
  jlet array := new_object_array (size slices) initial in
  jlet _ := jfor (fun i x => jlet a := byte_array_from_slice x in set_object_array_element array i a) 0 slices in
  jret (Ok array).

(** lines 225-266 *)
Definition cells_and_proofs_to_jobject (cells proofs : seq (seq byte)) : jM (result jref jerror) :=
  jlet _ := find_class in
  jlet _ := find_class in
  jlet _ := find_class in
  jlet cells_array := array_of_slices cells in
  jlet proofs_array := array_of_slices proofs in
  new_cells_and_proofs cells_array proofs_array.

(** lines 46-57 *)
Definition compute_cells_and_kzg_proofs (c : ctx) (blob : jref) : jM (result jref jerror) :=
  jlet blob := convert_byte_array blob in
  jlet blob := jret (to_array (BYTES_PER_BLOB K) NmBlob blob) in
  jlet cp := library (ra_compute api c blob) in
  cells_and_proofs_to_jobject cp.1 cp.2.

(** lines 75-85 *)
Definition blob_to_kzg_commitment (c : ctx) (blob : jref) : jM (result jref jerror) :=
  jlet blob := convert_byte_array blob in
  jlet blob := jret (to_array (BYTES_PER_BLOB K) NmBlob blob) in
  jlet commitment := library (ra_blob_to_kzg_commitment api c blob) in
  byte_array_from_slice commitment.

(** lines 107-138 *)
Definition verify_cell_kzg_proof_batch (c : ctx) (commitment cell_indices cells proofs : jref)
  : jM (result bool jerror) :=
  jlet commitment := jobject_array_to_2d_byte_array commitment in
  jlet cell_indices := jlongarray cell_indices in
  jlet cells := jobject_array_to_2d_byte_array cells in
  jlet proofs := jobject_array_to_2d_byte_array proofs in
  jlet cells := to_arrays (BYTES_PER_CELL K) NmCell cells in
  jlet commitments := to_arrays BYTES_PER_COMMITMENT NmCommitment commitment in
  jlet proofs := to_arrays BYTES_PER_COMMITMENT NmProof proofs in
  fun s =>
    match ra_verify api c commitments cell_indices cells proofs with
    | Ret (Ok _) => JRet (Ok true) s
    | Ret (Err e) => JRet (if ra_invalid_proof api e then Ok false else Err (ECrypto e)) s
    | Panic => JPanic
    end.

(** lines 158-174 *)
Definition recover_cells_and_kzg_proofs (c : ctx) (cell_ids cells : jref) : jM (result jref jerror) :=
  jlet cell_ids := jlongarray cell_ids in
  jlet cells := jobject_array_to_2d_byte_array cells in
  jlet cells := to_arrays (BYTES_PER_CELL K) NmCell cells in
  jlet cp := library (ra_recover api c cell_ids cells) in
  cells_and_proofs_to_jobject cp.1 cp.2.

(** [match f { Ok(v) => v, Err(err) => { throw_on_error(env, err, name); default } }] *)
Definition extern_fn (A : Type) (default : A) (func_name : string) (f : jM (result A jerror)) : jM A :=
  jbind f (fun r =>
    match r with
    | Ok v => jret v
    | Err e => jbind (throw_on_error e func_name) (fun _ => jret default)
    end).

(** lines 31-45, 60-74, 88-106 and 141-157; the address of the context is valid, see JavaLife.v *)
Definition native_compute (c : ctx) (blob : jref) : jM jref :=
  extern_fn None "computeCellsAndKZGProofs" (compute_cells_and_kzg_proofs c blob).
Definition native_commit (c : ctx) (blob : jref) : jM jref :=
  extern_fn None "blobToKZGCommitment" (blob_to_kzg_commitment c blob).
Definition native_verify (c : ctx) (commitment cell_indices cells proofs : jref) : jM bool :=
  extern_fn false "verifyCellKZGProofBatch" (verify_cell_kzg_proof_batch c commitment cell_indices cells proofs).
Definition native_recover (c : ctx) (cell_ids cells : jref) : jM jref :=
  extern_fn None "recoverCellsAndKZGProofs" (recover_cells_and_kzg_proofs c cell_ids cells).
End Jni.

(** ** How Java calls a native method: a pending exception is thrown when it returns, and its value
    is not used then. [Crash]: the process aborts because of a panic, or the behaviour is undefined. *)
Inductive jcall (A : Type) :=
| Returns (a : A) (h : seq jobj)
| ThrowsIllegalArgument (msg : seq byte) (h : seq jobj)
| Crash.
Arguments Returns {A}.
Arguments ThrowsIllegalArgument {A}.
Arguments Crash {A}.

Definition java_call (A : Type) (native : jM A) (h : seq jobj) : jcall A :=
  match native (MkJst h 0 None) with
  | JRet a s => if jpending s is Some msg then ThrowsIllegalArgument msg (jheap s) else Returns a (jheap s)
  | _ => Crash
  end.

(** The local references in the frame of the native method when it returns *)
Definition locals_of (A : Type) (native : jM A) (h : seq jobj) : option nat :=
  if native (MkJst h 0 None) is JRet _ s then Some (jlocals s) else None.

(** ** CellsAndProofs.java *)
Inductive jexn := NullPointerException | IllegalArgumentException | BufferOverflowException.

Section CellsAndProofs.
Variable h : seq jobj.

(** A reference to a byte[] or byte[][]: [None] for null. A field that refers to something else does
    not occur in Java; it is treated as null. *)
Definition bytes_at (r : jref) : option (seq byte) :=
  if r is Some a then if oget h a is Some (OBytes b) then Some b else None else None.
Definition arrays_at (r : jref) : option (seq jref) :=
  if r is Some a then if oget h a is Some (OArrays l) then Some l else None else None.

(** Arithmetic of int *)
Definition to_int (z : Z) : Z := ((z + 2 ^ 31) mod 2 ^ 32 - 2 ^ 31)%Z.
Definition int_of_byte (b : byte) : Z :=
  let z := Z.of_N (Byte.to_N b) in if (z <? 128)%Z then z else (z - 256)%Z.

(** lines 62-63 and 75, 77 [Arrays.stream(x).mapToInt(y -> y.length).sum()] *)
Fixpoint sum_lengths (acc : Z) (l : seq jref) : result Z jexn :=
  match l with
  | [::] => Ok acc
  | r :: l =>
    if bytes_at r is Some b then sum_lengths (to_int (acc + Z.of_nat (size b))) l
    else Err NullPointerException
  end.
(** [Arrays.stream(x).forEach(buffer::put)], for a buffer of [capacity] bytes with [buffer] in it *)
Fixpoint put_all (capacity : Z) (buffer : seq byte) (l : seq jref) : result (seq byte) jexn :=
  match l with
  | [::] => Ok buffer
  | r :: l =>
    if bytes_at r is Some b then
      if (capacity - Z.of_nat (size buffer) <? Z.of_nat (size b))%Z then Err BufferOverflowException
      else put_all capacity (buffer ++ b) l
    else Err NullPointerException
  end.

Definition jbindr (A B : Type) (x : result A jexn) (k : A -> result B jexn) : result B jexn :=
  match x with Ok a => k a | Err e => Err e end.
Definition non_null (A : Type) (x : option A) : result A jexn := if x is Some a then Ok a else Err NullPointerException.

(** lines 61-72 [toBytes]; [buffer.array()] is the whole buffer, zeros where nothing was put *)
Definition cap_to_bytes (cells proofs : jref) : result (seq byte) jexn :=
  jbindr (non_null (arrays_at cells)) (fun cells =>
  jbindr (sum_lengths 0 cells) (fun cellsLength =>
  jbindr (non_null (arrays_at proofs)) (fun proofs =>
  jbindr (sum_lengths 0 proofs) (fun proofsLength =>
  let totalLength := to_int (cellsLength + proofsLength) in
  if (totalLength <? 0)%Z then Err IllegalArgumentException
  else
    jbindr (put_all totalLength [::] cells) (fun buffer =>
    jbindr (put_all totalLength buffer proofs) (fun buffer =>
    Ok (buffer ++ nseq (Z.to_nat totalLength - size buffer) "000"%byte))))))).

(** [Arrays.hashCode(byte[])], [Arrays.deepHashCode(Object[])] *)
Definition hash_bytes (r : jref) : Z :=
  if bytes_at r is Some b then foldl (fun acc x => to_int (31 * acc + int_of_byte x)) 1%Z b else 0%Z.
Definition deep_hash (r : jref) : Z :=
  if arrays_at r is Some l then foldl (fun acc x => to_int (31 * acc + hash_bytes x)) 1%Z l else 0%Z.
(** lines 75-81 [hashCode] *)
Definition cap_hash_code (cells proofs : jref) : Z :=
  let prime := 31%Z in
  let result := 1%Z in
  let result := to_int (prime * result + deep_hash cells) in
  to_int (prime * result + deep_hash proofs).

(** [Arrays.equals(byte[], byte[])] after the comparison of references, and one step of
    [Arrays.deepEquals] *)
Definition equal_elements (x y : jref) : bool :=
  (x == y) ||
  match bytes_at x, bytes_at y with
  | Some b, Some b' => b == b'
  | _, _ => false
  end.
Definition deep_equals (x y : jref) : bool :=
  (x == y) ||
  match arrays_at x, arrays_at y with
  | Some l, Some l' => (size l == size l') && all (fun p => equal_elements p.1 p.2) (zip l l')
  | _, _ => false
  end.
(** lines 84-93 [equals], for an object of this class and any reference *)
Definition cap_equals (this obj : jref) : bool :=
  (this == obj) ||
  match obj with
  | None => false
  | Some b =>
    match this with
    | Some a =>
      match oget h a, oget h b with
      | Some (OCap cells proofs), Some (OCap cells' proofs') =>
          deep_equals cells cells' && deep_equals proofs proofs'
      | _, _ => false
      end
    | None => false
    end
  end.
End CellsAndProofs.
