(** Memory of a C program that uses the library, and /repo/bindings/c/src/pointer_utils.rs.

    Memory is a list of blocks, each either live or freed; a pointer is null or a block and an offset
    into it. Blocks carry their type. Reading or writing outside of a live block of the right type
    is undefined behaviour (CUB). A panic of the library aborts the process (CAbort), since it must
    not unwind into C. *)

From Coq Require Import NArith Init.Byte.
From mathcomp Require Import ssreflect ssrfun ssrbool eqtype ssrnat seq.
From Verif Require Import Base Bytes.

Set Implicit Arguments.
Unset Strict Implicit.
Unset Printing Implicit Defensive.

Inductive ptr := Null | Addr (block : nat) (offset : nat).
Definition ptr_eqb (p q : ptr) : bool :=
  match p, q with
  | Null, Null => true
  | Addr b o, Addr b' o' => (b == b') && (o == o')
  | _, _ => false
  end.
Lemma ptr_eqP : Equality.axiom ptr_eqb.
Proof.
case=> [|b o] [|b' o'] /=; try by constructor.
by apply: (iffP andP) => [[/eqP -> /eqP ->]|[-> ->]].
Qed.
Canonical ptr_eqType := EqType ptr (EqMixin ptr_eqP).

Inductive cout (A : Type) := CRet (a : A) | CAbort | CUB.
Arguments CRet {A}.
Arguments CAbort {A}.
Arguments CUB {A}.

Section Mem.
Variable ctx : Type.

(** The library allocates contexts and messages, the caller the others. *)
Inductive block :=
| BCtx (c : ctx)
| BMsg (s : seq byte)
| BBytes (s : seq byte)
| BPtrs (s : seq ptr)
| BU64s (s : seq N)
| BBool (v : bool).

(** None: freed. *)
Definition mem := seq (option block).

Definition cM (A : Type) := mem -> cout (A * mem).
Definition cret (A : Type) (a : A) : cM A := fun m => CRet (a, m).
Definition cbind (A B : Type) (e : cM A) (k : A -> cM B) : cM B := fun m =>
  match e m with
  | CRet (a, m') => k a m'
  | CAbort => CAbort
  | CUB => CUB
  end.
Definition cabort (A : Type) : cM A := fun _ => CAbort.
(** [assert!] *)
Definition cassert (b : bool) : cM unit := fun m => if b then CRet (tt, m) else CAbort.
(** A read of memory; where it is not defined, behaviour is undefined. *)
Definition cread (A : Type) (rd : mem -> option A) : cM A := fun m =>
  match rd m with Some a => CRet (a, m) | None => CUB end.
(** A change of memory. *)
Definition cwrite (wr : mem -> option mem) : cM unit := fun m =>
  match wr m with Some m' => CRet (tt, m') | None => CUB end.
(** A call of Rust code that does not touch this memory. *)
Definition crust (A : Type) (r : outcome A) : cM A := fun m =>
  match r with Ret a => CRet (a, m) | Panic => CAbort end.

(** The live block b. *)
Definition live_block (m : mem) (b : nat) : option block :=
  match oget m b with Some (Some blk) => Some blk | _ => None end.

(** [Box::into_raw(Box::new(..))], [CString::into_raw], and the allocations of the caller. *)
Definition alloc (blk : block) : cM ptr := fun m => CRet (Addr (size m) 0, rcons m (Some blk)).

(** Reading n elements at p. *)
Definition load_bytes (m : mem) (p : ptr) (n : nat) : option (seq byte) :=
  match p with
  | Null => None
  | Addr b off =>
      match live_block m b with
      | Some (BBytes s) => if off + n <= size s then Some (take n (drop off s)) else None
      | _ => None
      end
  end.
Definition load_ptrs (m : mem) (p : ptr) (n : nat) : option (seq ptr) :=
  match p with
  | Null => None
  | Addr b off =>
      match live_block m b with
      | Some (BPtrs s) => if off + n <= size s then Some (take n (drop off s)) else None
      | _ => None
      end
  end.
Definition load_u64s (m : mem) (p : ptr) (n : nat) : option (seq N) :=
  match p with
  | Null => None
  | Addr b off =>
      match live_block m b with
      | Some (BU64s s) => if off + n <= size s then Some (take n (drop off s)) else None
      | _ => None
      end
  end.
Definition load_ctx (m : mem) (p : ptr) : option ctx :=
  match p with
  | Addr b 0 => match live_block m b with Some (BCtx c) => Some c | _ => None end
  | _ => None
  end.
Definition load_bool (m : mem) (p : ptr) : option bool :=
  match p with
  | Addr b 0 => match live_block m b with Some (BBool v) => Some v | _ => None end
  | _ => None
  end.

(** Writing. *)
Definition overwrite (s : seq byte) (off : nat) (data : seq byte) : seq byte :=
  take off s ++ data ++ drop (off + size data) s.
Definition store_bytes (p : ptr) (data : seq byte) (m : mem) : option mem :=
  match p with
  | Null => None
  | Addr b off =>
      match live_block m b with
      | Some (BBytes s) =>
          if off + size data <= size s
          then Some (set_nth None m b (Some (BBytes (overwrite s off data)))) else None
      | _ => None
      end
  end.
Definition store_bool (p : ptr) (v : bool) (m : mem) : option mem :=
  match p with
  | Addr b 0 =>
      match live_block m b with
      | Some (BBool _) => Some (set_nth None m b (Some (BBool v)))
      | _ => None
      end
  | _ => None
  end.
Definition release_ctx (p : ptr) (m : mem) : option mem :=
  match p with
  | Addr b 0 =>
      match live_block m b with Some (BCtx _) => Some (set_nth None m b None) | _ => None end
  | _ => None
  end.
Definition release_msg (p : ptr) (m : mem) : option mem :=
  match p with
  | Addr b 0 =>
      match live_block m b with Some (BMsg _) => Some (set_nth None m b None) | _ => None end
  | _ => None
  end.

Local Notation "'clet' x := e 'in' k" := (cbind e (fun x => k))
  (at level 200, x pattern, right associativity).

(** ** pointer_utils.rs *)

(** lines 71-77 [create_slice_view], for the three element types it is used with *)
Definition create_slice_view_u8 (p : ptr) (len : nat) : cM (seq byte) :=
  if len == 0 then cret [::] else cread (fun m => load_bytes m p len).
Definition create_slice_view_u64 (p : ptr) (len : nat) : cM (seq N) :=
  if len == 0 then cret [::] else cread (fun m => load_u64s m p len).

(** lines 67-70 [create_array_ref] *)
Definition create_array_ref (len : nat) (p : ptr) : cM (seq byte) :=
  clet slice := create_slice_view_u8 p len in
  clet _ := cassert (size slice == len) in
  cret slice.

(** for x in l { result.push(f(x)) } *)
Fixpoint cmapM (A B : Type) (f : A -> cM B) (l : seq A) : cM (seq B) :=
  match l with
  | [::] => cret [::]
  | x :: l' => clet y := f x in clet ys := cmapM f l' in cret (y :: ys)
  end.
(** for x in l { f(x) } *)
Fixpoint citer (A : Type) (f : A -> cM unit) (l : seq A) : cM unit :=
  match l with
  | [::] => cret tt
  | x :: l' => clet _ := f x in citer f l'
  end.

(** lines 25-44 [ptr_ptr_to_vec_slice_const] *)
Definition ptr_ptr_to_vec_slice_const (inner_len : nat) (ptr_ptr : ptr) (outer_len : nat)
  : cM (seq (seq byte)) :=
  if outer_len == 0 then cret [::] else
  clet vec_slice := cread (fun m => load_ptrs m ptr_ptr outer_len) in
  cmapM (create_array_ref inner_len) vec_slice.

(** lines 47-50 [write_to_slice] *)
Definition write_to_slice (p : ptr) (data : seq byte) : cM unit := cwrite (store_bytes p data).

(** lines 14-22 [ptr_ptr_to_slice_slice_mut] *)
Definition ptr_ptr_to_slice_slice_mut (ptr_ptr : ptr) (outer_len : nat) : cM (seq ptr) :=
  if outer_len == 0 then cret [::] else cread (fun m => load_ptrs m ptr_ptr outer_len).

(** lines 53-62 [write_to_2d_slice] *)
Definition write_to_2d_slice (n : nat) (p : ptr) (data : seq (seq byte)) : cM unit :=
  clet out_cells := ptr_ptr_to_slice_slice_mut p n in
  citer (fun pd => write_to_slice pd.1 pd.2) (zip out_cells data).

(** lines 9-11 [deref_const] for contexts, lines 4-6 [deref_mut] for the verdict: the pointer must
    be valid. *)
Definition deref_ctx (p : ptr) : cM ctx := cread (fun m => load_ctx m p).
Definition deref_mut_bool (p : ptr) : cM unit := clet _ := cread (fun m => load_bool m p) in cret tt.

Definition is_null (p : ptr) : bool := p == Null.

End Mem.

Notation "'clet' x := e 'in' k" := (cbind e (fun x => k))
  (at level 200, x pattern, right associativity).
