(** Several threads of a C program that call the functions of /repo/bindings/c/src/lib.rs at the same
    time, over the memory of CMem.v.

    Memory is read and written in single cells: a byte, an element of an array of pointers or numbers,
    the verdict of a verification, a context, a message. Every access to a cell and every allocation is
    one step; steps of different threads are interleaved in any order. *)

From Coq Require Import NArith Init.Byte.
From mathcomp Require Import ssreflect ssrfun ssrbool eqtype ssrnat seq.
From Verif Require Import Base Bytes CMem Eip7594 CApi.

Set Implicit Arguments.
Unset Strict Implicit.
Unset Printing Implicit Defensive.

Section Threads.
Variables (ctx err : Type) (api : rust_api ctx err).
Local Notation mem := (mem ctx).

(** ** Cells *)
Inductive cell :=
| CellByte (x : byte) | CellPtr (p : ptr) | CellU64 (n : N) | CellBool (v : bool) | CellCtx (c : ctx)
| CellMsg (s : seq byte).

(** What is at offset o of the live block b, if anything. *)
Definition block_cell (blk : block ctx) (o : nat) : option cell :=
  match blk with
  | BBytes s => option_map CellByte (oget s o)
  | BPtrs s => option_map CellPtr (oget s o)
  | BU64s s => option_map CellU64 (oget s o)
  | BBool v => if o == 0 then Some (CellBool v) else None
  | BCtx c => if o == 0 then Some (CellCtx c) else None
  | BMsg s => if o == 0 then Some (CellMsg s) else None
  end.
Definition cell_of (m : mem) (b o : nat) : option cell :=
  if live_block m b is Some blk then block_cell blk o else None.

(** A write to a byte or to a verdict; the library writes nothing else. *)
Definition put_block (blk : block ctx) (o : nat) (v : cell) : option (block ctx) :=
  match blk, v with
  | BBytes s, CellByte x => if o < size s then Some (BBytes _ (set_nth "000"%byte s o x)) else None
  | BBool _, CellBool x => if o == 0 then Some (BBool _ x) else None
  | _, _ => None
  end.
Definition put (m : mem) (b o : nat) (v : cell) : option mem :=
  if live_block m b is Some blk then
    if put_block blk o v is Some blk' then Some (set_nth None m b (Some blk')) else None
  else None.
(** A block of the library goes. *)
Definition release (m : mem) (b : nat) : option mem :=
  match live_block m b with
  | Some (BCtx _) | Some (BMsg _) => Some (set_nth None m b None)
  | _ => None
  end.

(** ** What a call does, step by step *)
Inductive prog :=
| PGet (b o : nat) (k : cell -> prog)
| PPut (b o : nat) (v : cell) (k : prog)
| PRelease (b : nat) (k : prog)
(** return of nothing, of success, of a failure with a new message, of a new context *)
| PVoid
| POk
| PFail (msg : seq byte)
| PMake (c : ctx)
(** a panic; an access through an invalid pointer *)
| PAbort
| PInvalid.

Inductive progress := Next (p : prog) (m : mem) | Done (v : c_value) (m : mem) | Aborts | Faults.
Definition pstep (p : prog) (m : mem) : progress :=
  match p with
  | PGet b o k => if cell_of m b o is Some v then Next (k v) m else Faults
  | PPut b o v k => if put m b o v is Some m' then Next k m' else Faults
  | PRelease b k => if release m b is Some m' then Next k m' else Faults
  | PVoid => Done VUnit m
  | POk => Done (VResult with_ok) m
  | PFail msg => Done (VResult (MkCResult StErr (Addr (size m) 0))) (rcons m (Some (BMsg _ msg)))
  | PMake c => Done (VPtr (Addr (size m) 0)) (rcons m (Some (BCtx c)))
  | PAbort => Aborts
  | PInvalid => Faults
  end.

(** All steps of a call, without another thread between them. *)
Fixpoint alone (p : prog) (m : mem) : cout (c_value * mem) :=
  match p with
  | PGet b o k => if cell_of m b o is Some v then alone (k v) m else CUB
  | PPut b o v k => if put m b o v is Some m' then alone k m' else CUB
  | PRelease b k => if release m b is Some m' then alone k m' else CUB
  | PVoid => CRet (VUnit, m)
  | POk => CRet (VResult with_ok, m)
  | PFail msg => CRet (VResult (MkCResult StErr (Addr (size m) 0)), rcons m (Some (BMsg _ msg)))
  | PMake c => CRet (VPtr (Addr (size m) 0), rcons m (Some (BCtx c)))
  | PAbort => CAbort
  | PInvalid => CUB
  end.

(** ** The code of CApi.v in single steps *)

(** assert!(b), then the rest *)
Definition p_assert (b : bool) (k : prog) : prog := if b then k else PAbort.

(** Reading n cells from offset o of block b; those read so far are in acc, the latest first. *)
Fixpoint p_cells (n b o : nat) (acc : seq cell) (k : seq cell -> prog) : prog :=
  match n with
  | 0 => k (rev acc)
  | n'.+1 => PGet b o (fun v => p_cells n' b o.+1 (v :: acc) k)
  end.
Definition p_region (p : ptr) (n : nat) (k : seq cell -> prog) : prog :=
  if n == 0 then k [::] else if p is Addr b o then p_cells n b o [::] k else PInvalid.

(** Cells of one kind. *)
Definition as_byte (v : cell) : option byte := if v is CellByte x then Some x else None.
Definition as_ptr (v : cell) : option ptr := if v is CellPtr x then Some x else None.
Definition as_num (v : cell) : option N := if v is CellU64 x then Some x else None.
Fixpoint all_as (A : Type) (f : cell -> option A) (l : seq cell) : option (seq A) :=
  match l with
  | [::] => Some [::]
  | v :: l => if f v is Some x then option_map (cons x) (all_as f l) else None
  end.
Definition p_as (A : Type) (f : cell -> option A) (p : ptr) (n : nat) (k : seq A -> prog) : prog :=
  p_region p n (fun l => if all_as f l is Some s then k s else PInvalid).

(** pointer_utils.rs lines 67-77 [create_array_ref], [create_slice_view] *)
Definition p_bytes := p_as as_byte.
Definition p_nums := p_as as_num.
(** lines 9-11 [deref_const], lines 4-6 [deref_mut] *)
Definition p_ctx (p : ptr) (k : ctx -> prog) : prog :=
  if p is Addr b 0 then PGet b 0 (fun v => if v is CellCtx c then k c else PInvalid) else PInvalid.
Definition p_bool (p : ptr) (k : prog) : prog :=
  if p is Addr b 0 then PGet b 0 (fun v => if v is CellBool _ then k else PInvalid) else PInvalid.
(** lines 25-44 [ptr_ptr_to_vec_slice_const] *)
Fixpoint p_rows (w : nat) (ps : seq ptr) (acc : seq (seq byte)) (k : seq (seq byte) -> prog) : prog :=
  match ps with
  | [::] => k (rev acc)
  | p :: ps => p_bytes p w (fun row => p_rows w ps (row :: acc) k)
  end.
Definition p_arrays (w : nat) (p : ptr) (n : nat) (k : seq (seq byte) -> prog) : prog :=
  p_as as_ptr p n (fun ps => p_rows w ps [::] k).

(** lines 47-50 [write_to_slice] *)
Fixpoint p_write (b o : nat) (data : seq byte) (k : prog) : prog :=
  match data with
  | [::] => k
  | x :: data => PPut b o (CellByte x) (p_write b o.+1 data k)
  end.
Definition p_store (p : ptr) (data : seq byte) (k : prog) : prog :=
  if p is Addr b o then p_write b o data k else PInvalid.
(** lines 53-62 [write_to_2d_slice] *)
Fixpoint p_store_rows (pds : seq (ptr * seq byte)) (k : prog) : prog :=
  match pds with
  | [::] => k
  | pd :: pds => p_store pd.1 pd.2 (p_store_rows pds k)
  end.
Definition p_store_arrays (n : nat) (p : ptr) (data : seq (seq byte)) (k : prog) : prog :=
  p_as as_ptr p n (fun ps => p_store_rows (zip ps data) k).

(** lib.rs lines 135-141 [with_error], and [map_err(..)?] *)
Definition p_try (A : Type) (x : outcome (result A err)) (k : A -> prog) : prog :=
  match x with
  | Ret (Ok a) => k a
  | Ret (Err e) => p_assert ("000"%byte \notin ra_debug api e) (PFail (ra_debug api e))
  | Panic => PAbort
  end.

Local Notation K := eip7594_consts.

(** The entry points of lib.rs, as cited at CApi.v *)
Definition p_call (c : c_call) : prog :=
  match c with
  | New use_precomp num_threads =>
      if ra_new api use_precomp num_threads is Ret c then PMake c else PAbort
  | FreeCtx p =>
      match p with
      | Null => PVoid
      | Addr b 0 => PGet b 0 (fun v => if v is CellCtx _ then PRelease b PVoid else PInvalid)
      | _ => PInvalid
      end
  | FreeMsg p =>
      match p with
      | Null => PVoid
      | Addr b 0 => PGet b 0 (fun v => if v is CellMsg _ then PRelease b PVoid else PInvalid)
      | _ => PInvalid
      end
  | Commit p blob out =>
      p_assert (~~ is_null p) (
      p_ctx p (fun c =>
      p_bytes blob (BYTES_PER_BLOB K) (fun blob =>
      p_try (ra_blob_to_kzg_commitment api c blob) (fun commitment =>
      p_assert (size commitment == BYTES_PER_COMMITMENT) (
      p_store out commitment POk)))))
  | Compute p blob out_cells out_proofs =>
      p_assert (~~ is_null p) (
      p_ctx p (fun c =>
      p_bytes blob (BYTES_PER_BLOB K) (fun blob =>
      p_try (ra_compute api c blob) (fun cells_proofs =>
      p_store_arrays (CELLS_PER_EXT_BLOB K) out_cells cells_proofs.1 (
      p_store_arrays (CELLS_PER_EXT_BLOB K) out_proofs cells_proofs.2 (
      POk))))))
  | Recover p n cells k ids out_cells out_proofs =>
      p_assert (~~ is_null p) (
      p_ctx p (fun c =>
      p_arrays (BYTES_PER_CELL K) cells n (fun cells =>
      p_nums ids k (fun ids =>
      p_try (ra_recover api c ids cells) (fun cells_proofs =>
      p_store_arrays (CELLS_PER_EXT_BLOB K) out_cells cells_proofs.1 (
      p_store_arrays (CELLS_PER_EXT_BLOB K) out_proofs cells_proofs.2 (
      POk)))))))
  | Verify p n1 coms n2 ids n3 cells n4 proofs verified =>
      p_assert (~~ is_null p) (
      p_ctx p (fun c =>
      p_arrays BYTES_PER_COMMITMENT coms n1 (fun coms =>
      p_nums ids n2 (fun ids =>
      p_arrays (BYTES_PER_CELL K) cells n3 (fun cells =>
      p_arrays BYTES_PER_COMMITMENT proofs n4 (fun proofs =>
      p_bool verified (
      p_try (omap (verification_result_to_bool api) (ra_verify api c coms ids cells proofs)) (fun valid =>
      if verified is Addr b 0 then PPut b 0 (CellBool valid) POk else PInvalid))))))))
  end.

(** ** Threads *)
Inductive thread := Idle | Running (c : c_call) (start : mem) (p : prog).
Record state := MkState { st_mem : mem; st_threads : nat -> thread }.
Definition set_thread (f : nat -> thread) (t : nat) (x : thread) : nat -> thread :=
  fun t' => if t' == t then x else f t'.

(** What happened: thread t called c when memory was m; its call ended with v and memory m'; its call
    aborted or accessed memory that it may not. *)
Inductive event :=
| Started (t : nat) (c : c_call) (m : mem)
| Ended (t : nat) (c : c_call) (m : mem) (v : c_value) (m' : mem)
| Broken (t : nat) (c : c_call).

(** The runs of threads of which each makes one call after the other, whenever it likes. [impl c] is what
    a call of c does, step by step. [may_start] says when a thread may make a call, [may_change] how the
    callers may change the memory otherwise. The latest event is first. *)
Section Runs.
Variables (impl : c_call -> prog) (may_start : state -> c_call -> Prop) (may_change : state -> mem -> Prop).
Inductive run (m0 : mem) : seq event -> state -> Prop :=
| RunInit : run m0 [::] (MkState m0 (fun _ => Idle))
| RunStart tr s t c : run m0 tr s -> st_threads s t = Idle -> may_start s c ->
    run m0 (Started t c (st_mem s) :: tr)
      (MkState (st_mem s) (set_thread (st_threads s) t (Running c (st_mem s) (impl c))))
| RunNext tr s t c m p p' m' : run m0 tr s -> st_threads s t = Running c m p ->
    pstep p (st_mem s) = Next p' m' ->
    run m0 tr (MkState m' (set_thread (st_threads s) t (Running c m p')))
| RunDone tr s t c m p v m' : run m0 tr s -> st_threads s t = Running c m p ->
    pstep p (st_mem s) = Done v m' ->
    run m0 (Ended t c m v m' :: tr) (MkState m' (set_thread (st_threads s) t Idle))
| RunBroken tr s t c m p : run m0 tr s -> st_threads s t = Running c m p ->
    (pstep p (st_mem s) = Aborts \/ pstep p (st_mem s) = Faults) ->
    run m0 (Broken t c :: tr) (MkState (st_mem s) (set_thread (st_threads s) t Idle))
| RunChange tr s m' : run m0 tr s -> may_change s m' -> run m0 tr (MkState m' (st_threads s)).
End Runs.
End Threads.

Arguments Idle {ctx}.
Arguments Broken {ctx} t c.
Arguments PVoid {ctx}.
Arguments POk {ctx}.
Arguments PAbort {ctx}.
Arguments PInvalid {ctx}.
