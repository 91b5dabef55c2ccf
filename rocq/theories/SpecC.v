(** Specification vocabulary for the C interface: what memory holds, what an operation leaves
    unchanged, and the protocol for the caller. *)

From Coq Require Import NArith Init.Byte.
From mathcomp Require Import ssreflect ssrfun ssrbool eqtype ssrnat seq.
From Verif Require Import Base Bytes CMem CApi.

Set Implicit Arguments.
Unset Strict Implicit.
Unset Printing Implicit Defensive.

Section Content.
Variable ctx : Type.
Local Notation mem := (mem ctx).

(** ** What memory holds *)

(** Block b of m is live and is blk. *)
Definition is_block (m : mem) (b : nat) (blk : block ctx) : Prop :=
  b < size m /\ nth None m b = Some blk.

(** The bytes at p are data; an empty array is at every pointer. *)
Definition bytes_at (m : mem) (p : ptr) (data : seq byte) : Prop :=
  data = [::] \/
  exists b off s, [/\ p = Addr b off, is_block m b (BBytes _ s), off + size data <= size s &
    forall i, i < size data -> nth "000"%byte s (off + i) = nth "000"%byte data i].
Definition ptrs_at (m : mem) (p : ptr) (ps : seq ptr) : Prop :=
  ps = [::] \/
  exists b off s, [/\ p = Addr b off, is_block m b (BPtrs _ s), off + size ps <= size s &
    forall i, i < size ps -> nth Null s (off + i) = nth Null ps i].
Definition u64s_at (m : mem) (p : ptr) (ns : seq N) : Prop :=
  ns = [::] \/
  exists b off s, [/\ p = Addr b off, is_block m b (BU64s _ s), off + size ns <= size s &
    forall i, i < size ns -> nth 0%num s (off + i) = nth 0%num ns i].

(** An array of pointers to byte arrays. *)
Definition arrays_at (m : mem) (p : ptr) (arrays : seq (seq byte)) : Prop :=
  exists ps, [/\ ptrs_at m p ps, size ps = size arrays &
    forall i, i < size arrays -> bytes_at m (nth Null ps i) (nth [::] arrays i)].

(** n bytes at p can be written. *)
Definition writable (m : mem) (p : ptr) (n : nat) : Prop :=
  exists data, size data = n /\ bytes_at m p data.

Definition ctx_at (m : mem) (p : ptr) (c : ctx) : Prop := exists2 b, p = Addr b 0 & is_block m b (BCtx c).
Definition bool_at (m : mem) (p : ptr) (v : bool) : Prop := exists2 b, p = Addr b 0 & is_block m b (BBool _ v).

(** Of the blocks, only the verdict at p may have changed. *)
Definition unchanged_except_bool (p : ptr) (m m' : mem) : Prop :=
  size m' = size m /\ forall b, Addr b 0 <> p -> nth None m' b = nth None m b.

(** ** Regions *)
Definition region : Type := ptr * nat.
Definition in_region (r : region) (b off : nat) : bool :=
  match r.1 with
  | Null => false
  | Addr b' off' => (b == b') && (off' <= off < off' + r.2)
  end.

(** No byte is in two of the regions. *)
Definition disjoint_regions (rs : seq region) : Prop :=
  forall i j b off, i < j < size rs ->
    in_region (nth (Null, 0) rs i) b off -> ~~ in_region (nth (Null, 0) rs j) b off.

(** Every block is the same in m', except for the bytes in the regions. *)
Definition unchanged_except (rs : seq region) (m m' : mem) : Prop :=
  size m' = size m /\
  forall b, b < size m ->
    nth None m' b = nth None m b \/
    exists s s', [/\ nth None m b = Some (BBytes _ s), nth None m' b = Some (BBytes _ s'),
      size s' = size s &
      forall off, ~~ has (fun r => in_region r b off) rs -> nth "000"%byte s' off = nth "000"%byte s off].

End Content.

(** ** The Rust library, as typed by Rust *)

(** The sizes of the arrays in the results of calls with context c, which Rust's types fix. *)
Record api_typed (ctx err : Type) (api : rust_api ctx err) (c : ctx) : Prop := ApiTyped {
  at_commitment : forall blob com, size blob = 2 ^ 17 ->
    ra_blob_to_kzg_commitment api c blob = Ret (Ok com) -> size com = 48;
  at_compute : forall blob cells proofs, size blob = 2 ^ 17 ->
    ra_compute api c blob = Ret (Ok (cells, proofs)) ->
    [/\ size cells = 128, size proofs = 128, all (fun x => size x == 2048) cells &
        all (fun x => size x == 48) proofs];
  at_recover : forall idx cells cells' proofs, all (fun x => size x == 2048) cells ->
    ra_recover api c idx cells = Ret (Ok (cells', proofs)) ->
    [/\ size cells' = 128, size proofs = 128, all (fun x => size x == 2048) cells' &
        all (fun x => size x == 48) proofs]
}.

(** No error is printed with a zero character. *)
Definition no_nul (ctx err : Type) (api : rust_api ctx err) : Prop :=
  forall e, "000"%byte \notin ra_debug api e.

(** ** Histories *)

(** What happens: a call, or the caller changing, freeing or allocating memory of its own. *)
Inductive c_event (ctx : Type) :=
| Call (c : c_call) (v : c_value)
| CallerAlloc (blk : block ctx)
| CallerSet (b : nat) (blk : option (block ctx)).

(** The contexts and messages that the library has handed out and that were not freed since. *)
Definition handed_ctx (ctx : Type) (e : c_event ctx) (live : seq ptr) : seq ptr :=
  match e with
  | Call (New _ _) (VPtr p) => p :: live
  | Call (FreeCtx p) _ => filter (predC1 p) live
  | _ => live
  end.
Definition handed_msg (ctx : Type) (e : c_event ctx) (live : seq ptr) : seq ptr :=
  match e with
  | Call (FreeMsg p) _ => filter (predC1 p) live
  | Call _ (VResult r) => if cr_error_msg r == Null then live else cr_error_msg r :: live
  | _ => live
  end.
(** The latest event is first. *)
Definition live_ctx (ctx : Type) (h : seq (c_event ctx)) : seq ptr := foldr (@handed_ctx ctx) [::] h.
Definition live_msg (ctx : Type) (h : seq (c_event ctx)) : seq ptr := foldr (@handed_msg ctx) [::] h.

Definition caller_block (ctx : Type) (blk : block ctx) : bool :=
  match blk with BCtx _ | BMsg _ => false | _ => true end.

Section Protocol.
Variables (ctx err : Type) (api : rust_api ctx err).

(** The documentation of the entry points in /repo/bindings/c/src/lib.rs: a context is one that was
    handed out and not freed; what is freed is null or was handed out and not freed; the arrays
    are there, with the lengths given. *)
Definition outputs_ok (m : mem ctx) (out : ptr) (n : nat) : Prop :=
  exists2 ps, ptrs_at m out ps /\ size ps = 128 & forall i, i < 128 -> writable m (nth Null ps i) n.
Definition allowed (h : seq (c_event ctx)) (m : mem ctx) (c : c_call) : Prop :=
  match c with
  | New _ _ => True
  | FreeCtx p => p = Null \/ p \in live_ctx h
  | FreeMsg p => p = Null \/ p \in live_msg h
  | Commit p blob out => [/\ p \in live_ctx h, writable m blob (2 ^ 17) & writable m out 48]
  | Compute p blob out_cells out_proofs =>
      [/\ p \in live_ctx h, writable m blob (2 ^ 17), outputs_ok m out_cells 2048 & outputs_ok m out_proofs 48]
  | Recover p n cells k indices out_cells out_proofs =>
      [/\ p \in live_ctx h,
          exists2 cs, size cs = n /\ all (fun x => size x == 2048) cs & arrays_at m cells cs,
          exists2 ks, size ks = k & u64s_at m indices ks,
          outputs_ok m out_cells 2048 & outputs_ok m out_proofs 48]
  | Verify p a commitments b indices c cells d proofs verified =>
      [/\ p \in live_ctx h,
          exists2 cs, size cs = a /\ all (fun x => size x == 48) cs & arrays_at m commitments cs,
          exists2 ks, size ks = b & u64s_at m indices ks,
          exists2 cs, size cs = c /\ all (fun x => size x == 2048) cs & arrays_at m cells cs &
          (exists2 ps, size ps = d /\ all (fun x => size x == 48) ps & arrays_at m proofs ps) /\
          exists v, bool_at m verified v]
  end.

(** The caller changes only blocks that are its own. *)
Definition allowed_set (m : mem ctx) (b : nat) (blk : option (block ctx)) : Prop :=
  (exists2 old, is_block m b old & caller_block old) /\
  (if blk is Some new then caller_block new : Prop else True).

(** The histories of callers that follow the protocol, from empty memory, with the memory at the
    end. *)
Inductive good_history : seq (c_event ctx) -> mem ctx -> Prop :=
| GoodStart : good_history [::] [::]
| GoodCall h m c v m' : good_history h m -> allowed h m c -> c_exec api c m = CRet (v, m') ->
    good_history (Call _ c v :: h) m'
| GoodAlloc h m blk : good_history h m -> caller_block blk ->
    good_history (CallerAlloc blk :: h) (rcons m (Some blk))
| GoodSet h m b blk : good_history h m -> allowed_set m b blk ->
    good_history (CallerSet b blk :: h) (set_nth None m b blk).

End Protocol.
