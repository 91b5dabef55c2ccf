(** Model of the parallel collections of rayon as used by /repo/maybe_rayon/src/multi_threaded.rs
    (the traits forward to [into_par_iter], [par_iter] and [par_iter_mut]) inside the thread pool
    of /repo/eip7594/src/lib.rs lines 127-146.

    An indexed parallel iterator [xs.par_iter().map(f).collect()] is a range of indices that
    workers split, steal and run; each result is written to the slot of its index. Splitting is
    adaptive in rayon, so every split point is allowed here. A job whose element panics is
    dropped, and jobs that wait in a queue may then be dropped too; the panic is resumed by the
    caller at the end. [collect] checks that all slots were written. *)

From mathcomp Require Import ssreflect ssrfun ssrbool eqtype ssrnat seq ssralg.
From Verif Require Import Base FFT Domain Lincomb FixedBaseMSM Toeplitz.

Set Implicit Arguments.
Unset Strict Implicit.
Unset Printing Implicit Defensive.

(** /repo/eip7594/src/lib.rs lines 62-83 [ThreadCount] and 85-97 its conversion; 0 stands for the
    number of threads chosen by rayon, which is at least 1. *)
Inductive thread_count := Single | Multi (num_threads : nat) | SensibleDefault.
Definition thread_count_to_usize (t : thread_count) : nat :=
  match t with
  | Single => 1
  | Multi num_threads => num_threads
  | SensibleDefault => 0
  end.
Definition pool_size (rayon_num_threads : nat) (t : thread_count) : nat :=
  let n := thread_count_to_usize t in if n == 0 then rayon_num_threads.+1 else n.

(** A job: the indices from lo to hi - 1. *)
Definition job := (nat * nat)%type.

(** The pool: the output slots, the queued jobs, the job of each worker, whether a job panicked. *)
Record pool (B : Type) := MkPool {
  p_out : seq (option B);
  p_queue : seq job;
  p_workers : seq (option job);
  p_panic : bool
}.

Section Pool.
Variables (A B : Type) (f : A -> outcome B) (xs : seq A).

Definition pool_init (workers : nat) : pool B :=
  MkPool (nseq (size xs) None) [:: (0, size xs)] (nseq workers None) false.

Inductive pool_step : pool B -> pool B -> Prop :=
(** an idle worker takes any queued job *)
| PoolTake out q1 j q2 w1 w2 b :
    pool_step (MkPool out (q1 ++ j :: q2) (w1 ++ None :: w2) b)
              (MkPool out (q1 ++ q2) (w1 ++ Some j :: w2) b)
(** a worker splits its job and queues the second part *)
| PoolSplit out q w1 lo mid hi w2 b : lo < mid < hi ->
    pool_step (MkPool out q (w1 ++ Some (lo, hi) :: w2) b)
              (MkPool out ((mid, hi) :: q) (w1 ++ Some (lo, mid) :: w2) b)
(** a worker runs the first element of its job *)
| PoolRun out q w1 lo hi w2 b x y : lo < hi -> aget xs lo = Ret x -> f x = Ret y ->
    pool_step (MkPool out q (w1 ++ Some (lo, hi) :: w2) b)
              (MkPool (set_nth None out lo (Some y)) q (w1 ++ Some (lo.+1, hi) :: w2) b)
| PoolPanic out q w1 lo hi w2 b x : lo < hi -> aget xs lo = Ret x -> f x = Panic ->
    pool_step (MkPool out q (w1 ++ Some (lo, hi) :: w2) b)
              (MkPool out q (w1 ++ None :: w2) true)
(** a worker has finished its job *)
| PoolIdle out q w1 lo w2 b :
    pool_step (MkPool out q (w1 ++ Some (lo, lo) :: w2) b)
              (MkPool out q (w1 ++ None :: w2) b)
(** after a panic queued jobs may be dropped *)
| PoolDrop out q1 j q2 w :
    pool_step (MkPool out (q1 ++ j :: q2) w true) (MkPool out (q1 ++ q2) w true).

Definition pool_final (s : pool B) : bool := nilp (p_queue s) && all (fun w => ~~ isSome w) (p_workers s).

(** What the caller of [collect] gets. *)
Definition pool_result (s : pool B) : outcome (seq B) :=
  if p_panic s then Panic
  else oassert (all isSome (p_out s)) (Ret (pmap id (p_out s))).

(** A number of steps. *)
Inductive pool_steps : nat -> pool B -> pool B -> Prop :=
| PoolRefl s : pool_steps 0 s s
| PoolTrans k s t u : pool_step s t -> pool_steps k t u -> pool_steps k.+1 s u.

(** [collect] with this number of workers can give r. *)
Definition par_collect (workers : nat) (r : outcome (seq B)) : Prop :=
  exists k s, [/\ pool_steps k (pool_init workers) s, pool_final s & pool_result s = r].

End Pool.

(** The two functions with parallel sections, as relations between the arguments and a possible
    result with this number of workers. *)
Section ParToeplitz.
Import GRing.Theory.
Variables (F : fieldType) (V : lmodType F) (fp : fparams F) (me : msm_env V) (workers : nat).

(** If the parallel section gives a value, go on with it. *)
Definition par_bind (A B C : Type) (f : A -> outcome B) (xs : seq A) (k : seq B -> outcome C -> Prop)
  (r : outcome C) : Prop :=
  (par_collect f xs workers Panic /\ r = Panic) \/
  (exists2 ys, par_collect f xs workers (Ret ys) & k ys r).
Definition seq_bind (B C : Type) (m : outcome B) (k : B -> outcome C -> Prop) (r : outcome C) : Prop :=
  match m with Ret y => k y r | Panic => r = Panic end.
Definition seq_assert (C : Type) (b : bool) (k : outcome C -> Prop) (r : outcome C) : Prop :=
  if b then k r else r = Panic.

(** batch_toeplitz.rs lines 30-74 [new], with the parallel sections of lines 45-54 and 63-66. *)
Definition par_batch_toeplitz_new (vectors : seq (seq V)) (up : use_precomp)
  : outcome (batch_toeplitz V) -> Prop :=
  seq_bind (aget vectors 0) (fun v0 =>
  let size_of_vector := size v0 in
  seq_assert (all (fun v => size v == size_of_vector) vectors) (
  seq_assert (is_power_of_two size_of_vector) (
  seq_bind (domain_new fp (size_of_vector * 2)) (fun circulant_domain =>
  par_bind (fft_g1 circulant_domain) vectors (fun vectors =>
  let batch_size := size vectors in
  seq_bind (transpose vectors) (fun transposed_msm_vectors =>
  par_bind (fun v => fixed_base_msm_new v up) transposed_msm_vectors (fun precomputed_table =>
  eq (Ret (MkBatchToeplitz batch_size precomputed_table size_of_vector circulant_domain))))))))).

(** batch_toeplitz.rs lines 82-116 [sum_matrix_vector_mul]; the two maps of lines 90-102 are one
    parallel section. *)
Definition par_sum_matrix_vector_mul (bt : batch_toeplitz V) (matrices : seq (toeplitz_matrix F))
  : outcome (seq V) -> Prop :=
  seq_assert (size matrices == bt_batch_size bt) (
  par_bind (fun m => olet c := circulant_from_toeplitz m in fft_scalars (bt_circulant_domain bt) c)
    matrices (fun col_ffts =>
  seq_bind (transpose col_ffts) (fun msm_scalars =>
  par_bind (fun ps => fixed_base_msm_run me ps.1 ps.2)
    (zip (bt_precomputed_fft_vectors bt) msm_scalars) (fun result =>
  eq (ifft_g1_take_n (bt_circulant_domain bt) result (Some (bt_size_of_vector bt))))))).

End ParToeplitz.
