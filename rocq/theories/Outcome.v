(** Outcomes of Rust calls.

    A Rust call either returns or panics (failed [assert!], [unwrap]/[expect] on
    [None]/[Err], slice index out of range, arithmetic overflow, division by zero,
    [invert().unwrap()] of zero).  A panic is an explicit value of the model. *)

Set Implicit Arguments.

Inductive outcome (A : Type) : Type :=
| Ret (a : A)
| Panic.
Arguments Ret {A} a.
Arguments Panic {A}.

(** Rust's [Result<A, E>]. *)
Inductive result (A E : Type) : Type :=
| Ok (a : A)
| Err (e : E).
Arguments Ok {A E} a.
Arguments Err {A E} e.

Definition obind (A B : Type) (x : outcome A) (f : A -> outcome B) : outcome B :=
  match x with Ret a => f a | Panic => Panic end.

Definition omap (A B : Type) (f : A -> B) (x : outcome A) : outcome B :=
  match x with Ret a => Ret (f a) | Panic => Panic end.

(** [assert!(b)] followed by the rest of the function. *)
Definition oassert (A : Type) (b : bool) (k : outcome A) : outcome A :=
  if b then k else Panic.

(** [opt.expect(..)] / [opt.unwrap()]. *)
Definition ounwrap (A : Type) (x : option A) : outcome A :=
  match x with Some a => Ret a | None => Panic end.

(** [?] on a [Result] inside a function that can also panic. *)
Definition rbind (A B E : Type) (x : outcome (result A E))
  (f : A -> outcome (result B E)) : outcome (result B E) :=
  match x with
  | Ret (Ok a) => f a
  | Ret (Err e) => Ret (Err e)
  | Panic => Panic
  end.

Definition rmap_err (A E E' : Type) (f : E -> E') (x : result A E) : result A E' :=
  match x with Ok a => Ok a | Err e => Err (f e) end.

Notation "'olet' x := e 'in' k" := (obind e (fun x => k))
  (at level 200, x pattern, e at level 100, k at level 200).
Notation "'rlet' x := e 'in' k" := (rbind e (fun x => k))
  (at level 200, x pattern, e at level 100, k at level 200).

(** Sequential map with panics: the first panic wins. *)
Fixpoint omapM (A B : Type) (f : A -> outcome B) (l : list A) : outcome (list B) :=
  match l with
  | nil => Ret nil
  | cons x xs => olet y := f x in olet ys := omapM f xs in Ret (cons y ys)
  end.

(** Sequential map into [Result]: the first error wins
    ([iter().map(f).collect::<Result<Vec<_>, _>>()]). *)
Fixpoint rmapM (A B E : Type) (f : A -> result B E) (l : list A) : result (list B) E :=
  match l with
  | nil => Ok nil
  | cons x xs =>
      match f x with
      | Err e => Err e
      | Ok y => match rmapM f xs with Err e => Err e | Ok ys => Ok (cons y ys) end
      end
  end.

Definition is_ret (A : Type) (x : outcome A) : bool :=
  match x with Ret _ => true | Panic => false end.
