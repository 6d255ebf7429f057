(** Python outcomes and the few list operations the toolbox needs. *)
From Coq Require Import List Reals.
Import ListNotations.

(** Exceptions the modelled code can raise. *)
Inductive exn : Type :=
| AssertionError | ValueError | KeyError | IndexError | TypeError | AttributeError | OtherException.

(** The outcome of a call: a value or a raised exception. *)
Inductive out (A : Type) : Type :=
| Ok (a : A)
| Err (e : exn).
Arguments Ok {A} a.
Arguments Err {A} e.

Definition bind {A B} (x : out A) (f : A -> out B) : out B :=
  match x with Ok a => f a | Err e => Err e end.
Notation "'let*' x := a 'in' b" := (bind a (fun x => b))
  (at level 200, x binder, right associativity).

(** [assert b] *)
Definition assert_ (b : bool) : out unit := if b then Ok tt else Err AssertionError.

(** A float that is finite, or NaN. *)
Inductive flt (A : Type) : Type :=
| Fin (a : A)
| NaN.
Arguments Fin {A} a.
Arguments NaN {A}.

(** [l[i]] with a non-negative index *)
Definition index {A} (l : list A) (i : nat) : out A :=
  match nth_error l i with Some a => Ok a | None => Err IndexError end.

(** [for x in l: ...] collecting results; the first exception stops the loop. *)
Fixpoint map_out {A B} (f : A -> out B) (l : list A) : out (list B) :=
  match l with
  | [] => Ok []
  | x :: l' => let* y := f x in let* ys := map_out f l' in Ok (y :: ys)
  end.

(** Same loop, each step contributing a list (nested [for] with [append]). *)
Fixpoint flat_map_out {A B} (f : A -> out (list B)) (l : list A) : out (list B) :=
  match l with
  | [] => Ok []
  | x :: l' => let* y := f x in let* ys := flat_map_out f l' in Ok (y ++ ys)
  end.

(** [for x in l: acc = f(acc, x)] *)
Fixpoint fold_out {A S} (f : S -> A -> out S) (l : list A) (s : S) : out S :=
  match l with
  | [] => Ok s
  | x :: l' => let* s' := f s x in fold_out f l' s'
  end.
