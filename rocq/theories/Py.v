(** * Python control flow: a call returns a value or raises. *)
From Coq Require Import List Reals.
Import ListNotations.

(** the exception classes raised by the modelled code *)
Inductive exn : Set :=
| ValueError | IndexError | KeyError | TypeError | NotImplementedError | RuntimeError | ZeroDivisionError
| AttributeError | NameError | AssertionError.

Inductive result (A : Type) : Type :=
| Ok : A -> result A
| Raise : exn -> result A.
Arguments Ok {A} _.
Arguments Raise {A} _.

Definition bind {A B} (r : result A) (f : A -> result B) : result B :=
  match r with Ok a => f a | Raise e => Raise e end.

(** [l[i]] with a non-negative index *)
Definition py_get {A} (l : list A) (i : nat) : result A :=
  match nth_error l i with Some a => Ok a | None => Raise IndexError end.

(** [for a in l: st = body(a, st)] where the body may raise *)
Fixpoint for_loop {A S} (body : A -> S -> result S) (l : list A) (st : S) : result S :=
  match l with
  | [] => Ok st
  | a :: t => bind (body a st) (for_loop body t)
  end.

(** [sorted(l, key=key)]: Python's sort is stable, so equal keys keep their order *)
Section Sorted.
Context {A : Type} (key : A -> R).
Fixpoint sort_insert (a : A) (l : list A) : list A :=
  match l with
  | [] => [a]
  | b :: t => if Rle_dec (key a) (key b) then a :: b :: t else b :: sort_insert a t
  end.
Fixpoint py_sorted (l : list A) : list A :=
  match l with
  | [] => []
  | a :: t => sort_insert a (py_sorted t)
  end.
End Sorted.

(** [list(enumerate(l))] *)
Definition enumerate {A} (l : list A) : list (nat * A) := combine (seq 0 (length l)) l.
