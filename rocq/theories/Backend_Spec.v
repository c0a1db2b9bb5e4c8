(** * Specification for C87: positions in nested batches *)
From Coq Require Import List.
From Verif Require Import Backend_Model.
Import ListNotations.

(** ** vmap_n *)
Fixpoint at_path {A} (x : nest A) (p : list nat) : option (nest A) :=
  match p with [] => Some x | i :: t => match x with Leaf _ => None | Node l => match nth_error l i with Some y => at_path y t | None => None end end end.
(** an array has at least d batch dimensions *)
Fixpoint deep {A} (d : nat) (x : nest A) : Prop :=
  match d with O => True | S d' => match x with Leaf _ => False | Node l => forall y, In y l -> deep d' y end end.
