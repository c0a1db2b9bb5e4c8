(** * Derivatives of functions that may raise *)
From Coq Require Import Reals.
From Coquelicot Require Import Coquelicot.
From Verif Require Import Py Ad_Model Ad_Spec Rev_Model Rev_Spec.
Local Open Scope R_scope.

(** the value returned; the default is used where the function raises *)
Definition returned {A} (d : A) (r : result A) : A := match r with Ok v => v | Raise _ => d end.
(** The function returns at the arguments [a], the program that is differentiated does too, and value and tangent are those of the function. *)
Definition ad_exact_ret (F : (nat -> R) -> result R) (t : result expr) (a : nat -> R) (seed : nat -> option R) : Prop :=
  exists e v, t = Ok e /\ F a = Ok v /\ ad_exact (fun a => returned 0 (F a)) e a seed.
Definition ad_exact2_ret (F : (nat -> R) -> result (R * R)) (t : result (expr * expr)) (a : nat -> R) (seed : nat -> option R) : Prop :=
  exists e v, t = Ok e /\ F a = Ok v /\ ad_exact2 (fun a => returned (0, 0) (F a)) e a seed.
(** likewise for backpropagation *)
Definition grad_exact_ret (F : (nat -> R) -> result R) (t : result expr) (a : nat -> R) (req : nat -> bool) : Prop :=
  exists e v, t = Ok e /\ F a = Ok v /\ grad_exact (fun a => returned 0 (F a)) e a req.
Definition grad_exact2_ret (F : (nat -> R) -> result (R * R)) (t : result (expr * expr)) (a : nat -> R) (req : nat -> bool) : Prop :=
  exists e v, t = Ok e /\ F a = Ok v /\ grad_exact2 (fun a => returned (0, 0) (F a)) e a req.
