(** * What C09 and C10 talk about *)
From Coq Require Import Reals String.
Open Scope R_scope.

(** centre of pixel i on an axis of n equal pixels covering [-1,1] *)
Definition centre (n i : nat) : R := (2 * INR i + 1) / INR n - 1.
(** x is between the centres of the first and the last pixel *)
Definition in_hull (n : nat) (x : R) : Prop := centre n 0 <= x <= centre n (n - 1).
(** pixel i is one of those surrounding x: closer than the pixel spacing *)
Definition surrounds (n : nat) (x : R) (i : nat) : Prop := (i < n)%nat /\ Rabs (centre n i - x) < 2 / INR n.
(** pixel i is as close to x as any other *)
Definition closest (n : nat) (x : R) (i : nat) : Prop :=
  (i < n)%nat /\ forall i', (i' < n)%nat -> Rabs (centre n i - x) <= Rabs (centre n i' - x).

Definition is_method (m : string) : Prop := m = "linear"%string \/ m = "nearest"%string.
Definition is_padding2 (p : string) : Prop := p = "extrapolate"%string \/ p = "clamp"%string \/ p = "zeros"%string.
Definition is_padding3 (p : string) : Prop := p = "extrapolate"%string \/ p = "zeros"%string.
