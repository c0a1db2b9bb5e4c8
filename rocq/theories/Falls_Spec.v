(** * A mass distribution falls with the distance from its centre *)
From Coq Require Import Reals.
Local Open Scope R_scope.

Definition distance (x0 y0 x y : R) : R := sqrt ((x - x0) ^ 2 + (y - y0) ^ 2).
(** round: positive, and smaller at a larger distance, for any two positions away from the centre *)
Definition falls_outward (kappa : R -> R -> R) (x0 y0 : R) : Prop :=
  forall x y x' y', 0 < distance x0 y0 x y -> distance x0 y0 x y < distance x0 y0 x' y' -> 0 < kappa x' y' < kappa x y.
(** elliptical: positive, and smaller further out on every ray from the centre *)
Definition falls_along_rays (kappa : R -> R -> R) (x0 y0 : R) : Prop :=
  forall a b k k', (a <> 0 \/ b <> 0) -> 0 < k -> k < k' -> 0 < kappa (x0 + k' * a) (y0 + k' * b) < kappa (x0 + k * a) (y0 + k * b).
