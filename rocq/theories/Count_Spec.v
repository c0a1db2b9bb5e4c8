(** * How many images a lens makes of a source *)
From Coq Require Import Reals List.
From Verif Require Import LensBase_Model Ring_Spec.
Local Open Scope R_scope.

(** exactly n positions off the centre show the source b *)
Definition image_count (alpha : R -> R -> R * R) (x0 y0 : R) (b : R * R) (n : nat) : Prop :=
  exists l, length l = n /\ NoDup l /\ (forall p, In p l -> off x0 y0 p) /\ forall p, off x0 y0 p -> (comes_from alpha p b <-> In p l).
(** three images inside the circle of radius bc, two on it, one outside *)
Definition radial_caustic (alpha : R -> R -> R * R) (x0 y0 bc : R) : Prop :=
  0 < bc /\ forall b, off x0 y0 b -> (radius x0 y0 b < bc -> image_count alpha x0 y0 b 3) /\ (radius x0 y0 b = bc -> image_count alpha x0 y0 b 2) /\ (bc < radius x0 y0 b -> image_count alpha x0 y0 b 1).
