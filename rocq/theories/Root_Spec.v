(** * What C110 talks about: finding images of an affine lens *)
From Coq Require Import Reals.
From Verif Require Import Tri_Model Tri_Spec.
Local Open Scope R_scope.

(** distances are multiplied by at least a and at most b *)
Definition stretches (raytrace : pt -> pt) (a b : R) : Prop :=
  forall p q, a * distance p q <= distance (raytrace p) (raytrace q) <= b * distance p q.
(** how far from the image the root finder may stop, starting at distance r, for a lens that shrinks distances by at most a *)
Definition reach (a r : R) : R := Rmax (sqrt 2 / 10 ^ 4 * (1 + 1 / (11 * a ^ 2))) (r / (1 + 10 ^ 9 * a ^ 2) ^ 41).
