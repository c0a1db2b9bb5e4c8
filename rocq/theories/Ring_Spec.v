(** * The images a round lens makes *)
From Coq Require Import Reals.
From Verif Require Import LensBase_Model First_Spec.
Local Open Scope R_scope.

Definition radius (x0 y0 : R) (p : R * R) : R := sqrt ((fst p - x0) ^ 2 + (snd p - y0) ^ 2).
Definition off (x0 y0 : R) (p : R * R) : Prop := fst p <> x0 \/ snd p <> y0.
(** the ray through p comes from b *)
Definition comes_from (alpha : R -> R -> R * R) (p b : R * R) : Prop := raytrace alpha (fst p) (snd p) = b.
(** the source behind the centre is seen on a circle of radius E, and nowhere else but at the centre *)
Definition einstein_ring (alpha : R -> R -> R * R) (x0 y0 E : R) : Prop :=
  0 < E /\ forall p, off x0 y0 p -> (comes_from alpha p (x0, y0) <-> radius x0 y0 p = E).
(** the point at k times the place of b as seen from the centre *)
Definition out (x0 y0 k : R) (b : R * R) : R * R := (x0 + k * (fst b - x0), y0 + k * (snd b - y0)).
(** magnified and not mirrored *)
Definition brighter (alpha : R -> R -> R * R) (p : R * R) : Prop :=
  (exists mu, pixel_magnification (raytrace alpha) (fst p) (snd p) = Some mu /\ 1 < mu) /\ not_mirrored (jacfwd (raytrace alpha) (fst p) (snd p)).
(** Every other source has exactly one image farther out than E; it is beyond the source, on the same side, and brighter than the source.  All its other images (the
    centre itself aside) lie nearer than E and on the opposite side. *)
Definition one_outside (alpha : R -> R -> R * R) (x0 y0 E : R) : Prop :=
  forall b, off x0 y0 b -> exists k, 1 < k /\ E < radius x0 y0 (out x0 y0 k b) /\ comes_from alpha (out x0 y0 k b) b /\ brighter alpha (out x0 y0 k b) /\
  forall p, off x0 y0 p -> comes_from alpha p b -> p = out x0 y0 k b \/ (radius x0 y0 p < E /\ exists j, 0 < j /\ p = out x0 y0 (- j) b).
