(** * The answers of a lens do not depend on the unit in which angles are measured

    In a unit that is [l] times smaller every position, centre, radius and softening is [l] times larger.  The same lens then deflects by [l] times the number, its
    convergence is unchanged, and its potential, a square of an angle, is [l ^ 2] times larger.  The primed functions are the lens in the new unit. *)
From Coq Require Import Reals.
Local Open Scope R_scope.

Definition deflection_scales (l : R) (alpha alpha' : R -> R -> R * R) (x y : R) : Prop :=
  fst (alpha' (l * x) (l * y)) = l * fst (alpha x y) /\ snd (alpha' (l * x) (l * y)) = l * snd (alpha x y).
Definition convergence_scales (l : R) (kappa kappa' : R -> R -> R) (x y : R) : Prop := kappa' (l * x) (l * y) = kappa x y.
Definition potential_scales (l : R) (psi psi' : R -> R -> R) (x y : R) : Prop := psi' (l * x) (l * y) = l ^ 2 * psi x y.
(** up to a constant [c], which no observable quantity depends on *)
Definition potential_scales_up_to (c l : R) (psi psi' : R -> R -> R) (x y : R) : Prop := psi' (l * x) (l * y) = l ^ 2 * psi x y + c.
Definition lens_scales (l : R) (psi psi' : R -> R -> R) (alpha alpha' : R -> R -> R * R) (kappa kappa' : R -> R -> R) (x y : R) : Prop :=
  potential_scales l psi psi' x y /\ deflection_scales l alpha alpha' x y /\ convergence_scales l kappa kappa' x y.
