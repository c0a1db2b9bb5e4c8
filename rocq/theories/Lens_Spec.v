(** * What it means for the methods of a lens to be consistent with each other. *)
From Coq Require Import Reals.
From Verif Require Import Calc2.
Open Scope R_scope.

(** The deflection is the gradient of the potential. *)
Definition deflection_is_gradient (psi : R -> R -> R) (alpha : R -> R -> R * R) (x y : R) : Prop :=
  D2 psi x y (fst (alpha x y)) (snd (alpha x y)).

(** The deflection is differentiable, curl free, and half its divergence is the convergence. *)
Definition convergence_is_half_divergence (alpha : R -> R -> R * R) (kappa : R -> R -> R) (x y : R) : Prop :=
  exists axx axy ayx ayy : R,
    D2 (fun u v => fst (alpha u v)) x y axx axy /\
    D2 (fun u v => snd (alpha u v)) x y ayx ayy /\
    axy = ayx /\
    kappa x y = (axx + ayy) / 2.

Definition lens_consistent (psi : R -> R -> R) (alpha : R -> R -> R * R) (kappa : R -> R -> R) (x y : R) : Prop :=
  deflection_is_gradient psi alpha x y /\ convergence_is_half_divergence alpha kappa x y.
