(** * Specification for C99: what the shear method reports at a point, and the shear of lenses of a given symmetry *)
From Coq Require Import Reals String.
From Verif Require Import Py LensBase_Model.
Local Open Scope R_scope.

(** shear of the lens with deflection [alpha] on any array of query points, at an entry of the array that is the point (x, y) *)
Definition reports_shear (alpha : R -> R -> R * R) (x y : R) (g : R * R) : Prop :=
  forall shape X Y ps i j, X i j = x -> Y i j = y -> exists S, shear alpha shape X Y "autograd" ps = Ok S /\ S i j = g.
(** the deflection points to or away from (x0, y0) *)
Definition deflects_radially (alpha : R -> R -> R * R) (x0 y0 : R) : Prop :=
  forall u v, fst (alpha u v) * (v - y0) = snd (alpha u v) * (u - x0).
(** the mean convergence inside the circle through (x, y), read off the deflection *)
Definition mean_convergence (alpha : R -> R -> R * R) (x0 y0 x y : R) : R :=
  ((x - x0) * fst (alpha x y) + (y - y0) * snd (alpha x y)) / ((x - x0) ^ 2 + (y - y0) ^ 2).
(** the shear is tangential, of strength mean convergence minus convergence [k] *)
Definition tangential_shear (alpha : R -> R -> R * R) (k x0 y0 x y : R) : Prop :=
  let g := mean_convergence alpha x0 y0 x y - k in
  reports_shear alpha x y
    (- g * (((x - x0) ^ 2 - (y - y0) ^ 2) / ((x - x0) ^ 2 + (y - y0) ^ 2)), - g * (2 * (x - x0) * (y - y0) / ((x - x0) ^ 2 + (y - y0) ^ 2))).
