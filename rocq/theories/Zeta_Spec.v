(** * What the tangential shear between two circles tells about the mass *)
From Coq Require Import Reals.
From Coquelicot Require Import Coquelicot.
From Verif Require Import Shear_Spec.
Local Open Scope R_scope.

(** the point at distance r from (x0, y0) in direction t *)
Definition px (x0 t r : R) : R := x0 + r * cos t.
Definition py (y0 t r : R) : R := y0 + r * sin t.
(** In every direction t the lens reports a shear that is tangential at distances r1 to r2, and twice its strength, integrated over ln r, is the mean convergence inside r1 less that inside r2. *)
Definition shear_weighs (alpha : R -> R -> R * R) (x0 y0 : R) : Prop :=
  forall t r1 r2, 0 < r1 <= r2 -> exists gt : R -> R,
    (forall r, r1 <= r <= r2 -> reports_shear alpha (px x0 t r) (py y0 t r) (- gt r * cos (2 * t), - gt r * sin (2 * t))) /\
    is_RInt (fun r => 2 * gt r / r) r1 r2 (mean_convergence alpha x0 y0 (px x0 t r1) (py y0 t r1) - mean_convergence alpha x0 y0 (px x0 t r2) (py y0 t r2)).
(** The disc inside r2 holds the disc inside r1 and the ring between them: r^2 times the mean convergence grows by twice the integral of r kappa. *)
Definition mean_is_mean (alpha : R -> R -> R * R) (kappa : R -> R -> R) (x0 y0 : R) : Prop :=
  forall t r1 r2, 0 < r1 <= r2 ->
    is_RInt (fun r => 2 * r * kappa (px x0 t r) (py y0 t r)) r1 r2 (r2 ^ 2 * mean_convergence alpha x0 y0 (px x0 t r2) (py y0 t r2) - r1 ^ 2 * mean_convergence alpha x0 y0 (px x0 t r1) (py y0 t r1)).
