(** * Specification for C98: mass of a convergence map inside a region around the centre of a lens *)
From Coq Require Import Reals.
From Coquelicot Require Import Coquelicot.
Local Open Scope R_scope.

(** Polar coordinates about (x0, y0).  [m] is the mass, in units of the critical surface density times arcsec^2, per unit of angle
    between the centre and the distance [rho] in the direction [th]; the integral is improper at the centre. *)
Definition ray_mass (kappa : R -> R -> R) (x0 y0 th rho m : R) : Prop :=
  exists F : R -> R,
    (forall eps, 0 < eps <= rho -> is_RInt (V := R_NormedModule) (fun r => kappa (x0 + r * cos th) (y0 + r * sin th) * r) eps rho (F eps)) /\
    filterlim F (at_right 0) (locally m).
(** the mass and the area inside the closed curve at distance [rho th] in the direction [th] *)
Definition mass_inside (kappa : R -> R -> R) (x0 y0 : R) (rho : R -> R) (M : R) : Prop :=
  exists m, (forall th, ray_mass kappa x0 y0 th (rho th) (m th)) /\ is_RInt (V := R_NormedModule) m 0 (2 * PI) M.
Definition area_inside (rho : R -> R) (A : R) : Prop := is_RInt (V := R_NormedModule) (fun th => rho th ^ 2 / 2) 0 (2 * PI) A.
(** the ellipse with semi-axes [a] in the direction [phi] and [b] across *)
Definition on_ellipse (a b phi u v : R) : Prop :=
  ((u * cos phi + v * sin phi) / a) ^ 2 + ((v * cos phi - u * sin phi) / b) ^ 2 = 1.
