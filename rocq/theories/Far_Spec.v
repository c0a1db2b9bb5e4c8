(** * Specification for C102: lenses seen from outside *)
From Coq Require Import Reals.
From Verif Require Import Cosmo_Model LensBasic_Model.
Local Open Scope R_scope.

Definition dist_to (x0 y0 x y : R) : R := sqrt ((x - x0) ^ 2 + (y - y0) ^ 2).
(** the Einstein radius the Point lens computes for a mass in this cosmology, and its deflection *)
Definition point_of_mass (dc : R -> R) (z_s z_l x0 y0 mass x y : R) : R * R :=
  reduced_deflection_angle_point x0 y0
    (mass_to_rein_point mass (angular_diameter_distance_z1z2 dc z_l z_s) (angular_diameter_distance dc z_l) (angular_diameter_distance dc z_s)) 0 x y.
Definition point_potential_of_mass (dc : R -> R) (z_s z_l x0 y0 mass x y : R) : R :=
  potential_point x0 y0
    (mass_to_rein_point mass (angular_diameter_distance_z1z2 dc z_l z_s) (angular_diameter_distance dc z_l) (angular_diameter_distance dc z_s)) 0 x y.
(** the difference between the deflections falls off faster than the deflections *)
Definition same_far_deflection (x0 y0 : R) (alpha beta : R -> R -> R * R) : Prop :=
  forall eps, 0 < eps -> exists r1, 0 < r1 /\ forall x y, r1 < dist_to x0 y0 x y ->
    let a := alpha x y in let b := beta x y in (fst a - fst b) ^ 2 + (snd a - snd b) ^ 2 <= (eps / dist_to x0 y0 x y) ^ 2.
(** the potentials differ by a constant in the limit of large distances *)
Definition far_potential_offset (x0 y0 : R) (psi chi : R -> R -> R) (c : R) : Prop :=
  forall eps, 0 < eps -> exists r1, 0 < r1 /\ forall x y, r1 < dist_to x0 y0 x y -> Rabs (psi x y - chi x y - c) < eps.
