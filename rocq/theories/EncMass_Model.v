(** * Lens given by its enclosed mass (model of src/caustics/lenses/func/enclosed_mass.py and lenses/enclosed_mass.py)

    The user's function and its parameters p are one function [enclosed_mass]; [backend.grad] is the mathematical derivative,
    so the function has to be differentiable where the convergence is read. r = 0 is excluded by the theorems. *)
From Coq Require Import Reals.
From Coquelicot Require Import Derive.
From Verif Require Import Py Const_Model Cosmo_Model Geo_Model LensBase_Model.
Local Open Scope R_scope.

(** func/enclosed_mass.py:7-58 *)
Definition physical_deflection_angle_enclosed_mass (x0 y0 q phi : R) (enclosed_mass : R -> R) (x y s : R) : R * R :=
  let '(x, y) := translate_rotate x y x0 y0 (Some phi) in
  let r := sqrt (x ^ 2 / q + q * y ^ 2) + s in
  let alpha := 4 * G_over_c2 * enclosed_mass r / r ^ 2 in
  let ax := alpha * x / (q * r) in
  let ay := alpha * y * q / r in
  derotate ax ay (Some phi).
(** func/enclosed_mass.py:61-115 *)
Definition convergence_enclosed_mass (x0 y0 q phi : R) (enclosed_mass : R -> R) (x y critical_surface_density s : R) : R :=
  let '(x, y) := translate_rotate x y x0 y0 (Some phi) in
  let r := sqrt (x ^ 2 / q + q * y ^ 2) + s in
  (1 / 2) * Derive enclosed_mass r / (r * PI * critical_surface_density).

Section Class.
Variable dc : R -> R.
(** lenses/enclosed_mass.py:171-178 *)
Definition enclosed_mass_reduced_deflection_angle (z_s z_l x0 y0 q phi : R) (enclosed_mass : R -> R) (s x y : R) : R * R :=
  let d_s := angular_diameter_distance dc z_s in
  let d_ls := angular_diameter_distance_z1z2 dc z_l z_s in
  let '(ax, ay) := physical_deflection_angle_enclosed_mass x0 y0 q phi enclosed_mass x y s in
  reduced_from_physical_deflection_angle ax ay d_s d_ls.
(** lenses/enclosed_mass.py:180-190 *)
Definition enclosed_mass_potential (x y : R) : result R := Raise NotImplementedError.
(** lenses/enclosed_mass.py:192-238 *)
Definition enclosed_mass_convergence (z_s z_l x0 y0 q phi : R) (enclosed_mass : R -> R) (s x y : R) : R :=
  let csd := critical_surface_density dc z_l z_s in
  convergence_enclosed_mass x0 y0 q phi enclosed_mass x y csd s.
End Class.
