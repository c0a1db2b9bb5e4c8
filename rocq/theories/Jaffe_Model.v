(** * Pseudo Jaffe lens (model of src/caustics/lenses/func/pseudo_jaffe.py and lenses/pseudo_jaffe.py)

    Divisions by zero (Rc = Rs, the centre itself) give NaN in the code; the theorems exclude them. *)
From Coq Require Import Reals.
From Verif Require Import Const_Model Cosmo_Model Geo_Model.
Local Open Scope R_scope.

(** func/pseudo_jaffe.py:6-47 *)
Definition convergence_0_pseudo_jaffe (mass Rc Rs d_l sigma_cr : R) : R := mass / (2 * PI * sigma_cr * Rc * Rs * (d_l * arcsec_to_rad) ^ 2).
(** func/pseudo_jaffe.py:50-82 *)
Definition mass_enclosed_2d_pseudo_jaffe (radius mass Rc Rs s : R) : R :=
  let theta := radius + s in
  let num := sqrt (Rc ^ 2 + theta ^ 2) - Rc - sqrt (Rs ^ 2 + theta ^ 2) + Rs in
  let denom := Rs - Rc in
  mass * num / denom.
(** func/pseudo_jaffe.py:85-150 *)
Definition reduced_deflection_angle_pseudo_jaffe (x0 y0 mass Rc Rs x y d_l sigma_cr s : R) : R * R :=
  let '(x, y) := translate_rotate x y x0 y0 None in
  let r := sqrt (x ^ 2 + y ^ 2) + s in
  let f := r / Rc / (1 + sqrt (1 + (r / Rc) ^ 2)) - r / (Rs * (1 + sqrt (1 + (r / Rs) ^ 2))) in
  let alpha := 2 * convergence_0_pseudo_jaffe mass Rc Rs d_l sigma_cr * Rc * Rs / (Rs - Rc) * f in
  (alpha * x / r, alpha * y / r).
(** func/pseudo_jaffe.py:153-238 *)
Definition potential_pseudo_jaffe (x0 y0 mass Rc Rs x y d_l d_s d_ls s : R) : R :=
  let '(x, y) := translate_rotate x y x0 y0 None in
  let r_squared := x ^ 2 + y ^ 2 + s in
  let surface_density_0 := convergence_0_pseudo_jaffe mass Rc Rs d_l 1 in
  let coeff := - (8 * PI * G_over_c2 * surface_density_0 * (d_l * d_ls / d_s) * Rc * Rs / (Rs - Rc)) in
  let scale_a := sqrt (Rs ^ 2 + r_squared) in
  let scale_b := sqrt (Rc ^ 2 + r_squared) in
  let scale_c := Rc * ln (Rc + sqrt (Rc ^ 2 + r_squared)) in
  let scale_d := Rs * ln (Rs + sqrt (Rs ^ 2 + r_squared)) in
  coeff * (scale_a - scale_b + scale_c - scale_d).
(** func/pseudo_jaffe.py:241-303 *)
Definition convergence_pseudo_jaffe (x0 y0 mass Rc Rs x y d_l sigma_cr s : R) : R :=
  let '(x, y) := translate_rotate x y x0 y0 None in
  let r_squared := x ^ 2 + y ^ 2 + s in
  let coeff := convergence_0_pseudo_jaffe mass Rc Rs d_l sigma_cr * Rc * Rs / (Rs - Rc) in
  coeff * (1 / sqrt (Rc ^ 2 + r_squared) - 1 / sqrt (Rs ^ 2 + r_squared)).

(** The class; [dc] is the comoving distance of its cosmology. *)
Section Class.
Variable dc : R -> R.
(** lenses/pseudo_jaffe.py:165-176 *)
Definition get_convergence_0 (z_s z_l mass Rc Rs : R) : R :=
  let d_l := angular_diameter_distance dc z_l in
  let sigma_crit := critical_surface_density dc z_l z_s in
  mass / (2 * PI * sigma_crit * Rc * Rs * (d_l * arcsec_to_rad) ^ 2).
(** lenses/pseudo_jaffe.py:178-204: the softening of the instance is not passed on *)
Definition jaffe_mass_enclosed_2d (theta mass Rc Rs : R) : R := mass_enclosed_2d_pseudo_jaffe theta mass Rc Rs 0.
(** lenses/pseudo_jaffe.py:246-288 *)
Definition jaffe_reduced_deflection_angle (z_s z_l x0 y0 mass Rc Rs x y : R) : R * R :=
  let d_l := angular_diameter_distance dc z_l in
  let sigma_cr := critical_surface_density dc z_l z_s in
  reduced_deflection_angle_pseudo_jaffe x0 y0 mass Rc Rs x y d_l sigma_cr 0.
(** lenses/pseudo_jaffe.py:290-331 *)
Definition jaffe_potential (z_s z_l x0 y0 mass Rc Rs x y : R) : R :=
  let d_l := angular_diameter_distance dc z_l in
  let d_s := angular_diameter_distance dc z_s in
  let d_ls := angular_diameter_distance_z1z2 dc z_l z_s in
  potential_pseudo_jaffe x0 y0 mass Rc Rs x y d_l d_s d_ls 0.
(** lenses/pseudo_jaffe.py:333-373 *)
Definition jaffe_convergence (z_s z_l x0 y0 mass Rc Rs x y : R) : R :=
  let d_l := angular_diameter_distance dc z_l in
  let sigma_cr := critical_surface_density dc z_l z_s in
  convergence_pseudo_jaffe x0 y0 mass Rc Rs x y d_l sigma_cr 0.
End Class.
(** lenses/pseudo_jaffe.py:206-244 (static method; radii in Mpc) *)
Definition central_convergence (rho_0 Rc Rs sigma_cr : R) : R := PI * rho_0 * Rc * Rs / ((Rc + Rs) * sigma_cr).
