(** * NFW lens (model of src/caustics/lenses/func/nfw.py and lenses/nfw.py)

    A division by zero gives NaN or an infinity: [fin_div] is None then.  Elsewhere (scale radius 0, the centre of the lens) the
    theorems exclude it. *)
From Coq Require Import Reals.
From Verif Require Import Const_Model RealFun Cosmo_Model Geo_Model LensBase_Model.
Local Open Scope R_scope.

Definition fin_div (a b : R) : option R := if Req_EM_T b 0 then None else Some (a / b).
(** func/nfw.py:6-41; the base of the power is positive *)
Definition scale_radius_nfw (critical_density mass c DELTA : R) : R :=
  let r_delta := Rpower (3 * mass / (4 * PI * DELTA * critical_density)) (1 / 3) in r_delta / c.
(** func/nfw.py:44-74 *)
Definition scale_density_nfw (critical_density c DELTA : R) : R :=
  let c_ := 1 + c in DELTA / 3 * critical_density * c ^ 3 / (ln c_ - c / c_).
(** func/nfw.py:77-115 *)
Definition convergence_s_nfw (sigma_cr critical_density mass c DELTA : R) : R :=
  let Rs := scale_radius_nfw critical_density mass c DELTA in
  let Ds := scale_density_nfw critical_density c DELTA in
  Rs * Ds / sigma_cr.
(** the 1e-6 of the clamps *)
Definition eps_nfw : R := 1 / 1000000.
(** func/nfw.py:118-140 *)
Definition f_nfw (x : R) : R :=
  let x_gt1 := Rmax x (1 + eps_nfw) in
  let x_lt1 := Rmin x (1 - eps_nfw) in
  let f_pos := 1 - 2 * atan (sqrt ((x_gt1 - 1) / (x_gt1 + 1))) / sqrt (x_gt1 ^ 2 - 1) in
  let f_neg := 1 - 2 * atanh (sqrt ((1 - x_lt1) / (1 + x_lt1))) / sqrt (1 - x_lt1 ^ 2) in
  if Rlt_dec 1 x then f_pos else if Rlt_dec x 1 then f_neg else 0.
(** func/nfw.py:144-169 *)
Definition g_nfw (x : R) : R :=
  let term_1 := ln (x / 2) ^ 2 in
  let x_gt1 := Rmax x (1 + eps_nfw) in
  let x_lt1 := Rmin x (1 - eps_nfw) in
  let g_pos := acos (1 / x_gt1) ^ 2 in
  let g_neg := - acosh (1 / x_lt1) ^ 2 in
  let term_2 := if Rlt_dec 1 x then g_pos else if Rlt_dec x 1 then g_neg else 0 in
  term_1 + term_2.
(** func/nfw.py:172-197 *)
Definition h_nfw (x : R) : R :=
  let term_1 := ln (x / 2) in
  let x_gt1 := Rmax x (1 + eps_nfw) in
  let x_lt1 := Rmin x (1 - eps_nfw) in
  let h_pos := acos (1 / x_gt1) / sqrt (x_gt1 ^ 2 - 1) in
  let h_neg := acosh (1 / x_lt1) / sqrt (1 - x_lt1 ^ 2) in
  let term_2 := if Rlt_dec 1 x then h_pos else if Rlt_dec x 1 then h_neg else 1 in
  term_1 + term_2.
(** func/nfw.py:200-264 *)
Definition physical_deflection_angle_nfw (x0 y0 mass c critical_density d_l x y DELTA s : R) : R * R :=
  let '(x, y) := translate_rotate x y x0 y0 None in
  let th := sqrt (x ^ 2 + y ^ 2) + s in
  let scale_radius := scale_radius_nfw critical_density mass c DELTA in
  let xi := d_l * th * arcsec_to_rad in
  let r := xi / scale_radius in
  let deflection_angle := 16 * PI * G_over_c2 * scale_density_nfw critical_density c DELTA * scale_radius ^ 3 * h_nfw r * rad_to_arcsec / xi in
  (deflection_angle * x / th, deflection_angle * y / th).
(** func/nfw.py:267-327 *)
Definition convergence_nfw (sigma_cr critical_density x0 y0 mass c x y d_l DELTA s : R) : option R :=
  let '(x, y) := translate_rotate x y x0 y0 None in
  let th := sqrt (x ^ 2 + y ^ 2) + s in
  let scale_radius := scale_radius_nfw critical_density mass c DELTA in
  let xi := d_l * th * arcsec_to_rad in
  let r := xi / scale_radius in
  let convergence_s := convergence_s_nfw sigma_cr critical_density mass c DELTA in
  fin_div (2 * convergence_s * f_nfw r) (r ^ 2 - 1).
(** func/nfw.py:330-390 *)
Definition potential_nfw (sigma_cr critical_density x0 y0 mass c d_l x y DELTA s : R) : R :=
  let '(x, y) := translate_rotate x y x0 y0 None in
  let th := sqrt (x ^ 2 + y ^ 2) + s in
  let scale_radius := scale_radius_nfw critical_density mass c DELTA in
  let xi := d_l * th * arcsec_to_rad in
  let r := xi / scale_radius in
  let convergence_s := convergence_s_nfw sigma_cr critical_density mass c DELTA in
  2 * convergence_s * g_nfw r * scale_radius ^ 2 / (d_l ^ 2 * arcsec_to_rad ^ 2).

(** lenses/nfw.py:10 *)
Definition DELTA : R := 200.
(** The class; [dc] and [critical_density] are the comoving distance and the critical density of its cosmology. *)
Section Class.
Variable dc : R -> R.
Variable critical_density : R -> R.
(** lenses/nfw.py:166-234 *)
Definition nfw_get_scale_radius (z_l mass c : R) : R := scale_radius_nfw (critical_density z_l) mass c DELTA.
Definition nfw_get_scale_density (z_l c : R) : R := scale_density_nfw (critical_density z_l) c DELTA.
(** lenses/nfw.py:236-279 *)
Definition nfw_physical_deflection_angle (z_l x0 y0 mass c s x y : R) : R * R :=
  let d_l := angular_diameter_distance dc z_l in
  physical_deflection_angle_nfw x0 y0 mass c (critical_density z_l) d_l x y DELTA s.
(** lenses/nfw.py:281-288 *)
Definition nfw_reduced_deflection_angle (z_s z_l x0 y0 mass c s x y : R) : R * R :=
  let d_s := angular_diameter_distance dc z_s in
  let d_ls := angular_diameter_distance_z1z2 dc z_l z_s in
  let '(ax, ay) := nfw_physical_deflection_angle z_l x0 y0 mass c s x y in
  reduced_from_physical_deflection_angle ax ay d_s d_ls.
(** lenses/nfw.py:290-340 *)
Definition nfw_convergence (z_s z_l x0 y0 mass c s x y : R) : option R :=
  let d_l := angular_diameter_distance dc z_l in
  convergence_nfw (critical_surface_density dc z_l z_s) (critical_density z_l) x0 y0 mass c x y d_l DELTA s.
(** lenses/nfw.py:342-392 *)
Definition nfw_potential (z_s z_l x0 y0 mass c s x y : R) : R :=
  let d_l := angular_diameter_distance dc z_l in
  potential_nfw (critical_surface_density dc z_l z_s) (critical_density z_l) x0 y0 mass c d_l x y DELTA s.
End Class.
