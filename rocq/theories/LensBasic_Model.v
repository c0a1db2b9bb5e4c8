(** * Basic lens profiles: MassSheet, ExternalShear, SIS, Point, SIE.
    Models of src/caustics/lenses/func/{mass_sheet,external_shear,sis,point,sie}.py.
    Arguments: parameters first, then the query position.  The softening [s], an
    optional last argument in Python, is placed before the position. Values are those of
    the Python formula wherever its divisions, roots and logarithms are defined. *)
From Coq Require Import Reals.
From Verif Require Import RealFun Geo_Model Const_Model.
Open Scope R_scope.

(** mass_sheet.py:5-52 *)
Definition reduced_deflection_angle_mass_sheet (x0 y0 kappa x y : R) : R * R :=
  let '(x, y) := translate_rotate x y x0 y0 None in (x * kappa, y * kappa).
(** mass_sheet.py:55-97 *)
Definition potential_mass_sheet (x0 y0 kappa x y : R) : R :=
  let '(x, y) := translate_rotate x y x0 y0 None in kappa / 2 * (x ^ 2 + y ^ 2).
(** mass_sheet.py:100-126 (kappa * ones_like(x)) *)
Definition convergence_mass_sheet (kappa x : R) : R := kappa * 1.

(** external_shear.py:5-59 *)
Definition reduced_deflection_angle_external_shear (x0 y0 gamma_1 gamma_2 x y : R) : R * R :=
  let '(x, y) := translate_rotate x y x0 y0 None in
  let ax := gamma_1 * x + gamma_2 * y in
  let ay := gamma_2 * x - gamma_1 * y in
  (ax, ay).
(** external_shear.py:62-108 *)
Definition potential_external_shear (x0 y0 gamma_1 gamma_2 x y : R) : R :=
  let '(x, y) := translate_rotate x y x0 y0 None in
  / 2 * gamma_1 * (x ^ 2 - y ^ 2) + gamma_2 * x * y.
(** lenses/external_shear.py, ExternalShear.convergence: zeros_like(x) *)
Definition convergence_external_shear (x y : R) : R := 0.
(** external_shear.py:111-135, 138-162 *)
Definition gamma_phi_to_gamma1 (gamma phi : R) : R := gamma * cos (2 * phi).
Definition gamma_phi_to_gamma2 (gamma phi : R) : R := gamma * sin (2 * phi).

(** sis.py:5-58 *)
Definition reduced_deflection_angle_sis (x0 y0 Rein s x y : R) : R * R :=
  let '(x, y) := translate_rotate x y x0 y0 None in
  let r := sqrt (x ^ 2 + y ^ 2) + s in
  (Rein * x / r, Rein * y / r).
(** sis.py:61-107 *)
Definition potential_sis (x0 y0 Rein s x y : R) : R :=
  let '(x, y) := translate_rotate x y x0 y0 None in
  let r := sqrt (x ^ 2 + y ^ 2) + s in Rein * r.
(** sis.py:110-156 *)
Definition convergence_sis (x0 y0 Rein s x y : R) : R :=
  let '(x, y) := translate_rotate x y x0 y0 None in
  let r := sqrt (x ^ 2 + y ^ 2) + s in / 2 * Rein / r.

(** point.py:6-60 *)
Definition reduced_deflection_angle_point (x0 y0 Rein s x y : R) : R * R :=
  let '(x, y) := translate_rotate x y x0 y0 None in
  let th := sqrt (x ^ 2 + y ^ 2) + s in
  (x * Rein ^ 2 / th ^ 2, y * Rein ^ 2 / th ^ 2).
(** point.py:63-110 *)
Definition potential_point (x0 y0 Rein s x y : R) : R :=
  let '(x, y) := translate_rotate x y x0 y0 None in
  let th := sqrt (x ^ 2 + y ^ 2) + s in Rein ^ 2 * ln th.
(** point.py:113-149; None = infinity *)
Definition convergence_point (x0 y0 x y : R) : option R :=
  let '(x, y) := translate_rotate x y x0 y0 None in
  if Req_EM_T x 0 then (if Req_EM_T y 0 then None else Some 0) else Some 0.
(** point.py:152-186 *)
Definition mass_to_rein_point (M d_ls d_l d_s : R) : R :=
  rad_to_arcsec * sqrt (4 * G_over_c2 * M * d_ls / (d_l * d_s)).
(** point.py:189-223 *)
Definition rein_to_mass_point (r d_ls d_l d_s : R) : R :=
  (r / rad_to_arcsec) ^ 2 * d_l * d_s / (4 * G_over_c2 * d_ls).

(** sie.py:6-81; the shift of q = 1 by 1e-6 is in the code *)
Definition reduced_deflection_angle_sie (x0 y0 q phi Rein s x y : R) : R * R :=
  let q := if Req_EM_T q 1 then q - 1 / 10 ^ 6 else q in
  let '(x, y) := translate_rotate x y x0 y0 (Some phi) in
  let q2_ := q ^ 2 in
  let f := sqrt (1 - q2_) in
  let rein_q_sqrt_f_ := Rein * sqrt q / f in
  let psi := sqrt (q2_ * (x ^ 2 + s ^ 2) + y ^ 2) in
  let ax := rein_q_sqrt_f_ * atan (f * x / (psi + s)) in
  let ay := rein_q_sqrt_f_ * atanh (f * y / (psi + q2_ * s)) in
  derotate ax ay (Some phi).
(** sie.py:84-157 *)
Definition potential_sie (x0 y0 q phi Rein s x y : R) : R :=
  let '(ax, ay) := reduced_deflection_angle_sie x0 y0 q phi Rein s x y in
  let '(ax, ay) := derotate ax ay (Some (- phi)) in
  let '(x, y) := translate_rotate x y x0 y0 (Some phi) in
  let q2_ := q ^ 2 in
  let x2_ := x ^ 2 in
  let max_s_ := Rmax s (1 / 10 ^ 6) in
  let rein_q_sqrt_s_ := Rein * sqrt q * s in
  let psi := sqrt (q2_ * (x2_ + s ^ 2) + y ^ 2) in
  x * ax + y * ay
  - rein_q_sqrt_s_ * ln (sqrt ((psi + max_s_) ^ 2 + (1 - q2_) * x2_))
  + rein_q_sqrt_s_ * ln ((1 + q) * max_s_).
(** sie.py:160-217 *)
Definition convergence_sie (x0 y0 q phi Rein s x y : R) : R :=
  let '(x, y) := translate_rotate x y x0 y0 (Some phi) in
  let psi := sqrt (q ^ 2 * (x ^ 2 + s ^ 2) + y ^ 2) in
  / 2 * sqrt q * Rein / psi.
(** sie.py:220-250 *)
Definition sigma_v_to_rein_sie (sigma_v dls ds : R) : R :=
  rad_to_arcsec * 4 * PI * (sigma_v / c_km_s) ^ 2 * dls / ds.
