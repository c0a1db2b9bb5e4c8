(** * Truncated NFW lens (model of src/caustics/lenses/func/tnfw.py and lenses/tnfw.py)

    The position of the centre (g = 0), Rs = 0 and tau <= 0 give NaN or infinities in the code; the theorems exclude them. *)
From Coq Require Import Reals.
From Verif Require Import Const_Model RealFun Cosmo_Model Geo_Model LensBase_Model Nfw_Model.
Local Open Scope R_scope.

(** func/tnfw.py:6-46; the base of the power is positive *)
Definition concentration_tnfw (mass Rs critical_density d_l DELTA : R) : R :=
  let r_delta := Rpower (3 * mass / (4 * PI * DELTA * critical_density)) (1 / 3) in
  r_delta / (Rs * d_l * arcsec_to_rad).
(** func/tnfw.py:49-65 *)
Definition F_tnfw (x : R) : R :=
  let x_gt1 := Rmax x (1 + 1 / 1000) in
  let x_lt1 := Rmin x (1 - 1 / 1000) in
  if Rlt_dec x (1 - 1 / 100) then acosh (1 / x_lt1) / sqrt (1 - x_lt1 ^ 2)
  else if Rlt_dec (1 + 1 / 100) x then acos (1 / x_gt1) / sqrt (x_gt1 ^ 2 - 1)
  else 1 - 2 * (x - 1) / 3 + 7 * (x - 1) ^ 2 / 15.
(** func/tnfw.py:68-72 *)
Definition L_tnfw (x tau : R) : R := ln (x / (tau + sqrt (tau ^ 2 + x ^ 2))).
(** func/tnfw.py:75-76 *)
Definition scale_density_tnfw (c critical_density DELTA : R) : R :=
  DELTA / 3 * critical_density * c ^ 3 / (ln (1 + c) - c / (1 + c)).
(** func/tnfw.py:79-83 *)
Definition M0_totmass_tnfw (mass tau : R) : R :=
  mass * (tau ^ 2 + 1) ^ 2 / (tau ^ 2 * ((tau ^ 2 - 1) * ln tau + PI * tau - (tau ^ 2 + 1))).
(** func/tnfw.py:86-116 *)
Definition M0_scalemass_tnfw (Rs c critical_density d_l DELTA : R) : R :=
  4 * PI * (Rs * d_l * arcsec_to_rad) ^ 3 * scale_density_tnfw c critical_density DELTA.
(** func/tnfw.py:119-168 *)
Definition mass_enclosed_2d_tnfw (r Rs tau M0 : R) : R :=
  let g := r / Rs in
  let t2 := tau ^ 2 in
  let F := F_tnfw g in
  let L := L_tnfw g tau in
  let a1 := t2 / (t2 + 1) ^ 2 in
  let a2 := (t2 + 1 + 2 * (g ^ 2 - 1)) * F in
  let a3 := tau * PI in
  let a4 := (t2 - 1) * ln tau in
  let a5 := sqrt (t2 + g ^ 2) * (- PI + (t2 - 1) * L / tau) in
  M0 * a1 * (a2 + a3 + a4 + a5).
(** func/tnfw.py:171-244 *)
Definition physical_deflection_angle_tnfw (x0 y0 Rs tau x y M0 d_l s : R) : R * R :=
  let '(x, y) := translate_rotate x y x0 y0 None in
  let r := sqrt (x ^ 2 + y ^ 2) + s in
  let theta := atan2 y x in
  let dr := mass_enclosed_2d_tnfw r Rs tau M0 / (r * d_l * arcsec_to_rad) in
  let S := 4 * G_over_c2 * rad_to_arcsec in
  (S * dr * cos theta, S * dr * sin theta).
(** func/tnfw.py:247-325 *)
Definition convergence_tnfw (x0 y0 Rs tau x y critical_density M0 d_l s : R) : R :=
  let '(x, y) := translate_rotate x y x0 y0 None in
  let r := sqrt (x ^ 2 + y ^ 2) + s in
  let g := r / Rs in
  let F := F_tnfw g in
  let L := L_tnfw g tau in
  let S := M0 / (2 * PI * (Rs * d_l * arcsec_to_rad) ^ 2) in
  let t2 := tau ^ 2 in
  let a1 := t2 / (t2 + 1) ^ 2 in
  let a2 := if Req_EM_T g 1 then (t2 + 1) / 3 else (t2 + 1) * (1 - F) / (g ^ 2 - 1) in
  let a3 := 2 * F in
  let a4 := - PI / sqrt (t2 + g ^ 2) in
  let a5 := (t2 - 1) * L / (tau * sqrt (t2 + g ^ 2)) in
  a1 * (a2 + a3 + a4 + a5) * S / critical_density.
(** func/tnfw.py:328-344 *)
Definition P_tnfw (x : R) : R :=
  let x_gt1 := Rmax x (1 + 1 / 10000) in
  let x_lt1 := Rmin x (1 - 1 / 10000) in
  if Rlt_dec x (1 - 1 / 1000) then - acosh (1 / x_lt1) ^ 2
  else if Rlt_dec (1 + 1 / 1000) x then acos (1 / x_gt1) ^ 2
  else 2 * (x - 1) - 5 * (x - 1) ^ 2 / 3.
(** func/tnfw.py:347-441 *)
Definition potential_tnfw (x0 y0 Rs tau x y M0 d_l d_s d_ls s : R) : R :=
  let '(x, y) := translate_rotate x y x0 y0 None in
  let r := sqrt (x ^ 2 + y ^ 2) + s in
  let g := r / Rs in
  let t2 := tau ^ 2 in
  let u := g ^ 2 in
  let F := F_tnfw g in
  let L := L_tnfw g tau in
  let S := 2 * M0 * G_over_c2 * (d_ls / d_s) / (d_l * arcsec_to_rad ^ 2) in
  let a1 := 1 / (t2 + 1) ^ 2 in
  let a2 := 2 * PI * t2 * (tau - sqrt (t2 + u) + tau * ln (tau + sqrt (t2 + u))) in
  let a3 := 2 * (t2 - 1) * tau * sqrt (t2 + u) * L in
  let a4 := t2 * (t2 - 1) * L ^ 2 in
  let a5 := 4 * t2 * (u - 1) * F in
  let a6 := t2 * (t2 - 1) * P_tnfw g in
  let a7 := t2 * ((t2 - 1) * ln tau - t2 - 1) * ln u in
  let a8 := t2 * ((t2 - 1) * ln tau * ln (4 * tau) + 2 * ln (tau / 2) - 2 * tau * (tau - PI) * ln (2 * tau)) in
  S * a1 * (a2 + a3 + a4 + a5 + a6 + a7 - a8).

(** The class (lenses/tnfw.py); [dc] and [critical_density] are the comoving distance and critical density of its cosmology. *)
Section Class.
Variable dc : R -> R.
Variable critical_density : R -> R.
Variable interpret_m_total_mass : bool.
(** lenses/tnfw.py:161-213 *)
Definition tnfw_get_concentration (z_l mass Rs : R) : R :=
  concentration_tnfw mass Rs (critical_density z_l) (angular_diameter_distance dc z_l) DELTA.
(** lenses/tnfw.py:215-232 *)
Definition tnfw_get_truncation_radius (Rs tau : R) : R := tau * Rs.
(** lenses/tnfw.py:234-262 *)
Definition tnfw_M0 (z_l mass Rs tau : R) : R :=
  if interpret_m_total_mass then M0_totmass_tnfw mass tau
  else
    let d_l := angular_diameter_distance dc z_l in
    let critical_density := critical_density z_l in
    let c := concentration_tnfw mass Rs critical_density d_l DELTA in
    M0_scalemass_tnfw Rs c critical_density d_l DELTA.
(** lenses/tnfw.py:264-285 *)
Definition tnfw_get_scale_density (z_l mass Rs : R) : R :=
  scale_density_tnfw (tnfw_get_concentration z_l mass Rs) (critical_density z_l) DELTA.
(** lenses/tnfw.py:287-339 *)
Definition tnfw_convergence (z_s z_l x0 y0 mass Rs tau s x y : R) : R :=
  convergence_tnfw x0 y0 Rs tau x y (critical_surface_density dc z_l z_s) (tnfw_M0 z_l mass Rs tau) (angular_diameter_distance dc z_l) s.
(** lenses/tnfw.py:341-368 *)
Definition tnfw_mass_enclosed_2d (z_l mass r Rs tau : R) : R := mass_enclosed_2d_tnfw r Rs tau (tnfw_M0 z_l mass Rs tau).
(** lenses/tnfw.py:370-416 *)
Definition tnfw_physical_deflection_angle (z_l x0 y0 mass Rs tau s x y : R) : R * R :=
  physical_deflection_angle_tnfw x0 y0 Rs tau x y (tnfw_M0 z_l mass Rs tau) (angular_diameter_distance dc z_l) s.
(** lenses/tnfw.py:418-425 *)
Definition tnfw_reduced_deflection_angle (z_s z_l x0 y0 mass Rs tau s x y : R) : R * R :=
  let d_s := angular_diameter_distance dc z_s in
  let d_ls := angular_diameter_distance_z1z2 dc z_l z_s in
  let '(ax, ay) := tnfw_physical_deflection_angle z_l x0 y0 mass Rs tau s x y in
  reduced_from_physical_deflection_angle ax ay d_s d_ls.
(** lenses/tnfw.py:427-473 *)
Definition tnfw_potential (z_s z_l x0 y0 mass Rs tau s x y : R) : R :=
  potential_tnfw x0 y0 Rs tau x y (tnfw_M0 z_l mass Rs tau) (angular_diameter_distance dc z_l)
    (angular_diameter_distance dc z_s) (angular_diameter_distance_z1z2 dc z_l z_s) s.
End Class.
