(** * The formulas of lenses/func and light/func as automatic differentiation sees them

    Each definition builds the expression that the Python function evaluates, from the expressions of its arguments; the cited lines are those
    of the models of the same name.  An argument that is a Python float (the softening s, the bounds of clamps) never carries a tangent. *)
From Coq Require Import Reals List.
From Verif Require Import Const_Model Nfw_Model Ad_Model.
Import ListNotations.
Local Open Scope R_scope.

Declare Scope ad_scope.
Delimit Scope ad_scope with ad.
Infix "+" := Add : ad_scope.
Infix "-" := Sub : ad_scope.
Infix "*" := Mul : ad_scope.
Infix "/" := Div : ad_scope.
Infix "^" := Pow : ad_scope.
Notation "- a" := (Neg a) : ad_scope.
Local Open Scope ad_scope.

(** utils.py:85-118 and 121-144 *)
Definition t_translate_rotate (x y x0 y0 : expr) (phi : option expr) : expr * expr :=
  let xt := x - x0 in
  let yt := y - y0 in
  match phi with
  | Some p => let c_phi := Cos p in let s_phi := Sin p in (xt * c_phi + yt * s_phi, yt * c_phi - xt * s_phi)
  | None => (xt, yt)
  end.
Definition t_derotate (vx vy : expr) (phi : option expr) : expr * expr :=
  match phi with
  | None => (vx, vy)
  | Some p => let c_phi := Cos p in let s_phi := Sin p in (vx * c_phi - vy * s_phi, vx * s_phi + vy * c_phi)
  end.
(** func/mass_sheet.py:5-52, func/external_shear.py:5-59 *)
Definition t_deflection_mass_sheet (x0 y0 kappa x y : expr) : expr * expr :=
  let '(x, y) := t_translate_rotate x y x0 y0 None in (x * kappa, y * kappa).
Definition t_deflection_external_shear (x0 y0 gamma_1 gamma_2 x y : expr) : expr * expr :=
  let '(x, y) := t_translate_rotate x y x0 y0 None in
  (gamma_1 * x + gamma_2 * y, gamma_2 * x - gamma_1 * y).
(** func/sis.py:5-58, 61-107, 110-156 *)
Definition t_deflection_sis (x0 y0 Rein s x y : expr) : expr * expr :=
  let '(x, y) := t_translate_rotate x y x0 y0 None in
  let r := Sqrt (x ^ 2 + y ^ 2) + s in
  (Rein * x / r, Rein * y / r).
Definition t_potential_sis (x0 y0 Rein s x y : expr) : expr :=
  let '(x, y) := t_translate_rotate x y x0 y0 None in
  let r := Sqrt (x ^ 2 + y ^ 2) + s in Rein * r.
Definition t_convergence_sis (x0 y0 Rein s x y : expr) : expr :=
  let '(x, y) := t_translate_rotate x y x0 y0 None in
  let r := Sqrt (x ^ 2 + y ^ 2) + s in Cst (/ 2) * Rein / r.
(** func/point.py:6-60, 63-110 *)
Definition t_deflection_point (x0 y0 Rein s x y : expr) : expr * expr :=
  let '(x, y) := t_translate_rotate x y x0 y0 None in
  let th := Sqrt (x ^ 2 + y ^ 2) + s in
  (x * Rein ^ 2 / th ^ 2, y * Rein ^ 2 / th ^ 2).
Definition t_potential_point (x0 y0 Rein s x y : expr) : expr :=
  let '(x, y) := t_translate_rotate x y x0 y0 None in
  let th := Sqrt (x ^ 2 + y ^ 2) + s in Rein ^ 2 * Ln th.
(** func/sie.py:6-81, 160-217 *)
Definition t_deflection_sie (x0 y0 q phi Rein s x y : expr) : expr * expr :=
  let q := Where (Eq q (Cst 1)) (q - Cst (1 / 10 ^ 6)) q in
  let '(x, y) := t_translate_rotate x y x0 y0 (Some phi) in
  let q2_ := q ^ 2 in
  let f := Sqrt (Cst 1 - q2_) in
  let rein_q_sqrt_f_ := Rein * Sqrt q / f in
  let psi := Sqrt (q2_ * (x ^ 2 + s ^ 2) + y ^ 2) in
  let ax := rein_q_sqrt_f_ * Atan (f * x / (psi + s)) in
  let ay := rein_q_sqrt_f_ * Atanh (f * y / (psi + q2_ * s)) in
  t_derotate ax ay (Some phi).
Definition t_convergence_sie (x0 y0 q phi Rein s x y : expr) : expr :=
  let '(x, y) := t_translate_rotate x y x0 y0 (Some phi) in
  let psi := Sqrt (q ^ 2 * (x ^ 2 + s ^ 2) + y ^ 2) in
  Cst (/ 2) * Sqrt q * Rein / psi.
(** func/pseudo_jaffe.py:6-47, 85-150, 241-303 *)
Definition t_convergence_0_pseudo_jaffe (mass Rc Rs d_l sigma_cr : expr) : expr :=
  mass / (Cst (2 * PI) * sigma_cr * Rc * Rs * (d_l * Cst arcsec_to_rad) ^ 2).
Definition t_deflection_pseudo_jaffe (x0 y0 mass Rc Rs x y d_l sigma_cr s : expr) : expr * expr :=
  let '(x, y) := t_translate_rotate x y x0 y0 None in
  let r := Sqrt (x ^ 2 + y ^ 2) + s in
  let f := r / Rc / (Cst 1 + Sqrt (Cst 1 + (r / Rc) ^ 2)) - r / (Rs * (Cst 1 + Sqrt (Cst 1 + (r / Rs) ^ 2))) in
  let alpha := Cst 2 * t_convergence_0_pseudo_jaffe mass Rc Rs d_l sigma_cr * Rc * Rs / (Rs - Rc) * f in
  (alpha * x / r, alpha * y / r).
Definition t_convergence_pseudo_jaffe (x0 y0 mass Rc Rs x y d_l sigma_cr s : expr) : expr :=
  let '(x, y) := t_translate_rotate x y x0 y0 None in
  let r_squared := x ^ 2 + y ^ 2 + s in
  let coeff := t_convergence_0_pseudo_jaffe mass Rc Rs d_l sigma_cr * Rc * Rs / (Rs - Rc) in
  coeff * (Cst 1 / Sqrt (Rc ^ 2 + r_squared) - Cst 1 / Sqrt (Rs ^ 2 + r_squared)).
(** func/nfw.py:6-41, 44-74, 77-115 *)
Definition t_scale_radius_nfw (critical_density mass c DELTA : expr) : expr :=
  let r_delta := RPow (Cst 3 * mass / (Cst 4 * Cst PI * DELTA * critical_density)) (Cst (1 / 3)) in r_delta / c.
Definition t_scale_density_nfw (critical_density c DELTA : expr) : expr :=
  let c_ := Cst 1 + c in DELTA / Cst 3 * critical_density * c ^ 3 / (Ln c_ - c / c_).
Definition t_convergence_s_nfw (sigma_cr critical_density mass c DELTA : expr) : expr :=
  let Rs := t_scale_radius_nfw critical_density mass c DELTA in
  let Ds := t_scale_density_nfw critical_density c DELTA in
  Rs * Ds / sigma_cr.
(** func/nfw.py:118-140, 172-197 *)
Definition t_f_nfw (x : expr) : expr :=
  let x_gt1 := AtLeast (1 + eps_nfw) x in
  let x_lt1 := AtMost (1 - eps_nfw) x in
  let f_pos := Cst 1 - Cst 2 * Atan (Sqrt ((x_gt1 - Cst 1) / (x_gt1 + Cst 1))) / Sqrt (x_gt1 ^ 2 - Cst 1) in
  let f_neg := Cst 1 - Cst 2 * Atanh (Sqrt ((Cst 1 - x_lt1) / (Cst 1 + x_lt1))) / Sqrt (Cst 1 - x_lt1 ^ 2) in
  Where (Lt (Cst 1) x) f_pos (Where (Lt x (Cst 1)) f_neg (Cst 0)).
Definition t_h_nfw (x : expr) : expr :=
  let term_1 := Ln (x / Cst 2) in
  let x_gt1 := AtLeast (1 + eps_nfw) x in
  let x_lt1 := AtMost (1 - eps_nfw) x in
  let h_pos := Acos (Cst 1 / x_gt1) / Sqrt (x_gt1 ^ 2 - Cst 1) in
  let h_neg := Acosh (Cst 1 / x_lt1) / Sqrt (Cst 1 - x_lt1 ^ 2) in
  let term_2 := Where (Lt (Cst 1) x) h_pos (Where (Lt x (Cst 1)) h_neg (Cst 1)) in
  term_1 + term_2.
(** func/nfw.py:200-264, 267-327 *)
Definition t_deflection_nfw (x0 y0 mass c critical_density d_l x y DELTA s : expr) : expr * expr :=
  let '(x, y) := t_translate_rotate x y x0 y0 None in
  let th := Sqrt (x ^ 2 + y ^ 2) + s in
  let scale_radius := t_scale_radius_nfw critical_density mass c DELTA in
  let xi := d_l * th * Cst arcsec_to_rad in
  let r := xi / scale_radius in
  let deflection_angle := Cst (16 * PI * G_over_c2) * t_scale_density_nfw critical_density c DELTA * scale_radius ^ 3 * t_h_nfw r * Cst rad_to_arcsec / xi in
  (deflection_angle * x / th, deflection_angle * y / th).
Definition t_convergence_nfw (sigma_cr critical_density x0 y0 mass c x y d_l DELTA s : expr) : expr :=
  let '(x, y) := t_translate_rotate x y x0 y0 None in
  let th := Sqrt (x ^ 2 + y ^ 2) + s in
  let scale_radius := t_scale_radius_nfw critical_density mass c DELTA in
  let xi := d_l * th * Cst arcsec_to_rad in
  let r := xi / scale_radius in
  let convergence_s := t_convergence_s_nfw sigma_cr critical_density mass c DELTA in
  Cst 2 * convergence_s * t_f_nfw r / (r ^ 2 - Cst 1).
(** func/tnfw.py:49-65, 68-72, 119-168, 171-244 *)
Definition t_F_tnfw (x : expr) : expr :=
  let x_gt1 := AtLeast (1 + 1 / 1000) x in
  let x_lt1 := AtMost (1 - 1 / 1000) x in
  Where (Lt x (Cst (1 - 1 / 100))) (Acosh (Cst 1 / x_lt1) / Sqrt (Cst 1 - x_lt1 ^ 2))
    (Where (Lt (Cst (1 + 1 / 100)) x) (Acos (Cst 1 / x_gt1) / Sqrt (x_gt1 ^ 2 - Cst 1))
       (Cst 1 - Cst 2 * (x - Cst 1) / Cst 3 + Cst 7 * (x - Cst 1) ^ 2 / Cst 15)).
Definition t_L_tnfw (x tau : expr) : expr := Ln (x / (tau + Sqrt (tau ^ 2 + x ^ 2))).
Definition t_mass_enclosed_2d_tnfw (r Rs tau M0 : expr) : expr :=
  let g := r / Rs in
  let t2 := tau ^ 2 in
  let F := t_F_tnfw g in
  let L := t_L_tnfw g tau in
  let a1 := t2 / (t2 + Cst 1) ^ 2 in
  let a2 := (t2 + Cst 1 + Cst 2 * (g ^ 2 - Cst 1)) * F in
  let a3 := tau * Cst PI in
  let a4 := (t2 - Cst 1) * Ln tau in
  let a5 := Sqrt (t2 + g ^ 2) * (Cst (- PI) + (t2 - Cst 1) * L / tau) in
  M0 * a1 * (a2 + a3 + a4 + a5).
(** the angle [theta] is an argument so that it can be discussed separately; the code uses arctan2(y, x) *)
Definition t_deflection_tnfw_at (theta : expr) (Rs tau x y M0 d_l s : expr) : expr * expr :=
  let r := Sqrt (x ^ 2 + y ^ 2) + s in
  let dr := t_mass_enclosed_2d_tnfw r Rs tau M0 / (r * d_l * Cst arcsec_to_rad) in
  let S := Cst (4 * G_over_c2 * rad_to_arcsec) in
  (S * dr * Cos theta, S * dr * Sin theta).
Definition t_deflection_tnfw (x0 y0 Rs tau x y M0 d_l s : expr) : expr * expr :=
  let '(x, y) := t_translate_rotate x y x0 y0 None in t_deflection_tnfw_at (Atan2 y x) Rs tau x y M0 d_l s.
(** func/multipole.py:5-48; orders, amplitudes and angles are arrays, here lists of (order, amplitude, angle) *)
Definition t_deflection_multipole_at (phi : expr) (l : list (Z * expr * expr)) : expr * expr :=
  (fold_right (fun '(m, a_m, phi_m) s =>
     Cos phi * a_m / (Cst 1 - Cst (IZR m) ^ 2) * Cos (Cst (IZR m) * (phi - phi_m))
     + Sin phi * Cst (IZR m) * a_m / (Cst 1 - Cst (IZR m) ^ 2) * Sin (Cst (IZR m) * (phi - phi_m)) + s) (Cst 0) l,
   fold_right (fun '(m, a_m, phi_m) s =>
     Sin phi * a_m / (Cst 1 - Cst (IZR m) ^ 2) * Cos (Cst (IZR m) * (phi - phi_m))
     - Cos phi * Cst (IZR m) * a_m / (Cst 1 - Cst (IZR m) ^ 2) * Sin (Cst (IZR m) * (phi - phi_m)) + s) (Cst 0) l).
Definition t_deflection_multipole (x0 y0 : expr) (l : list (Z * expr * expr)) (x y : expr) : expr * expr :=
  let '(x, y) := t_translate_rotate x y x0 y0 None in t_deflection_multipole_at (Atan2 y x) l.
(** func/epl.py:218-287 (the exponent t, class parameter) *)
Definition t_convergence_epl (x0 y0 q phi Rein t x y s : expr) : expr :=
  let '(x, y) := t_translate_rotate x y x0 y0 (Some phi) in
  let psi := Sqrt (q ^ 2 * x ^ 2 + y ^ 2 + s ^ 2) in
  (Cst 2 - t) / Cst 2 * RPow (Rein * Sqrt q / psi) t.
(** light/func/sersic.py:60-66 *)
Definition t_brightness_sersic (x0 y0 q phi n Re Ie x y k s : expr) : expr :=
  let '(x, y) := t_translate_rotate x y x0 y0 (Some phi) in
  let '(ex, ey) := (x, y / q) in
  let e := Sqrt (ex ^ 2 + ey ^ 2) + s in
  let exponent := - k * (RPow (e / Re) (Cst 1 / n) - Cst 1) in
  Ie * Exp exponent.
(** func/mass_sheet.py:55-97, func/external_shear.py:62-108 *)
Definition t_potential_mass_sheet (x0 y0 kappa x y : expr) : expr :=
  let '(x, y) := t_translate_rotate x y x0 y0 None in kappa / Cst 2 * (x ^ 2 + y ^ 2).
Definition t_potential_external_shear (x0 y0 gamma_1 gamma_2 x y : expr) : expr :=
  let '(x, y) := t_translate_rotate x y x0 y0 None in
  Cst (/ 2) * gamma_1 * (x ^ 2 - y ^ 2) + gamma_2 * x * y.
(** func/sie.py:84-157 *)
Definition t_potential_sie (x0 y0 q phi Rein s x y : expr) : expr :=
  let '(ax, ay) := t_deflection_sie x0 y0 q phi Rein s x y in
  let '(ax, ay) := t_derotate ax ay (Some (- phi)) in
  let '(x, y) := t_translate_rotate x y x0 y0 (Some phi) in
  let q2_ := q ^ 2 in
  let x2_ := x ^ 2 in
  let max_s_ := AtLeast (1 / 10 ^ 6) s in
  let rein_q_sqrt_s_ := Rein * Sqrt q * s in
  let psi := Sqrt (q2_ * (x2_ + s ^ 2) + y ^ 2) in
  x * ax + y * ay
  - rein_q_sqrt_s_ * Ln (Sqrt ((psi + max_s_) ^ 2 + (Cst 1 - q2_) * x2_))
  + rein_q_sqrt_s_ * Ln ((Cst 1 + q) * max_s_).
(** func/pseudo_jaffe.py:153-238 *)
Definition t_potential_pseudo_jaffe (x0 y0 mass Rc Rs x y d_l d_s d_ls s : expr) : expr :=
  let '(x, y) := t_translate_rotate x y x0 y0 None in
  let r_squared := x ^ 2 + y ^ 2 + s in
  let surface_density_0 := t_convergence_0_pseudo_jaffe mass Rc Rs d_l (Cst 1) in
  let coeff := - (Cst (8 * PI * G_over_c2) * surface_density_0 * (d_l * d_ls / d_s) * Rc * Rs / (Rs - Rc)) in
  let scale_a := Sqrt (Rs ^ 2 + r_squared) in
  let scale_b := Sqrt (Rc ^ 2 + r_squared) in
  let scale_c := Rc * Ln (Rc + Sqrt (Rc ^ 2 + r_squared)) in
  let scale_d := Rs * Ln (Rs + Sqrt (Rs ^ 2 + r_squared)) in
  coeff * (scale_a - scale_b + scale_c - scale_d).
(** func/nfw.py:144-169, 330-390 *)
Definition t_g_nfw (x : expr) : expr :=
  let term_1 := Ln (x / Cst 2) ^ 2 in
  let x_gt1 := AtLeast (1 + eps_nfw) x in
  let x_lt1 := AtMost (1 - eps_nfw) x in
  let g_pos := Acos (Cst 1 / x_gt1) ^ 2 in
  let g_neg := - (Acosh (Cst 1 / x_lt1) ^ 2) in
  let term_2 := Where (Lt (Cst 1) x) g_pos (Where (Lt x (Cst 1)) g_neg (Cst 0)) in
  term_1 + term_2.
Definition t_potential_nfw (sigma_cr critical_density x0 y0 mass c d_l x y DELTA s : expr) : expr :=
  let '(x, y) := t_translate_rotate x y x0 y0 None in
  let th := Sqrt (x ^ 2 + y ^ 2) + s in
  let scale_radius := t_scale_radius_nfw critical_density mass c DELTA in
  let xi := d_l * th * Cst arcsec_to_rad in
  let r := xi / scale_radius in
  let convergence_s := t_convergence_s_nfw sigma_cr critical_density mass c DELTA in
  Cst 2 * convergence_s * t_g_nfw r * scale_radius ^ 2 / (d_l ^ 2 * Cst (arcsec_to_rad ^ 2)).
(** func/tnfw.py:247-325 *)
Definition t_convergence_tnfw (x0 y0 Rs tau x y critical_density M0 d_l s : expr) : expr :=
  let '(x, y) := t_translate_rotate x y x0 y0 None in
  let r := Sqrt (x ^ 2 + y ^ 2) + s in
  let g := r / Rs in
  let F := t_F_tnfw g in
  let L := t_L_tnfw g tau in
  let S := M0 / (Cst (2 * PI) * (Rs * d_l * Cst arcsec_to_rad) ^ 2) in
  let t2 := tau ^ 2 in
  let a1 := t2 / (t2 + Cst 1) ^ 2 in
  let a2 := Where (Eq g (Cst 1)) ((t2 + Cst 1) / Cst 3) ((t2 + Cst 1) * (Cst 1 - F) / (g ^ 2 - Cst 1)) in
  let a3 := Cst 2 * F in
  let a4 := Cst (- PI) / Sqrt (t2 + g ^ 2) in
  let a5 := (t2 - Cst 1) * L / (tau * Sqrt (t2 + g ^ 2)) in
  a1 * (a2 + a3 + a4 + a5) * S / critical_density.
(** func/tnfw.py:328-344, 347-441 *)
Definition t_P_tnfw (x : expr) : expr :=
  let x_gt1 := AtLeast (1 + 1 / 10000) x in
  let x_lt1 := AtMost (1 - 1 / 10000) x in
  Where (Lt x (Cst (1 - 1 / 1000))) (- (Acosh (Cst 1 / x_lt1) ^ 2))
    (Where (Lt (Cst (1 + 1 / 1000)) x) (Acos (Cst 1 / x_gt1) ^ 2)
       (Cst 2 * (x - Cst 1) - Cst 5 * (x - Cst 1) ^ 2 / Cst 3)).
Definition t_potential_tnfw (x0 y0 Rs tau x y M0 d_l d_s d_ls s : expr) : expr :=
  let '(x, y) := t_translate_rotate x y x0 y0 None in
  let r := Sqrt (x ^ 2 + y ^ 2) + s in
  let g := r / Rs in
  let t2 := tau ^ 2 in
  let u := g ^ 2 in
  let F := t_F_tnfw g in
  let L := t_L_tnfw g tau in
  let S := Cst 2 * M0 * Cst G_over_c2 * (d_ls / d_s) / (d_l * Cst (arcsec_to_rad ^ 2)) in
  let a1 := Cst 1 / (t2 + Cst 1) ^ 2 in
  let a2 := Cst (2 * PI) * t2 * (tau - Sqrt (t2 + u) + tau * Ln (tau + Sqrt (t2 + u))) in
  let a3 := Cst 2 * (t2 - Cst 1) * tau * Sqrt (t2 + u) * L in
  let a4 := t2 * (t2 - Cst 1) * L ^ 2 in
  let a5 := Cst 4 * t2 * (u - Cst 1) * F in
  let a6 := t2 * (t2 - Cst 1) * t_P_tnfw g in
  let a7 := t2 * ((t2 - Cst 1) * Ln tau - t2 - Cst 1) * Ln u in
  let a8 := t2 * ((t2 - Cst 1) * Ln tau * Ln (Cst 4 * tau) + Cst 2 * Ln (tau / Cst 2)
                  - Cst 2 * tau * (tau - Cst PI) * Ln (Cst 2 * tau)) in
  S * a1 * (a2 + a3 + a4 + a5 + a6 + a7 - a8).
(** func/multipole.py:51-91, 94-134 *)
Definition t_potential_multipole_at (phi : expr) (l : list (Z * expr * expr)) (x y : expr) : expr :=
  let r := Sqrt (x ^ 2 + y ^ 2) in
  fold_right (fun '(m, a_m, phi_m) s =>
    r * a_m / (Cst 1 - Cst (IZR m) ^ 2) * Cos (Cst (IZR m) * (phi - phi_m)) + s) (Cst 0) l.
Definition t_potential_multipole (x0 y0 : expr) (l : list (Z * expr * expr)) (x y : expr) : expr :=
  let '(x, y) := t_translate_rotate x y x0 y0 None in t_potential_multipole_at (Atan2 y x) l x y.
Definition t_convergence_multipole_at (phi : expr) (l : list (Z * expr * expr)) (x y : expr) : expr :=
  let r := Sqrt (x ^ 2 + y ^ 2) in
  fold_right (fun '(m, a_m, phi_m) s =>
    Cst 1 / (Cst 2 * r) * a_m * Cos (Cst (IZR m) * (phi - phi_m)) + s) (Cst 0) l.
Definition t_convergence_multipole (x0 y0 : expr) (l : list (Z * expr * expr)) (x y : expr) : expr :=
  let '(x, y) := t_translate_rotate x y x0 y0 None in t_convergence_multipole_at (Atan2 y x) l x y.
