(** * The halos of a universe as automatic differentiation sees them (lenses/nfw.py, lenses/tnfw.py, lenses/pseudo_jaffe.py, lenses/multipole.py)

    The redshifts and softening lengths are plain numbers.  The comoving distances and the critical density are traced, since the parameters of
    the cosmology may be differentiated. *)
From Coq Require Import Reals ZArith List.
From Verif Require Import Const_Model Nfw_Model Ad_Model AdLens_Model AdMulti_Model.
Import ListNotations.
Local Open Scope R_scope.
Local Open Scope ad_scope.

Section Class.
(** the comoving distance to a redshift and the critical density there *)
Variables t_cd t_rho : R -> expr.
Notation t_add := (t_add t_cd).
Notation t_add2 := (t_add2 t_cd).
(** cosmology/base.py:257-288 *)
Definition t_sigma_cr (z_l z_s : R) : expr := t_add z_s / (Cst (4 * PI * G_over_c2) * t_add z_l * t_add2 z_l z_s).
(** func/base.py:290-330 *)
Definition t_reduced_from_physical (a : expr * expr) (d_s d_ls : expr) : expr * expr := (d_ls / d_s * fst a, d_ls / d_s * snd a).

(** ** lenses/nfw.py:236-279, 281-288, 290-340, 342-392 *)
Definition t_nfw_physical (z_l : R) (x0 y0 mass c s x y : expr) : expr * expr := t_deflection_nfw x0 y0 mass c (t_rho z_l) (t_add z_l) x y (Cst DELTA) s.
Definition t_nfw_reduced (z_s z_l : R) (x0 y0 mass c s x y : expr) : expr * expr :=
  t_reduced_from_physical (t_nfw_physical z_l x0 y0 mass c s x y) (t_add z_s) (t_add2 z_l z_s).
Definition t_nfw_convergence (z_s z_l : R) (x0 y0 mass c s x y : expr) : expr :=
  t_convergence_nfw (t_sigma_cr z_l z_s) (t_rho z_l) x0 y0 mass c x y (t_add z_l) (Cst DELTA) s.
Definition t_nfw_potential (z_s z_l : R) (x0 y0 mass c s x y : expr) : expr :=
  t_potential_nfw (t_sigma_cr z_l z_s) (t_rho z_l) x0 y0 mass c (t_add z_l) x y (Cst DELTA) s.

(** ** lenses/tnfw.py *)
(** func/tnfw.py:6-46, 75-76, 79-83, 86-116 *)
Definition t_concentration_tnfw (mass Rs critical_density d_l DELTA : expr) : expr :=
  let r_delta := RPow (Cst 3 * mass / (Cst (4 * PI) * DELTA * critical_density)) (Cst (1 / 3)) in
  r_delta / (Rs * d_l * Cst arcsec_to_rad).
Definition t_scale_density_tnfw (c critical_density DELTA : expr) : expr :=
  DELTA / Cst 3 * critical_density * c ^ 3 / (Ln (Cst 1 + c) - c / (Cst 1 + c)).
Definition t_M0_totmass_tnfw (mass tau : expr) : expr :=
  mass * (tau ^ 2 + Cst 1) ^ 2 / (tau ^ 2 * ((tau ^ 2 - Cst 1) * Ln tau + Cst PI * tau - (tau ^ 2 + Cst 1))).
Definition t_M0_scalemass_tnfw (Rs c critical_density d_l DELTA : expr) : expr :=
  Cst (4 * PI) * (Rs * d_l * Cst arcsec_to_rad) ^ 3 * t_scale_density_tnfw c critical_density DELTA.
(** lenses/tnfw.py:234-262 *)
Definition t_tnfw_M0 (interpret_m_total_mass : bool) (z_l : R) (mass Rs tau : expr) : expr :=
  if interpret_m_total_mass then t_M0_totmass_tnfw mass tau
  else
    let d_l := t_add z_l in
    let c := t_concentration_tnfw mass Rs (t_rho z_l) d_l (Cst DELTA) in
    t_M0_scalemass_tnfw Rs c (t_rho z_l) d_l (Cst DELTA).
(** lenses/tnfw.py:370-416, 418-425, 287-339, 427-473 *)
Definition t_tnfw_physical (tot : bool) (z_l : R) (x0 y0 mass Rs tau s x y : expr) : expr * expr :=
  t_deflection_tnfw x0 y0 Rs tau x y (t_tnfw_M0 tot z_l mass Rs tau) (t_add z_l) s.
Definition t_tnfw_reduced (tot : bool) (z_s z_l : R) (x0 y0 mass Rs tau s x y : expr) : expr * expr :=
  t_reduced_from_physical (t_tnfw_physical tot z_l x0 y0 mass Rs tau s x y) (t_add z_s) (t_add2 z_l z_s).
Definition t_tnfw_convergence (tot : bool) (z_s z_l : R) (x0 y0 mass Rs tau s x y : expr) : expr :=
  t_convergence_tnfw x0 y0 Rs tau x y (t_sigma_cr z_l z_s) (t_tnfw_M0 tot z_l mass Rs tau) (t_add z_l) s.
Definition t_tnfw_potential (tot : bool) (z_s z_l : R) (x0 y0 mass Rs tau s x y : expr) : expr :=
  t_potential_tnfw x0 y0 Rs tau x y (t_tnfw_M0 tot z_l mass Rs tau) (t_add z_l) (t_add z_s) (t_add2 z_l z_s) s.

(** ** lenses/pseudo_jaffe.py:246-288, 290-331, 333-373; the softening of the instance is not passed on *)
Definition t_jaffe_reduced (z_s z_l : R) (x0 y0 mass Rc Rs x y : expr) : expr * expr :=
  t_deflection_pseudo_jaffe x0 y0 mass Rc Rs x y (t_add z_l) (t_sigma_cr z_l z_s) (Cst 0).
Definition t_jaffe_potential (z_s z_l : R) (x0 y0 mass Rc Rs x y : expr) : expr :=
  t_potential_pseudo_jaffe x0 y0 mass Rc Rs x y (t_add z_l) (t_add z_s) (t_add2 z_l z_s) (Cst 0).
Definition t_jaffe_convergence (z_s z_l : R) (x0 y0 mass Rc Rs x y : expr) : expr :=
  t_convergence_pseudo_jaffe x0 y0 mass Rc Rs x y (t_add z_l) (t_sigma_cr z_l z_s) (Cst 0).
End Class.
