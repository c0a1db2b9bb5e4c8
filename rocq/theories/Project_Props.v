(** * C88: the convergence of halo lenses is the projection of the halo's density *)
From Coq Require Import Reals Lra Psatz.
From Coquelicot Require Import Coquelicot.
From Verif Require Import Const_Model RealFun Cosmo_Model LensBase_Model Nfw_Model Nfw_Spec Nfw2_Proofs Nfw3_Proofs Tnfw_Model Project_Spec Project2_Proofs.
Local Open Scope R_scope.

(** lengths in the plane of the lens are angles times d_l * arcsec_to_rad *)
Theorem C88_nfw : forall dc cd z_s z_l x0 y0 mass,
  0 < angular_diameter_distance dc z_l -> 0 < angular_diameter_distance dc z_s -> 0 < angular_diameter_distance_z1z2 dc z_l z_s ->
  forall x y, x <> x0 \/ y <> y0 -> forall c k, 0 < c ->
  let Rs := nfw_get_scale_radius cd z_l mass c in let d := sqrt ((x - x0) ^ 2 + (y - y0) ^ 2) * (angular_diameter_distance dc z_l * arcsec_to_rad) in
  1 / 1000000 < Rabs (d / Rs - 1) -> nfw_convergence dc cd z_s z_l x0 y0 mass c 0 x y = Some k ->
  projects (nfw_density (nfw_get_scale_density cd z_l c) Rs) d (critical_surface_density dc z_l z_s * k).
Proof. exact class_nfw_projects. Qed.
Print Assumptions C88_nfw.
(** TNFW with interpret_m_total_mass=False: the density has the scale density and the truncation radius the lens reports *)
Theorem C88_tnfw : forall dc cd z_s z_l x0 y0 mass,
  0 < angular_diameter_distance dc z_l -> 0 < angular_diameter_distance dc z_s -> 0 < angular_diameter_distance_z1z2 dc z_l z_s ->
  forall x y, x <> x0 \/ y <> y0 -> forall Rs tau, 0 < Rs -> 0 < tau -> 1 / 100 < Rabs (sqrt ((x - x0) ^ 2 + (y - y0) ^ 2) / Rs - 1) ->
  let arcsec := angular_diameter_distance dc z_l * arcsec_to_rad in
  projects (tnfw_density (tnfw_get_scale_density dc cd z_l mass Rs) (Rs * arcsec) (tnfw_get_truncation_radius Rs tau * arcsec)) (sqrt ((x - x0) ^ 2 + (y - y0) ^ 2) * arcsec)
    (critical_surface_density dc z_l z_s * tnfw_convergence dc cd false z_s z_l x0 y0 mass Rs tau 0 x y).
Proof.
  intros dc cd z_s z_l x0 y0 mass Hl Hs Hls x y Hxy Rs tau HR Ht W arcsec. rewrite <- (tnfw_M0_scale dc cd z_l mass Hl Rs tau HR). exact (class_tnfw_projects dc cd z_s z_l x0 y0 mass Hl Hs Hls x y Hxy false Rs tau HR Ht W).
Qed.
Print Assumptions C88_tnfw.
(** by default: the same profile with the scale density that gives the total mass (C56) *)
Theorem C88_tnfw_total : forall dc cd z_s z_l x0 y0 mass,
  0 < angular_diameter_distance dc z_l -> 0 < angular_diameter_distance dc z_s -> 0 < angular_diameter_distance_z1z2 dc z_l z_s ->
  forall Rs tau, 0 < mass -> 0 < Rs -> 0 < tau -> exists Ds, 0 < Ds /\
  forall x y, x <> x0 \/ y <> y0 -> 1 / 100 < Rabs (sqrt ((x - x0) ^ 2 + (y - y0) ^ 2) / Rs - 1) ->
  let arcsec := angular_diameter_distance dc z_l * arcsec_to_rad in
  projects (tnfw_density Ds (Rs * arcsec) (tnfw_get_truncation_radius Rs tau * arcsec)) (sqrt ((x - x0) ^ 2 + (y - y0) ^ 2) * arcsec)
    (critical_surface_density dc z_l z_s * tnfw_convergence dc cd true z_s z_l x0 y0 mass Rs tau 0 x y).
Proof.
  intros dc cd z_s z_l x0 y0 mass Hl Hs Hls Rs tau Hm HR Ht. assert (A := arcsec_to_rad_pos). assert (Q := PI_RGT_0).
  exists (tnfw_M0 dc cd true z_l mass Rs tau / (4 * PI * (Rs * (angular_diameter_distance dc z_l * arcsec_to_rad)) ^ 3)). split.
  - apply Rdiv_lt_0_compat; [apply tnfw_M0_pos; assumption|]. apply Rmult_lt_0_compat; [lra|]. apply pow_lt. apply Rmult_lt_0_compat; [exact HR|apply Rmult_lt_0_compat; assumption].
  - intros x y Hxy W. exact (class_tnfw_projects dc cd z_s z_l x0 y0 mass Hl Hs Hls x y Hxy true Rs tau HR Ht W).
Qed.
Print Assumptions C88_tnfw_total.
(** within one percent of the scale radius, where the lens uses a series (and a special value at its middle), up to 3e-5 in units of the surface density M0 / (2 pi Rs^2) *)
Theorem C88_tnfw_window : forall dc cd z_s z_l x0 y0 mass,
  0 < angular_diameter_distance dc z_l -> 0 < angular_diameter_distance dc z_s -> 0 < angular_diameter_distance_z1z2 dc z_l z_s ->
  forall x y, x <> x0 \/ y <> y0 -> forall tot Rs tau, 0 < Rs -> 0 < tau -> Rabs (sqrt ((x - x0) ^ 2 + (y - y0) ^ 2) / Rs - 1) <= 1 / 100 ->
  let arcsec := angular_diameter_distance dc z_l * arcsec_to_rad in let M0 := tnfw_M0 dc cd tot z_l mass Rs tau in
  exists S, projects (tnfw_density (M0 / (4 * PI * (Rs * arcsec) ^ 3)) (Rs * arcsec) (tnfw_get_truncation_radius Rs tau * arcsec)) (sqrt ((x - x0) ^ 2 + (y - y0) ^ 2) * arcsec) S /\
  Rabs (critical_surface_density dc z_l z_s * tnfw_convergence dc cd tot z_s z_l x0 y0 mass Rs tau 0 x y - S) <= 3 / 100000 * (Rabs M0 / (2 * PI * (Rs * arcsec) ^ 2)).
Proof. exact class_tnfw_window. Qed.
Print Assumptions C88_tnfw_window.
(** without truncation, the concentration and scale density of the TNFW lens describe a halo of that mass at 200 times the critical density, *)
Theorem C88_tnfw_scales : forall dc cd z_l mass, 0 < angular_diameter_distance dc z_l -> forall Rs, 0 < cd z_l -> 0 < mass -> 0 < Rs ->
  let arcsec := angular_diameter_distance dc z_l * arcsec_to_rad in let r200 := tnfw_get_concentration dc cd z_l mass Rs * (Rs * arcsec) in
  is_RInt (V := R_NormedModule) (fun r => 4 * PI * r ^ 2 * nfw_density (tnfw_get_scale_density dc cd z_l mass Rs) (Rs * arcsec) r) 0 r200 mass /\
  mass / (4 / 3 * PI * r200 ^ 3) = 200 * cd z_l.
Proof. intros. split; [apply tnfw_halo_mass; assumption|apply tnfw_mean_density; assumption]. Qed.
Print Assumptions C88_tnfw_scales.
(** and its convergence tends to that of the NFW lens of the same mass and concentration as tau grows *)
Theorem C88_tnfw_limit : forall dc cd z_s z_l x0 y0 mass,
  0 < angular_diameter_distance dc z_l -> 0 < angular_diameter_distance dc z_s -> 0 < angular_diameter_distance_z1z2 dc z_l z_s ->
  forall x y, x <> x0 \/ y <> y0 -> forall Rs k, 0 < cd z_l -> 0 < mass -> 0 < Rs -> 1 / 100 < Rabs (sqrt ((x - x0) ^ 2 + (y - y0) ^ 2) / Rs - 1) ->
  nfw_convergence dc cd z_s z_l x0 y0 mass (tnfw_get_concentration dc cd z_l mass Rs) 0 x y = Some k ->
  is_lim (fun tau => tnfw_convergence dc cd false z_s z_l x0 y0 mass Rs tau 0 x y) p_infty k.
Proof. exact class_tnfw_limit. Qed.
Print Assumptions C88_tnfw_limit.
Example C88_hyps : let dc := fun z : R => z in
  0 < angular_diameter_distance dc (1 / 2) /\ 0 < angular_diameter_distance dc 1 /\ 0 < angular_diameter_distance_z1z2 dc (1 / 2) 1 /\
  1 / 100 < Rabs (sqrt ((3 - 0) ^ 2 + (4 - 0) ^ 2) / 2 - 1) /\ Rabs (sqrt ((3 - 0) ^ 2 + (4 - 0) ^ 2) / 5 - 1) <= 1 / 100.
Proof.
  assert (E : sqrt ((3 - 0) ^ 2 + (4 - 0) ^ 2) = 5) by (replace ((3 - 0) ^ 2 + (4 - 0) ^ 2) with (5 ^ 2) by ring; apply sqrt_pow2; lra).
  cbv zeta. rewrite E. unfold angular_diameter_distance, angular_diameter_distance_z1z2, comoving_distance_z1z2. split; [lra|]. split; [lra|]. split; [lra|].
  split; rewrite Rabs_pos_eq; lra.
Qed.
