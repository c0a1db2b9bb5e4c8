(** * C55, C56: the truncated NFW lens *)
From Coq Require Import Reals Lra.
From Coquelicot Require Import Coquelicot.
From Verif Require Import Const_Model Cosmo_Model Lens_Spec Tnfw_Model Tnfw3_Proofs Tnfw4_Proofs.
Local Open Scope R_scope.

(** dc and cd are the comoving distance and critical density of the cosmology, tot is the flag interpret_m_total_mass.
    The series window is one percent wide on both sides of r = Rs. *)
Theorem C55_consistent : forall dc cd tot z_s z_l x0 y0 mass Rs tau, 0 < Rs -> 0 < tau ->
  0 < angular_diameter_distance dc z_l -> 0 < angular_diameter_distance dc z_s -> 0 < angular_diameter_distance_z1z2 dc z_l z_s ->
  forall x y, x <> x0 \/ y <> y0 -> 1 / 100 < Rabs (sqrt ((x - x0) ^ 2 + (y - y0) ^ 2) / Rs - 1) ->
  lens_consistent (tnfw_potential dc cd tot z_s z_l x0 y0 mass Rs tau 0) (tnfw_reduced_deflection_angle dc cd tot z_s z_l x0 y0 mass Rs tau 0)
    (tnfw_convergence dc cd tot z_s z_l x0 y0 mass Rs tau 0) x y.
Proof. exact class_consistent. Qed.
Print Assumptions C55_consistent.
(** the derivative of the mass within a physical radius R is 2 pi R Sigma(R), Sigma = convergence times critical surface density *)
Theorem C55_enclosed_mass : forall dc cd tot z_s z_l x0 y0 mass Rs tau, 0 < Rs -> 0 < tau ->
  0 < angular_diameter_distance dc z_l -> 0 < angular_diameter_distance dc z_s -> 0 < angular_diameter_distance_z1z2 dc z_l z_s ->
  forall x y, let r := angular_diameter_distance dc z_l * arcsec_to_rad * sqrt ((x - x0) ^ 2 + (y - y0) ^ 2) in
  x <> x0 \/ y <> y0 -> 1 / 100 < Rabs (sqrt ((x - x0) ^ 2 + (y - y0) ^ 2) / Rs - 1) ->
  is_derive (fun R => tnfw_mass_enclosed_2d dc cd tot z_l mass (R / (angular_diameter_distance dc z_l * arcsec_to_rad)) Rs tau) r
    (2 * PI * r * (critical_surface_density dc z_l z_s * tnfw_convergence dc cd tot z_s z_l x0 y0 mass Rs tau 0 x y)).
Proof. exact class_mass. Qed.
Print Assumptions C55_enclosed_mass.
(** the deflection is the gradient with any softening ... *)
Theorem C55_gradient_softened : forall dc cd tot z_s z_l x0 y0 mass Rs tau, 0 < Rs -> 0 < tau -> 0 < angular_diameter_distance dc z_l ->
  forall s x y, 0 <= s -> x <> x0 \/ y <> y0 -> 1 / 100 < Rabs ((sqrt ((x - x0) ^ 2 + (y - y0) ^ 2) + s) / Rs - 1) ->
  deflection_is_gradient (tnfw_potential dc cd tot z_s z_l x0 y0 mass Rs tau s) (tnfw_reduced_deflection_angle dc cd tot z_s z_l x0 y0 mass Rs tau s) x y.
Proof. exact class_gradient. Qed.
Print Assumptions C55_gradient_softened.
(** ... but half its divergence is the convergence for no positive softening *)
Theorem C55_softened_refuted : forall dc cd z_s z_l x0 y0 mass Rs tau, 0 < mass -> 0 < Rs -> 0 < tau ->
  0 < angular_diameter_distance dc z_l -> 0 < angular_diameter_distance dc z_s -> 0 < angular_diameter_distance_z1z2 dc z_l z_s ->
  forall s, 0 < s -> exists x y, (x <> x0 \/ y <> y0) /\ 1 / 100 < Rabs ((sqrt ((x - x0) ^ 2 + (y - y0) ^ 2) + s) / Rs - 1) /\
  ~ convergence_is_half_divergence (tnfw_reduced_deflection_angle dc cd true z_s z_l x0 y0 mass Rs tau s) (tnfw_convergence dc cd true z_s z_l x0 y0 mass Rs tau s) x y.
Proof. exact class_softened. Qed.
Print Assumptions C55_softened_refuted.
Example C55_hyps : let dc := fun z : R => z in
  0 < angular_diameter_distance dc (1 / 2) /\ 0 < angular_diameter_distance dc 1 /\ 0 < angular_diameter_distance_z1z2 dc (1 / 2) 1 /\
  1 / 100 < Rabs (sqrt ((3 - 0) ^ 2 + (4 - 0) ^ 2) / 2 - 1).
Proof.
  cbv zeta. unfold angular_diameter_distance, angular_diameter_distance_z1z2, comoving_distance_z1z2. split; [lra|]. split; [lra|]. split; [lra|].
  replace ((3 - 0) ^ 2 + (4 - 0) ^ 2) with (5 ^ 2) by ring. rewrite sqrt_pow2 by lra. rewrite Rabs_pos_eq; lra.
Qed.

(** With interpret_m_total_mass the projected mass within r tends to mass far out and to 0 at the centre. *)
Theorem C56_total_mass : forall dc cd z_l mass Rs tau, 0 < Rs -> 0 < tau ->
  is_lim (fun r => tnfw_mass_enclosed_2d dc cd true z_l mass r Rs tau) p_infty mass /\
  filterlim (fun r => tnfw_mass_enclosed_2d dc cd true z_l mass r Rs tau) (at_right 0) (locally 0).
Proof. exact class_total. Qed.
Print Assumptions C56_total_mass.
(** the denominator of the normalisation is never zero *)
Theorem C56_normalisation : forall tau, 0 < tau -> 0 < (tau ^ 2 - 1) * ln tau + PI * tau - (tau ^ 2 + 1).
Proof. exact ktot_pos. Qed.
Print Assumptions C56_normalisation.
Example C56_hyps : 0 < 1 /\ 0 < 3. Proof. lra. Qed.
