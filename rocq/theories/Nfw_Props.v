(** * C52, C53, C54: the NFW lens *)
From Coq Require Import Reals Lra.
From Coquelicot Require Import Coquelicot.
From Verif Require Import Const_Model Cosmo_Model Lens_Spec Nfw_Model Nfw_Spec Nfw2_Proofs Nfw3_Proofs.
Local Open Scope R_scope.

(** dc and cd are the comoving distance and critical density of the cosmology.  The radius in units of the scale radius is
    d_l * theta * arcsec_to_rad / scale radius; the window is 1e-6 wide on both sides of 1. *)
Theorem C52_consistent : forall dc cd z_s z_l x0 y0 mass c, 0 < cd z_l -> 0 < mass -> 0 < c ->
  0 < angular_diameter_distance dc z_l -> 0 < angular_diameter_distance dc z_s -> 0 < angular_diameter_distance_z1z2 dc z_l z_s ->
  forall x y, x <> x0 \/ y <> y0 ->
  1 / 1000000 < Rabs (angular_diameter_distance dc z_l * sqrt ((x - x0) ^ 2 + (y - y0) ^ 2) * arcsec_to_rad / nfw_get_scale_radius cd z_l mass c - 1) ->
  exists k, nfw_convergence dc cd z_s z_l x0 y0 mass c 0 x y = Some k /\
  lens_consistent (nfw_potential dc cd z_s z_l x0 y0 mass c 0) (nfw_reduced_deflection_angle dc cd z_s z_l x0 y0 mass c 0) (fun _ _ => k) x y.
Proof. exact nfw_consistent_all. Qed.
Print Assumptions C52_consistent.
Example C52_hyps : let dc := fun z : R => z in let cd := fun _ : R => 3 * 1 / (4 * PI * DELTA) in
  0 < cd (1 / 2) /\ 0 < 1 /\ 0 < angular_diameter_distance dc (1 / 2) /\ 0 < angular_diameter_distance dc 1 /\ 0 < angular_diameter_distance_z1z2 dc (1 / 2) 1 /\ (6 * rad_to_arcsec <> 0 \/ 0 <> 0) /\
  1 / 1000000 < Rabs (angular_diameter_distance dc (1 / 2) * sqrt ((6 * rad_to_arcsec - 0) ^ 2 + (0 - 0) ^ 2) * arcsec_to_rad / nfw_get_scale_radius cd (1 / 2) 1 1 - 1).
Proof. exact nfw_example. Qed.

(** The consistency is that of the unsoftened lens: with a softening the deflection is not the gradient of the potential. *)
Theorem C52_softened_refuted : forall dc cd z_s z_l x0 y0 mass c, 0 < cd z_l -> 0 < mass -> 0 < c ->
  0 < angular_diameter_distance dc z_l -> 0 < angular_diameter_distance dc z_s -> 0 < angular_diameter_distance_z1z2 dc z_l z_s ->
  exists s x y, 0 < s /\ (x <> x0 \/ y <> y0) /\
  ~ deflection_is_gradient (nfw_potential dc cd z_s z_l x0 y0 mass c s) (nfw_reduced_deflection_angle dc cd z_s z_l x0 y0 mass c s) x y.
Proof. exact nfw_softened_all. Qed.
Print Assumptions C52_softened_refuted.

(** C53 fails: at the scale radius the convergence is not finite (0 / 0) ... *)
Theorem C53_scale_radius_refuted : forall dc cd z_s z_l x0 y0 mass c, 0 < c -> 0 < angular_diameter_distance dc z_l ->
  exists x y, (x <> x0 \/ y <> y0) /\
  angular_diameter_distance dc z_l * sqrt ((x - x0) ^ 2 + (y - y0) ^ 2) * arcsec_to_rad / nfw_get_scale_radius cd z_l mass c = 1 /\
  nfw_convergence dc cd z_s z_l x0 y0 mass c 0 x y = None.
Proof. exact nfw_not_finite. Qed.
Print Assumptions C53_scale_radius_refuted.
(** ... and it takes arbitrarily large values just outside of it. *)
Theorem C53_unbounded_refuted : forall dc cd z_s z_l x0 y0 mass c, 0 < cd z_l -> 0 < c ->
  0 < angular_diameter_distance dc z_l -> 0 < angular_diameter_distance dc z_s -> 0 < angular_diameter_distance_z1z2 dc z_l z_s ->
  forall B, exists x y k, 
  1 < angular_diameter_distance dc z_l * sqrt ((x - x0) ^ 2 + (y - y0) ^ 2) * arcsec_to_rad / nfw_get_scale_radius cd z_l mass c < 1 + 1 / 1000000 /\
  nfw_convergence dc cd z_s z_l x0 y0 mass c 0 x y = Some k /\ B < k.
Proof. exact nfw_unbounded. Qed.
Print Assumptions C53_unbounded_refuted.
(** What does hold: finite off the scale radius, continuous off the window. *)
Theorem C53_finite_partial : forall dc cd z_s z_l x0 y0 mass c, 0 < c -> 0 < angular_diameter_distance dc z_l ->
  forall x y, (x <> x0 \/ y <> y0) ->
  angular_diameter_distance dc z_l * sqrt ((x - x0) ^ 2 + (y - y0) ^ 2) * arcsec_to_rad / nfw_get_scale_radius cd z_l mass c <> 1 ->
  exists k, nfw_convergence dc cd z_s z_l x0 y0 mass c 0 x y = Some k.
Proof. exact nfw_finite. Qed.
Print Assumptions C53_finite_partial.
Theorem C53_continuous_partial : forall dc cd z_s z_l x0 y0 mass c, 0 < c -> 0 < angular_diameter_distance dc z_l ->
  forall x y, (x <> x0 \/ y <> y0) ->
  1 / 1000000 < Rabs (angular_diameter_distance dc z_l * sqrt ((x - x0) ^ 2 + (y - y0) ^ 2) * arcsec_to_rad / nfw_get_scale_radius cd z_l mass c - 1) ->
  exists kappa, locally_2d (fun u v => nfw_convergence dc cd z_s z_l x0 y0 mass c 0 u v = Some (kappa u v)) x y /\ continuity_2d_pt kappa x y.
Proof. exact nfw_continuous. Qed.
Print Assumptions C53_continuous_partial.

(** C54 *)
Theorem C54_virial_mass : forall rho mass c D, 0 < rho -> 0 < mass -> 0 < c -> 0 < D ->
  let Rs := scale_radius_nfw rho mass c D in let Ds := scale_density_nfw rho c D in
  is_RInt (V := R_NormedModule) (fun r => 4 * PI * r ^ 2 * nfw_density Ds Rs r) 0 (c * Rs) mass.
Proof. exact nfw_mass_integral. Qed.
Print Assumptions C54_virial_mass.
Theorem C54_mean_density : forall rho mass c D, 0 < rho -> 0 < mass -> 0 < c -> 0 < D ->
  let R := c * scale_radius_nfw rho mass c D in mass / (4 / 3 * PI * R ^ 3) = D * rho.
Proof. exact nfw_mean_density. Qed.
Print Assumptions C54_mean_density.
(** The class uses 200 times the critical density of its cosmology at the redshift of the lens. *)
Theorem C54_class : forall cd z_l mass c, nfw_get_scale_radius cd z_l mass c = scale_radius_nfw (cd z_l) mass c 200 /\ nfw_get_scale_density cd z_l c = scale_density_nfw (cd z_l) c 200.
Proof. intros. split; reflexivity. Qed.
Print Assumptions C54_class.
Example C54_hyps : 0 < 130 /\ 0 < 1000000000000 /\ 0 < 5 /\ 0 < 200.
Proof. repeat split; lra. Qed.
