(** * C105: convergence is positive and falls with the distance from the centre *)
From Coq Require Import Reals Lra.
From Verif Require Import Cosmo_Model Const_Model LensBasic_Model Epl_Model Jaffe_Model Nfw_Model Tnfw_Model Falls_Spec Falls_Proofs Falls2_Proofs Falls3_Proofs.
Local Open Scope R_scope.

Theorem C105_sis : forall x0 y0 Rein s, 0 < Rein -> 0 <= s -> falls_outward (convergence_sis x0 y0 Rein s) x0 y0.
Proof. exact sis_falls. Qed.
Theorem C105_sie : forall x0 y0 q phi Rein s, 0 < q -> 0 < Rein -> falls_along_rays (convergence_sie x0 y0 q phi Rein s) x0 y0.
Proof. exact sie_falls. Qed.
Theorem C105_epl : forall x0 y0 q phi Rein t s, 0 < q -> 0 < Rein -> 0 < t < 2 -> falls_along_rays (convergence_epl x0 y0 q phi Rein t s) x0 y0.
Proof. exact epl_falls. Qed.
(** The core radius may be smaller or larger than the scale radius. *)
Theorem C105_pseudo_jaffe : forall x0 y0 mass Rc Rs d_l sigma s, 0 < mass -> 0 < Rc -> 0 < Rs -> Rc <> Rs -> 0 < d_l -> 0 < sigma -> 0 <= s ->
  falls_outward (fun x y => convergence_pseudo_jaffe x0 y0 mass Rc Rs x y d_l sigma s) x0 y0.
Proof. exact jaffe_falls. Qed.
(** NFW: positive wherever it is finite. *)
Theorem C105_nfw_positive : forall dc cd z_s z_l x0 y0 mass c s, 0 < cd z_l -> 0 < c ->
  0 < angular_diameter_distance dc z_l -> 0 < angular_diameter_distance dc z_s -> 0 < angular_diameter_distance_z1z2 dc z_l z_s -> 0 <= s ->
  forall x y k, 0 < distance x0 y0 x y -> nfw_convergence dc cd z_s z_l x0 y0 mass c s x y = Some k -> 0 < k.
Proof. exact nfw_positive. Qed.
(** It falls when neither distance is within one part in a million of the scale radius ... *)
Theorem C105_nfw_partial : forall dc cd z_s z_l x0 y0 mass c s, 0 < cd z_l -> 0 < c ->
  0 < angular_diameter_distance dc z_l -> 0 < angular_diameter_distance dc z_s -> 0 < angular_diameter_distance_z1z2 dc z_l z_s -> 0 <= s ->
  forall x y x' y' k k', 0 < distance x0 y0 x y -> distance x0 y0 x y < distance x0 y0 x' y' ->
  1 / 1000000 < Rabs (angular_diameter_distance dc z_l * (distance x0 y0 x y + s) * arcsec_to_rad / nfw_get_scale_radius cd z_l mass c - 1) ->
  1 / 1000000 < Rabs (angular_diameter_distance dc z_l * (distance x0 y0 x' y' + s) * arcsec_to_rad / nfw_get_scale_radius cd z_l mass c - 1) ->
  nfw_convergence dc cd z_s z_l x0 y0 mass c s x y = Some k -> nfw_convergence dc cd z_s z_l x0 y0 mass c s x' y' = Some k' -> 0 < k' < k.
Proof. exact nfw_falls. Qed.
(** ... but every NFW lens has a place where it rises. *)
Theorem C105_nfw_refuted : forall dc cd z_s z_l x0 y0 mass c, 0 < cd z_l -> 0 < c ->
  0 < angular_diameter_distance dc z_l -> 0 < angular_diameter_distance dc z_s -> 0 < angular_diameter_distance_z1z2 dc z_l z_s ->
  exists x y x' y' k k', 0 < distance x0 y0 x y < distance x0 y0 x' y' /\
    nfw_convergence dc cd z_s z_l x0 y0 mass c 0 x y = Some k /\ nfw_convergence dc cd z_s z_l x0 y0 mass c 0 x' y' = Some k' /\ k < k'.
Proof. exact nfw_rises. Qed.
(** TNFW: positive everywhere, with either meaning of the mass. *)
Theorem C105_tnfw_positive : forall dc cd total_mass z_s z_l x0 y0 mass Rs tau s, 0 < cd z_l -> 0 < mass -> 0 < Rs -> 0 < tau ->
  0 < angular_diameter_distance dc z_l -> 0 < angular_diameter_distance dc z_s -> 0 < angular_diameter_distance_z1z2 dc z_l z_s ->
  forall x y, 0 <= s -> 0 < distance x0 y0 x y -> 0 < tnfw_convergence dc cd total_mass z_s z_l x0 y0 mass Rs tau s x y.
Proof. exact tnfw_positive. Qed.
(** It falls when neither distance is within 1% of the scale radius ... *)
Theorem C105_tnfw_partial : forall dc cd total_mass z_s z_l x0 y0 mass Rs tau s, 0 < cd z_l -> 0 < mass -> 0 < Rs -> 0 < tau ->
  0 < angular_diameter_distance dc z_l -> 0 < angular_diameter_distance dc z_s -> 0 < angular_diameter_distance_z1z2 dc z_l z_s ->
  forall x y x' y', 0 <= s -> 0 < distance x0 y0 x y -> distance x0 y0 x y < distance x0 y0 x' y' ->
  1 / 100 < Rabs ((distance x0 y0 x y + s) / Rs - 1) -> 1 / 100 < Rabs ((distance x0 y0 x' y' + s) / Rs - 1) ->
  0 < tnfw_convergence dc cd total_mass z_s z_l x0 y0 mass Rs tau s x' y' < tnfw_convergence dc cd total_mass z_s z_l x0 y0 mass Rs tau s x y.
Proof. exact tnfw_falls. Qed.
(** ... but every TNFW lens jumps up by a little where its series expansion ends. *)
Theorem C105_tnfw_refuted : forall dc cd total_mass z_s z_l x0 y0 mass Rs tau, 0 < cd z_l -> 0 < mass -> 0 < Rs -> 0 < tau ->
  0 < angular_diameter_distance dc z_l -> 0 < angular_diameter_distance dc z_s -> 0 < angular_diameter_distance_z1z2 dc z_l z_s ->
  exists x y x' y', 0 < distance x0 y0 x y < distance x0 y0 x' y' /\ tnfw_convergence dc cd total_mass z_s z_l x0 y0 mass Rs tau 0 x y < tnfw_convergence dc cd total_mass z_s z_l x0 y0 mass Rs tau 0 x' y'.
Proof. exact tnfw_rises. Qed.
Example C105_hyps : let dc := fun z => 1000 * z in 0 < angular_diameter_distance dc (1 / 2) /\ 0 < angular_diameter_distance dc 1 /\ 0 < angular_diameter_distance_z1z2 dc (1 / 2) 1 /\
  0 < distance 0 0 1 0 /\ distance 0 0 1 0 < distance 0 0 0 2 /\ 1 / 100 < Rabs ((distance 0 0 1 0 + 1 / 10) / 3 - 1).
Proof.
  cbv zeta. unfold angular_diameter_distance, angular_diameter_distance_z1z2, comoving_distance_z1z2, distance. replace ((1 - 0) ^ 2 + (0 - 0) ^ 2) with (1 ^ 2) by ring. replace ((0 - 0) ^ 2 + (2 - 0) ^ 2) with (2 ^ 2) by ring. rewrite !sqrt_pow2 by lra.
  repeat split; try lra. rewrite Rabs_left; lra.
Qed.
Print Assumptions C105_sis.
Print Assumptions C105_sie.
Print Assumptions C105_epl.
Print Assumptions C105_pseudo_jaffe.
Print Assumptions C105_nfw_positive.
Print Assumptions C105_nfw_partial.
Print Assumptions C105_nfw_refuted.
Print Assumptions C105_tnfw_positive.
Print Assumptions C105_tnfw_partial.
Print Assumptions C105_tnfw_refuted.
