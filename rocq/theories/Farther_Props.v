(** * C121: the farther the source, the stronger the lens *)
From Coq Require Import Reals Lra.
From Verif Require Import Py Cosmo_Model LensBase_Model LensBasic_Model Jaffe_Model Nfw_Model Tnfw_Model Halo_Model CosmoTable_Model CosmoTable_Proofs Farther_Spec Farther_Proofs.
Local Open Scope R_scope.

(** the reduced deflection grows with the distance of the source and stays below the physical one *)
Theorem C121_reduced : forall dc z_l z1 z2, in_order dc z_l z1 z2 -> forall ax ay,
  let r z := reduced_from_physical_deflection_angle ax ay (angular_diameter_distance dc z) (angular_diameter_distance_z1z2 dc z_l z) in
  (exists k, 1 < k /\ r z2 = (k * fst (r z1), k * snd (r z1))) /\
  fst (r z1) ^ 2 + snd (r z1) ^ 2 <= fst (r z2) ^ 2 + snd (r z2) ^ 2 <= ax ^ 2 + ay ^ 2 /\
  (ax <> 0 \/ ay <> 0 -> fst (r z1) ^ 2 + snd (r z1) ^ 2 < fst (r z2) ^ 2 + snd (r z2) ^ 2 < ax ^ 2 + ay ^ 2).
Proof.
  intros dc z_l z1 z2 H ax ay. destruct (reduced_grows dc z_l z1 z2 H ax ay) as (A & B). split; [|exact B].
  exists (gain dc z_l z1 z2). split; [exact (gain_big dc z_l z1 z2 H)|exact A].
Qed.
Print Assumptions C121_reduced.
(** the critical surface density and the time-delay distance fall, and stay positive *)
Theorem C121_critical_density : forall dc z_l z1 z2, in_order dc z_l z1 z2 ->
  0 < critical_surface_density dc z_l z2 < critical_surface_density dc z_l z1.
Proof. exact sigma_falls. Qed.
Print Assumptions C121_critical_density.
Theorem C121_time_delay_distance : forall dc z_l z1 z2, in_order dc z_l z1 z2 ->
  0 < time_delay_distance dc z_l z2 < time_delay_distance dc z_l z1.
Proof. exact delay_falls. Qed.
Print Assumptions C121_time_delay_distance.
(** deflection, potential and convergence of a halo grow by one common factor, everywhere *)
Theorem C121_pseudo_jaffe : forall dc z_l z1 z2, in_order dc z_l z1 z2 -> forall x0 y0 mass Rc Rs,
  stronger (jaffe_lens dc z1 z_l x0 y0 mass Rc Rs) (jaffe_lens dc z2 z_l x0 y0 mass Rc Rs).
Proof. exact jaffe_farther. Qed.
Print Assumptions C121_pseudo_jaffe.
Theorem C121_tnfw : forall dc z_l z1 z2, in_order dc z_l z1 z2 -> forall cd tot x0 y0 mass Rs tau s,
  stronger (tnfw_lens dc cd tot z1 z_l x0 y0 mass Rs tau s) (tnfw_lens dc cd tot z2 z_l x0 y0 mass Rs tau s).
Proof. exact tnfw_farther. Qed.
Print Assumptions C121_tnfw.
Theorem C121_nfw : forall dc z_l z1 z2, in_order dc z_l z1 z2 -> forall cd x0 y0 mass c s, exists k, 1 < k /\ forall x y,
  nfw_reduced_deflection_angle dc cd z2 z_l x0 y0 mass c s x y =
    (k * fst (nfw_reduced_deflection_angle dc cd z1 z_l x0 y0 mass c s x y), k * snd (nfw_reduced_deflection_angle dc cd z1 z_l x0 y0 mass c s x y)) /\
  nfw_potential dc cd z2 z_l x0 y0 mass c s x y = k * nfw_potential dc cd z1 z_l x0 y0 mass c s x y /\
  nfw_convergence dc cd z2 z_l x0 y0 mass c s x y = option_map (fun v => k * v) (nfw_convergence dc cd z1 z_l x0 y0 mass c s x y).
Proof. exact nfw_farther. Qed.
Print Assumptions C121_nfw.
(** the Einstein radius of a point mass and of an isothermal lens of given velocity dispersion grow *)
Theorem C121_einstein_radius : forall dc z_l z1 z2, in_order dc z_l z1 z2 -> forall M, 0 < M ->
  mass_to_rein_point M (angular_diameter_distance_z1z2 dc z_l z1) (angular_diameter_distance dc z_l) (angular_diameter_distance dc z1) <
  mass_to_rein_point M (angular_diameter_distance_z1z2 dc z_l z2) (angular_diameter_distance dc z_l) (angular_diameter_distance dc z2).
Proof. exact einstein_grows. Qed.
Print Assumptions C121_einstein_radius.
Theorem C121_velocity_dispersion : forall dc z_l z1 z2, in_order dc z_l z1 z2 -> forall sigma_v, sigma_v <> 0 ->
  sigma_v_to_rein_sie sigma_v (angular_diameter_distance_z1z2 dc z_l z1) (angular_diameter_distance dc z1) <
  sigma_v_to_rein_sie sigma_v (angular_diameter_distance_z1z2 dc z_l z2) (angular_diameter_distance dc z2).
Proof. exact sie_grows. Qed.
Print Assumptions C121_velocity_dispersion.
(** the distances of FlatLambdaCDM are ordered as the redshifts, as far as its table reaches *)
Theorem C121_flat : forall h0 Om0 z_l z1 z2, 0 < Om0 < 1 -> 0 < h0 -> 0 < z_l -> z_l < z1 -> z1 < z2 ->
  / 1000 <= ratio Om0 -> (1 + z2) * ratio Om0 <= 10 -> in_order (fun z => flat_comoving_distance z h0 Om0) z_l z1 z2.
Proof. exact flat_in_order. Qed.
Print Assumptions C121_flat.
Example C121_hyps : in_order (fun z => 3000 * z) (1 / 2) 1 2 /\ 0 < 1 / 2 < 1 /\ / 1000 <= ratio (1 / 2) /\ (1 + 2) * ratio (1 / 2) <= 10.
Proof.
  split; [unfold in_order; lra|]. split; [lra|].
  assert (Q : ratio (1 / 2) = 1). { unfold ratio. replace (_ / _) with 1 by field. unfold Rpower. rewrite ln_1, Rmult_0_r. apply exp_0. }
  rewrite Q. lra.
Qed.
