(** * C82: the mass of a halo does not depend on the source behind it *)
From Coq Require Import Reals Lra.
From Verif Require Import Const_Model Cosmo_Model LensBase_Model Jaffe_Model Nfw_Model Tnfw_Model Halo_Model Halo_Proofs.
Local Open Scope R_scope.

(** [z1] and [z2] are two source redshifts (distances non-zero): same surface density, same physical deflection, and potentials in the
    ratio of d_ls / d_s *)
Theorem C82_pseudo_jaffe : forall dc z_l x0 y0 mass Rc Rs x y z1 z2, angular_diameter_distance dc z_l <> 0 ->
  angular_diameter_distance dc z1 <> 0 -> angular_diameter_distance_z1z2 dc z_l z1 <> 0 ->
  angular_diameter_distance dc z2 <> 0 -> angular_diameter_distance_z1z2 dc z_l z2 <> 0 ->
  let lens z := jaffe_lens dc z z_l x0 y0 mass Rc Rs in
  surface_density dc (lens z1) z1 x y = surface_density dc (lens z2) z2 x y /\
  physical_deflection_angle dc (lens z1) z1 x y = physical_deflection_angle dc (lens z2) z2 x y /\
  angular_diameter_distance dc z1 / angular_diameter_distance_z1z2 dc z_l z1 * potential (lens z1) x y =
  angular_diameter_distance dc z2 / angular_diameter_distance_z1z2 dc z_l z2 * potential (lens z2) x y.
Proof. intros. unfold lens. rewrite !jaffe_sd, !jaffe_defl, !jaffe_pot by assumption. repeat split; reflexivity. Qed.
Print Assumptions C82_pseudo_jaffe.
Theorem C82_tnfw : forall dc cd tot z_l x0 y0 mass Rs tau s x y z1 z2, angular_diameter_distance dc z_l <> 0 ->
  angular_diameter_distance dc z1 <> 0 -> angular_diameter_distance_z1z2 dc z_l z1 <> 0 ->
  angular_diameter_distance dc z2 <> 0 -> angular_diameter_distance_z1z2 dc z_l z2 <> 0 ->
  let lens z := tnfw_lens dc cd tot z z_l x0 y0 mass Rs tau s in
  surface_density dc (lens z1) z1 x y = surface_density dc (lens z2) z2 x y /\
  physical_deflection_angle dc (lens z1) z1 x y = physical_deflection_angle dc (lens z2) z2 x y /\
  angular_diameter_distance dc z1 / angular_diameter_distance_z1z2 dc z_l z1 * potential (lens z1) x y =
  angular_diameter_distance dc z2 / angular_diameter_distance_z1z2 dc z_l z2 * potential (lens z2) x y.
Proof. intros. unfold lens. rewrite !tnfw_sd, !tnfw_defl, !tnfw_pot by assumption. repeat split; reflexivity. Qed.
Print Assumptions C82_tnfw.
(** NFW: also undefined (NaN) at the same positions *)
Theorem C82_nfw : forall dc cd z_l x0 y0 mass c s kappa x y z1 z2, angular_diameter_distance dc z_l <> 0 ->
  angular_diameter_distance dc z1 <> 0 -> angular_diameter_distance_z1z2 dc z_l z1 <> 0 ->
  angular_diameter_distance dc z2 <> 0 -> angular_diameter_distance_z1z2 dc z_l z2 <> 0 ->
  let lens z := nfw_lens dc cd z z_l x0 y0 mass c s kappa in
  nfw_surface_density dc cd z1 z_l x0 y0 mass c s x y = nfw_surface_density dc cd z2 z_l x0 y0 mass c s x y /\
  physical_deflection_angle dc (lens z1) z1 x y = physical_deflection_angle dc (lens z2) z2 x y /\
  angular_diameter_distance dc z1 / angular_diameter_distance_z1z2 dc z_l z1 * potential (lens z1) x y =
  angular_diameter_distance dc z2 / angular_diameter_distance_z1z2 dc z_l z2 * potential (lens z2) x y.
Proof. intros. unfold lens. rewrite !nfw_sd, !nfw_defl, !nfw_pot by assumption. repeat split; reflexivity. Qed.
Print Assumptions C82_nfw.
(** and a lens with the critical convergence 1 has the critical surface density *)
Theorem C82_unit_convergence : forall dc (lens : thin_lens) z_s x y, convergence lens x y = 1 ->
  surface_density dc lens z_s x y = critical_surface_density dc (z_l lens) z_s.
Proof. intros dc lens z_s x y H. unfold surface_density. rewrite H. apply Rmult_1_l. Qed.
Print Assumptions C82_unit_convergence.
Example C82_hyps : angular_diameter_distance (fun z => z) 1 <> 0 /\ angular_diameter_distance (fun z => z) 2 <> 0 /\ angular_diameter_distance_z1z2 (fun z => z) 1 2 <> 0 /\
  angular_diameter_distance (fun z => z) 3 <> 0 /\ angular_diameter_distance_z1z2 (fun z => z) 1 3 <> 0.
Proof. unfold angular_diameter_distance_z1z2, angular_diameter_distance, comoving_distance_z1z2. lra. Qed.
