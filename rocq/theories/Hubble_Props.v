(** * C108: the Hubble constant *)
From Coq Require Import Reals List Lra.
From Verif Require Import Py Const_Model Cosmo_Model CosmoTable_Model LensBase_Model LensBasic_Model Multiplane_Model Jaffe_Model Nfw_Model Tnfw_Model Hubble_Spec Hubble_Proofs.
Import ListNotations.
Local Open Scope R_scope.

(** multiplying h0 of FlatLambdaCDM by k divides every distance by k; multiplying its critical_density_0 by k^2 does so to every density *)
Theorem C108_flat_distance : forall helper Om0 h0 k, 0 < h0 -> 0 < k ->
  k_times_nearer k (fun z => comoving_distance_flat helper z h0 Om0) (fun z => comoving_distance_flat helper z (k * h0) Om0).
Proof. exact flat_nearer. Qed.
Print Assumptions C108_flat_distance.
Theorem C108_flat_density : forall Om0 rho0 k, denser k (fun z => critical_density z rho0 Om0) (fun z => critical_density z (k ^ 2 * rho0) Om0).
Proof. exact flat_denser. Qed.
Print Assumptions C108_flat_density.
(** derived distances, in any cosmology *)
Theorem C108_distances : forall k dc dc', 0 < k -> k_times_nearer k dc dc' -> forall z1 z2,
  angular_diameter_distance dc z1 <> 0 -> angular_diameter_distance_z1z2 dc z1 z2 <> 0 ->
  angular_diameter_distance dc' z1 = angular_diameter_distance dc z1 / k /\
  angular_diameter_distance_z1z2 dc' z1 z2 = angular_diameter_distance_z1z2 dc z1 z2 / k /\
  time_delay_distance dc' z1 z2 = time_delay_distance dc z1 z2 / k /\
  critical_surface_density dc' z1 z2 = k * critical_surface_density dc z1 z2.
Proof. intros k dc dc' K H z1 z2 H1 H2. repeat split; [apply near_d | apply near_d2 | apply near_tdd | apply near_sigma]; assumption. Qed.
Print Assumptions C108_distances.
(** a lens whose reduced deflection is given in angles: the physical deflection is the same, the surface density k times larger, time delays k times shorter *)
Theorem C108_one_plane : forall k dc dc', 0 < k -> k_times_nearer k dc dc' -> forall lens z_s x y,
  angular_diameter_distance dc (z_l lens) <> 0 -> angular_diameter_distance_z1z2 dc (z_l lens) z_s <> 0 ->
  physical_deflection_angle dc' lens z_s x y = physical_deflection_angle dc lens z_s x y /\
  surface_density dc' lens z_s x y = k * surface_density dc lens z_s x y /\
  forall shapiro geometric, time_delay dc' lens z_s x y shapiro geometric = time_delay dc lens z_s x y shapiro geometric / k.
Proof. intros k dc dc' K H lens z_s x y H1 H2. repeat split; [apply (near_physical k) | apply near_surface | intros; apply near_delay]; assumption. Qed.
Print Assumptions C108_one_plane.
(** several planes, in any order and number: the same rays (and the same errors), time delays k times shorter *)
Theorem C108_rays : forall k dc dc', 0 < k -> k_times_nearer k dc dc' -> forall tcd tcd' lenses z_s, k_times_nearer k tcd tcd' ->
  Forall (fun l => tcd (z_l l) <> 0 /\ angular_diameter_distance_z1z2 dc (z_l l) z_s <> 0) lenses -> tcd z_s <> 0 -> forall x y,
  multiplane_raytrace dc' tcd' lenses z_s x y = multiplane_raytrace dc tcd lenses z_s x y.
Proof. exact near_rays. Qed.
Print Assumptions C108_rays.
Theorem C108_delays : forall k dc dc', 0 < k -> k_times_nearer k dc dc' -> forall tcd tcd' lenses z_s, k_times_nearer k tcd tcd' ->
  Forall (fun l => tcd (z_l l) <> 0 /\ angular_diameter_distance_z1z2 dc (z_l l) z_s <> 0) lenses -> tcd z_s <> 0 -> forall x y shapiro geometric,
  multiplane_time_delay dc' tcd' lenses z_s x y shapiro geometric =
  bind (multiplane_time_delay dc tcd lenses z_s x y shapiro geometric) (fun t => Ok (option_map (fun t => t / k) t)).
Proof. exact near_delays. Qed.
Print Assumptions C108_delays.
(** lenses given by a mass: only mass times h0 matters *)
Theorem C108_point : forall k, 0 < k -> forall M dls dl ds, dl <> 0 -> ds <> 0 -> mass_to_rein_point (M / k) (dls / k) (dl / k) (ds / k) = mass_to_rein_point M dls dl ds.
Proof. exact near_point. Qed.
Print Assumptions C108_point.
Theorem C108_pseudo_jaffe : forall k dc dc', 0 < k -> k_times_nearer k dc dc' -> forall z_s z_l x0 y0 mass Rc Rs x y,
  angular_diameter_distance dc z_l <> 0 -> angular_diameter_distance dc z_s <> 0 -> angular_diameter_distance_z1z2 dc z_l z_s <> 0 ->
  jaffe_reduced_deflection_angle dc' z_s z_l x0 y0 (mass / k) Rc Rs x y = jaffe_reduced_deflection_angle dc z_s z_l x0 y0 mass Rc Rs x y /\
  jaffe_potential dc' z_s z_l x0 y0 (mass / k) Rc Rs x y = jaffe_potential dc z_s z_l x0 y0 mass Rc Rs x y /\
  jaffe_convergence dc' z_s z_l x0 y0 (mass / k) Rc Rs x y = jaffe_convergence dc z_s z_l x0 y0 mass Rc Rs x y.
Proof. exact near_jaffe. Qed.
Print Assumptions C108_pseudo_jaffe.
(** the halos need the critical density to follow h0 *)
Theorem C108_nfw : forall k dc dc', 0 < k -> k_times_nearer k dc dc' -> forall cd cd', denser k cd cd' -> forall z_s z_l x0 y0 mass c s x y,
  0 < mass -> 0 < c -> 0 < cd z_l -> angular_diameter_distance dc z_l <> 0 -> angular_diameter_distance dc z_s <> 0 -> angular_diameter_distance_z1z2 dc z_l z_s <> 0 ->
  nfw_get_scale_radius cd' z_l (mass / k) c = nfw_get_scale_radius cd z_l mass c / k /\
  nfw_reduced_deflection_angle dc' cd' z_s z_l x0 y0 (mass / k) c s x y = nfw_reduced_deflection_angle dc cd z_s z_l x0 y0 mass c s x y /\
  nfw_potential dc' cd' z_s z_l x0 y0 (mass / k) c s x y = nfw_potential dc cd z_s z_l x0 y0 mass c s x y /\
  nfw_convergence dc' cd' z_s z_l x0 y0 (mass / k) c s x y = nfw_convergence dc cd z_s z_l x0 y0 mass c s x y.
Proof. exact near_nfw. Qed.
Print Assumptions C108_nfw.
Theorem C108_tnfw : forall k dc dc', 0 < k -> k_times_nearer k dc dc' -> forall cd cd', denser k cd cd' -> forall tot z_s z_l x0 y0 mass Rs tau s x y,
  0 < mass -> 0 < cd z_l -> 0 < Rs -> angular_diameter_distance dc z_l <> 0 -> angular_diameter_distance dc z_s <> 0 -> angular_diameter_distance_z1z2 dc z_l z_s <> 0 ->
  tnfw_reduced_deflection_angle dc' cd' tot z_s z_l x0 y0 (mass / k) Rs tau s x y = tnfw_reduced_deflection_angle dc cd tot z_s z_l x0 y0 mass Rs tau s x y /\
  tnfw_potential dc' cd' tot z_s z_l x0 y0 (mass / k) Rs tau s x y = tnfw_potential dc cd tot z_s z_l x0 y0 mass Rs tau s x y /\
  tnfw_convergence dc' cd' tot z_s z_l x0 y0 (mass / k) Rs tau s x y = tnfw_convergence dc cd tot z_s z_l x0 y0 mass Rs tau s x y.
Proof. exact near_tnfw. Qed.
Print Assumptions C108_tnfw.
(** distances growing with redshift, with h0 doubled, and two lens planes *)
Example C108_hyps : let dc := fun z : R => 3000 * z in let dc' := fun z : R => 1500 * z in
  k_times_nearer 2 dc dc' /\ denser 2 (fun z => 1 + z) (fun z => 4 + 4 * z) /\
  Forall (fun l => dc (z_l l) <> 0 /\ angular_diameter_distance_z1z2 dc (z_l l) 1 <> 0)
    [ThinLens (1 / 2) (fun x y => (x / 3, y / 3)) (fun x y => (x * x + y * y) / 6) (fun _ _ => 1 / 3); ThinLens (1 / 4) (fun x y => (y, x)) (fun x y => x * y) (fun _ _ => 0)] /\ dc 1 <> 0.
Proof.
  cbv zeta. unfold angular_diameter_distance_z1z2, comoving_distance_z1z2. split; [intros z; field|]. split; [intros z; ring|]. split; [|lra].
  repeat constructor; cbn [z_l]; lra.
Qed.
