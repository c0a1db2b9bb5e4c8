(** * C134: the images and the Einstein rings of round lenses *)
From Coq Require Import Reals Lra Lia.
From Verif Require Import Py Const_Model Cosmo_Model LensBase_Model LensBasic_Model Epl_Model Epl_Spec Jaffe_Model Nfw_Model Ring_Spec Ring_Proofs Ring2_Proofs Ring3_Proofs.
Local Open Scope R_scope.

(** The softening shrinks the ring; with s >= Rein there is none, and every source has a single image. *)
Theorem C134_sis : forall x0 y0 Rein s, 0 < Rein -> 0 <= s -> one_outside (reduced_deflection_angle_sis x0 y0 Rein s) x0 y0 (Rmax 0 (Rein - s)).
Proof. exact sis_one_outside. Qed.
Print Assumptions C134_sis.
Theorem C134_sis_ring : forall x0 y0 Rein s, 0 < Rein -> 0 <= s -> s < Rein -> einstein_ring (reduced_deflection_angle_sis x0 y0 Rein s) x0 y0 (Rein - s).
Proof. exact sis_ring. Qed.
Print Assumptions C134_sis_ring.
Theorem C134_point : forall x0 y0 Rein s, 0 < Rein -> 0 <= s -> one_outside (reduced_deflection_angle_point x0 y0 Rein s) x0 y0 (Rmax 0 (Rein - s)).
Proof. exact point_one_outside. Qed.
Print Assumptions C134_point.
Theorem C134_point_ring : forall x0 y0 Rein s, 0 < Rein -> 0 <= s -> s < Rein -> einstein_ring (reduced_deflection_angle_point x0 y0 Rein s) x0 y0 (Rein - s).
Proof. exact point_ring. Qed.
Print Assumptions C134_point_ring.
(** A round power law: Rein is the radius of the ring, for every slope. *)
Theorem C134_epl : forall x0 y0 phi Rein t n c, 0 < Rein -> 0 < t < 2 -> (1 <= n)%nat -> good_chunk n c ->
  exists a, (forall x y, reduced_deflection_angle_epl x0 y0 1 phi Rein t n c x y = Ok (a x y)) /\ einstein_ring a x0 y0 Rein /\ one_outside a x0 y0 Rein.
Proof. exact epl_round. Qed.
Print Assumptions C134_epl.
(** A pseudo Jaffe lens has a ring exactly when its convergence at the centre exceeds one. *)
Theorem C134_pseudo_jaffe_weak : forall x0 y0 mass Rc Rs d_l sigma, 0 < mass -> 0 < Rc -> 0 < Rs -> Rc <> Rs -> 0 < d_l -> 0 < sigma ->
  convergence_pseudo_jaffe x0 y0 mass Rc Rs x0 y0 d_l sigma 0 <= 1 -> one_outside (fun x y => reduced_deflection_angle_pseudo_jaffe x0 y0 mass Rc Rs x y d_l sigma 0) x0 y0 0.
Proof. exact jaffe_weak. Qed.
Print Assumptions C134_pseudo_jaffe_weak.
Theorem C134_pseudo_jaffe_strong : forall x0 y0 mass Rc Rs d_l sigma, 0 < mass -> 0 < Rc -> 0 < Rs -> Rc <> Rs -> 0 < d_l -> 0 < sigma ->
  1 < convergence_pseudo_jaffe x0 y0 mass Rc Rs x0 y0 d_l sigma 0 ->
  exists E, einstein_ring (fun x y => reduced_deflection_angle_pseudo_jaffe x0 y0 mass Rc Rs x y d_l sigma 0) x0 y0 E /\ one_outside (fun x y => reduced_deflection_angle_pseudo_jaffe x0 y0 mass Rc Rs x y d_l sigma 0) x0 y0 E.
Proof. exact jaffe_strong. Qed.
Print Assumptions C134_pseudo_jaffe_strong.
(** An NFW halo, however light, has exactly one ring, inside its scale radius. *)
Theorem C134_nfw_ring : forall dc cd z_s z_l x0 y0 mass c, 0 < cd z_l -> 0 < c -> 0 < angular_diameter_distance dc z_l -> 0 < angular_diameter_distance dc z_s -> 0 < angular_diameter_distance_z1z2 dc z_l z_s ->
  convergence_s_nfw (critical_surface_density dc z_l z_s) (cd z_l) mass c DELTA <= 1 / 2 ->
  exists E, angular_diameter_distance dc z_l * E * arcsec_to_rad < nfw_get_scale_radius cd z_l mass c /\ einstein_ring (nfw_reduced_deflection_angle dc cd z_s z_l x0 y0 mass c 0) x0 y0 E.
Proof. exact nfw_ring. Qed.
Print Assumptions C134_nfw_ring.

Example C134_hyps : (0 < 2 /\ 0 <= 1 / 2 < 2 /\ 0 < 3 / 2 < 2 /\ good_chunk 5 None) /\ off 0 0 (1, 2) /\
  (let dc := fun z => 1000 * z in 0 < angular_diameter_distance dc (1 / 2) /\ 0 < angular_diameter_distance dc 1 /\ 0 < angular_diameter_distance_z1z2 dc (1 / 2) 1) /\
  (forall sigma rho c, 0 < sigma -> 0 < rho -> 0 < c -> exists mass, 0 < mass /\ convergence_s_nfw sigma rho mass c DELTA <= 1 / 2).
Proof.
  split; [|split; [|split]].
  - repeat split; try lra.
  - left. cbn. lra.
  - cbv zeta. unfold angular_diameter_distance, angular_diameter_distance_z1z2, comoving_distance_z1z2. repeat split; lra.
  - exact light_halo.
Qed.
