(** * C102: from outside, a halo of finite mass is a point mass *)
From Coq Require Import Reals Lra.
From Coquelicot Require Import Coquelicot.
From Verif Require Import Cosmo_Model Jaffe_Model Tnfw_Model Far_Spec Far_Proofs.
Local Open Scope R_scope.

(** The deflection is, at every distance, that of a Point lens with the mass the lens reports within that distance. *)
Theorem C102_pseudo_jaffe_enclosed : forall dc z_s z_l x0 y0, 0 < angular_diameter_distance dc z_l -> 0 < angular_diameter_distance dc z_s -> 0 < angular_diameter_distance_z1z2 dc z_l z_s ->
  forall mass Rc Rs, 0 < Rc -> 0 < Rs -> Rc <> Rs -> forall x y, 0 <= mass -> x <> x0 \/ y <> y0 ->
  jaffe_reduced_deflection_angle dc z_s z_l x0 y0 mass Rc Rs x y = point_of_mass dc z_s z_l x0 y0 (jaffe_mass_enclosed_2d (dist_to x0 y0 x y) mass Rc Rs) x y.
Proof. exact jaffe_shell. Qed.
Print Assumptions C102_pseudo_jaffe_enclosed.
Theorem C102_tnfw_enclosed : forall dc z_s z_l x0 y0, 0 < angular_diameter_distance dc z_l -> 0 < angular_diameter_distance dc z_s -> 0 < angular_diameter_distance_z1z2 dc z_l z_s ->
  forall cd tot mass Rs tau x y, x <> x0 \/ y <> y0 -> let m := tnfw_mass_enclosed_2d dc cd tot z_l mass (dist_to x0 y0 x y) Rs tau in 0 <= m ->
  tnfw_reduced_deflection_angle dc cd tot z_s z_l x0 y0 mass Rs tau 0 x y = point_of_mass dc z_s z_l x0 y0 m x y.
Proof. exact tnfw_shell. Qed.
Print Assumptions C102_tnfw_enclosed.
(** Far away it is that of a Point lens with the lens's mass; the potentials differ by a constant, which is zero for PseudoJaffe. *)
Theorem C102_pseudo_jaffe_far : forall dc z_s z_l x0 y0, 0 < angular_diameter_distance dc z_l -> 0 < angular_diameter_distance dc z_s -> 0 < angular_diameter_distance_z1z2 dc z_l z_s ->
  forall mass Rc Rs, 0 < Rc -> 0 < Rs -> Rc <> Rs -> 0 <= mass ->
  same_far_deflection x0 y0 (jaffe_reduced_deflection_angle dc z_s z_l x0 y0 mass Rc Rs) (point_of_mass dc z_s z_l x0 y0 mass).
Proof. exact jaffe_far. Qed.
Print Assumptions C102_pseudo_jaffe_far.
Theorem C102_pseudo_jaffe_potential : forall dc z_s z_l x0 y0, 0 < angular_diameter_distance dc z_l -> 0 < angular_diameter_distance dc z_s -> 0 < angular_diameter_distance_z1z2 dc z_l z_s ->
  forall mass Rc Rs, 0 < Rc -> 0 < Rs -> Rc <> Rs -> 0 <= mass ->
  far_potential_offset x0 y0 (jaffe_potential dc z_s z_l x0 y0 mass Rc Rs) (point_potential_of_mass dc z_s z_l x0 y0 mass) 0.
Proof. exact jaffe_pot_far. Qed.
Print Assumptions C102_pseudo_jaffe_potential.
Theorem C102_tnfw_far : forall dc z_s z_l x0 y0, 0 < angular_diameter_distance dc z_l -> 0 < angular_diameter_distance dc z_s -> 0 < angular_diameter_distance_z1z2 dc z_l z_s ->
  forall cd mass Rs tau, 0 <= mass -> 0 < Rs -> 0 < tau ->
  same_far_deflection x0 y0 (tnfw_reduced_deflection_angle dc cd true z_s z_l x0 y0 mass Rs tau 0) (point_of_mass dc z_s z_l x0 y0 mass).
Proof. exact tnfw_far. Qed.
Print Assumptions C102_tnfw_far.
Theorem C102_tnfw_potential : forall dc z_s z_l x0 y0, 0 < angular_diameter_distance dc z_l -> 0 < angular_diameter_distance dc z_s -> 0 < angular_diameter_distance_z1z2 dc z_l z_s ->
  forall cd mass Rs tau, 0 <= mass -> 0 < Rs -> 0 < tau ->
  exists c, far_potential_offset x0 y0 (tnfw_potential dc cd true z_s z_l x0 y0 mass Rs tau 0) (point_potential_of_mass dc z_s z_l x0 y0 mass) c.
Proof. exact tnfw_pot_far. Qed.
Print Assumptions C102_tnfw_potential.
Example C102_hyps : let dc := fun z : R => z in 0 < angular_diameter_distance dc (1 / 2) /\ 0 < angular_diameter_distance dc 1 /\ 0 < angular_diameter_distance_z1z2 dc (1 / 2) 1 /\
  0 < 1 /\ 1 <> 2 /\ (3 <> 0 \/ 4 <> 0) /\ (forall cd : R -> R, exists r, 0 <= tnfw_mass_enclosed_2d dc cd true (1 / 2) 1 r 1 3).
Proof.
  cbv zeta. unfold angular_diameter_distance, angular_diameter_distance_z1z2, comoving_distance_z1z2. repeat split; try lra.
  intros cd. assert (L := proj1 (Tnfw4_Proofs.class_total (fun z : R => z) cd (1 / 2) 1 1 3 ltac:(lra) ltac:(lra))). apply is_lim_spec in L. destruct (L (mkposreal 1 Rlt_0_1)) as [b Hb]. cbn in Hb.
  exists (b + 1). specialize (Hb (b + 1) ltac:(lra)). apply Rabs_def2 in Hb. lra.
Qed.
