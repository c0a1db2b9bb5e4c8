(** * C57: the enclosed mass lens *)
From Coq Require Import Reals Lra.
From Coquelicot Require Import Coquelicot.
From Verif Require Import Py Const_Model Cosmo_Model Lens_Spec EncMass_Model EncMass_Proofs.
Local Open Scope R_scope.

(** C57 fails: the code's deflection of a circular lens (q = 1) is 4 G M(r) / r^2 instead of 4 G M(r) / r.  For a constant mass half its
    divergence is not the reported convergence, anywhere off the centre, *)
Theorem C57_divergence_refuted : forall dc z_s z_l x0 y0 phi (M : R -> R), 0 < angular_diameter_distance dc z_s -> 0 < angular_diameter_distance_z1z2 dc z_l z_s ->
  forall x y, x <> x0 \/ y <> y0 -> forall m, (forall r, M r = m) -> m <> 0 ->
  ~ convergence_is_half_divergence (enclosed_mass_reduced_deflection_angle dc z_s z_l x0 y0 1 phi M 0) (enclosed_mass_convergence dc z_s z_l x0 y0 1 phi M 0) x y.
Proof. exact circ_constant. Qed.
Print Assumptions C57_divergence_refuted.
(** and twice as far away the deflection is not half as large, *)
Theorem C57_fall_off_refuted : forall dc z_s z_l x0 y0 phi (M : R -> R) m, 0 < angular_diameter_distance dc z_s -> 0 < angular_diameter_distance_z1z2 dc z_l z_s -> (forall r, M r = m) -> m <> 0 ->
  forall dx dy, dx <> 0 \/ dy <> 0 ->
  enclosed_mass_reduced_deflection_angle dc z_s z_l x0 y0 1 phi M 0 (x0 + 2 * dx) (y0 + 2 * dy) <>
  (let '(ax, ay) := enclosed_mass_reduced_deflection_angle dc z_s z_l x0 y0 1 phi M 0 (x0 + dx) (y0 + dy) in (ax / 2, ay / 2)).
Proof. exact circ_not_half. Qed.
Print Assumptions C57_fall_off_refuted.
(** but a quarter. *)
Theorem C57_fall_off_partial : forall dc z_s z_l x0 y0 phi (M : R -> R) m dx dy, (forall r, M r = m) -> dx <> 0 \/ dy <> 0 ->
  enclosed_mass_reduced_deflection_angle dc z_s z_l x0 y0 1 phi M 0 (x0 + 2 * dx) (y0 + 2 * dy) =
  (let '(ax, ay) := enclosed_mass_reduced_deflection_angle dc z_s z_l x0 y0 1 phi M 0 (x0 + dx) (y0 + dy) in (ax / 4, ay / 4)).
Proof. exact circ_fall_off. Qed.
Print Assumptions C57_fall_off_partial.
(** What the divergence is for any differentiable mass function. *)
Theorem C57_divergence_partial : forall dc z_s z_l x0 y0 phi (M : R -> R), 0 < angular_diameter_distance dc z_s ->
  forall x y, x <> x0 \/ y <> y0 -> forall dM, let r := sqrt ((x - x0) ^ 2 + (y - y0) ^ 2) in is_derive M r dM ->
  convergence_is_half_divergence (enclosed_mass_reduced_deflection_angle dc z_s z_l x0 y0 1 phi M 0)
    (fun _ _ => angular_diameter_distance_z1z2 dc z_l z_s / angular_diameter_distance dc z_s * (2 * G_over_c2 * (dM / r ^ 2 - M r / r ^ 3))) x y.
Proof. exact circ_divergence. Qed.
Print Assumptions C57_divergence_partial.
(** The convergence is right: along every ray from the centre, its surface density integrates over rings to the mass the user gave. *)
Theorem C57_convergence_mass_partial : forall dc z_s z_l x0 y0 phi (M dM : R -> R) a b t, 0 < angular_diameter_distance dc z_l -> 0 < angular_diameter_distance dc z_s -> 0 < angular_diameter_distance_z1z2 dc z_l z_s ->
  0 < a < b -> (forall r, a <= r <= b -> is_derive M r (dM r)) -> (forall r, a <= r <= b -> continuous dM r) ->
  is_RInt (V := R_NormedModule) (fun r => 2 * PI * r * (critical_surface_density dc z_l z_s * enclosed_mass_convergence dc z_s z_l x0 y0 1 phi M 0 (x0 + r * cos t) (y0 + r * sin t))) a b (M b - M a).
Proof. exact circ_mass. Qed.
Print Assumptions C57_convergence_mass_partial.
Theorem C57_potential_refused_partial : forall x y, enclosed_mass_potential x y = Raise NotImplementedError.
Proof. reflexivity. Qed.
Print Assumptions C57_potential_refused_partial.
Example C57_hyps : let dc := fun z : R => z in
  0 < angular_diameter_distance dc (1 / 2) /\ 0 < angular_diameter_distance dc 1 /\ 0 < angular_diameter_distance_z1z2 dc (1 / 2) 1 /\ (forall r : R, is_derive (fun r : R => r ^ 2) r (2 * r)) /\ 1 <> 0.
Proof.
  cbv zeta. unfold angular_diameter_distance, angular_diameter_distance_z1z2, comoving_distance_z1z2. split; [lra|]. split; [lra|]. split; [lra|]. split; [|lra]. intros r. auto_derive; trivial. ring.
Qed.
