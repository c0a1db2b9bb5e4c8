(** * Properties of the basic lens profiles (C41-C47). *)
From Coq Require Import Reals Lra.
From Coquelicot Require Import Coquelicot.
From Verif Require Import Calc2 RealFun Geo_Model Const_Model Cosmo_Model Lens_Spec
  LensBasic_Model LensBasic_Proofs LensBasic2_Proofs.
Open Scope R_scope.

(** ** C41: Point lens, mass and Einstein radius *)
Theorem C41_mass_to_rein_to_mass : forall M d_ls d_l d_s,
  0 <= M -> 0 < d_ls -> 0 < d_l -> 0 < d_s ->
  rein_to_mass_point (mass_to_rein_point M d_ls d_l d_s) d_ls d_l d_s = M.
Proof. exact mass_rein_point. Qed.
Print Assumptions C41_mass_to_rein_to_mass.

Theorem C41_rein_to_mass_to_rein : forall r d_ls d_l d_s,
  0 <= r -> 0 < d_ls -> 0 < d_l -> 0 < d_s ->
  mass_to_rein_point (rein_to_mass_point r d_ls d_l d_s) d_ls d_l d_s = r.
Proof. exact rein_mass_point. Qed.
Print Assumptions C41_rein_to_mass_to_rein.

(** mass inside the Einstein radius = pi (Rein D_l)^2 Sigma_cr, for any cosmology *)
Theorem C41_einstein_mass : forall (comoving_distance : R -> R) Rein z_l z_s,
  0 < 1 + z_l -> 0 < 1 + z_s -> 0 < comoving_distance z_l ->
  comoving_distance z_l < comoving_distance z_s ->
  let d_l := angular_diameter_distance comoving_distance z_l in
  let d_s := angular_diameter_distance comoving_distance z_s in
  let d_ls := angular_diameter_distance_z1z2 comoving_distance z_l z_s in
  rein_to_mass_point Rein d_ls d_l d_s
  = PI * (Rein * arcsec_to_rad * d_l) ^ 2 * critical_surface_density comoving_distance z_l z_s.
Proof. exact einstein_mass_point. Qed.
Print Assumptions C41_einstein_mass.

Example C41_hyps : 0 <= 5 /\ 0 < 1 + 1 /\ 0 < 1 + 2 /\ (fun z => 3 * z) 1 < (fun z => 3 * z) 2.
Proof. lra. Qed.

(** ** C42: MassSheet and ExternalShear *)
Theorem C42_mass_sheet : forall x0 y0 kappa x y,
  lens_consistent (potential_mass_sheet x0 y0 kappa)
    (reduced_deflection_angle_mass_sheet x0 y0 kappa) (fun u _ => convergence_mass_sheet kappa u) x y.
Proof. exact mass_sheet_consistent. Qed.
Print Assumptions C42_mass_sheet.

Theorem C42_mass_sheet_raytrace : forall x0 y0 kappa x y,
  let a := reduced_deflection_angle_mass_sheet x0 y0 kappa x y in
  (x - fst a, y - snd a) = (x0 + (1 - kappa) * (x - x0), y0 + (1 - kappa) * (y - y0)).
Proof. exact mass_sheet_raytrace. Qed.
Print Assumptions C42_mass_sheet_raytrace.

Theorem C42_external_shear : forall x0 y0 gamma_1 gamma_2 x y,
  lens_consistent (potential_external_shear x0 y0 gamma_1 gamma_2)
    (reduced_deflection_angle_external_shear x0 y0 gamma_1 gamma_2) convergence_external_shear x y.
Proof. exact external_shear_consistent. Qed.
Print Assumptions C42_external_shear.

(** angular parameters: the shear gamma along the axis at angle phi *)
Theorem C42_external_shear_angular : forall x0 y0 gamma phi x y,
  reduced_deflection_angle_external_shear x0 y0
    (gamma_phi_to_gamma1 gamma phi) (gamma_phi_to_gamma2 gamma phi) x y
  = (let '(a, b) := translate_rotate x y x0 y0 (Some phi) in
     derotate (gamma * a) (- gamma * b) (Some phi)).
Proof. exact external_shear_rotation. Qed.
Print Assumptions C42_external_shear_angular.

(** ** C43: SIS (no softening) *)
Theorem C43_sis : forall x0 y0 Rein x y, (x <> x0 \/ y <> y0) ->
  lens_consistent (potential_sis x0 y0 Rein 0) (reduced_deflection_angle_sis x0 y0 Rein 0)
    (convergence_sis x0 y0 Rein 0) x y.
Proof. exact sis_consistent. Qed.
Print Assumptions C43_sis.

Theorem C43_sis_deflection_length : forall x0 y0 Rein x y,
  (x <> x0 \/ y <> y0) -> 0 <= Rein ->
  let a := reduced_deflection_angle_sis x0 y0 Rein 0 x y in
  sqrt (fst a ^ 2 + snd a ^ 2) = Rein.
Proof. exact sis_deflection_norm. Qed.
Print Assumptions C43_sis_deflection_length.

Example C43_hyps : (3 <> 1 \/ 2 <> 2) /\ 0 <= 1.2.
Proof. lra. Qed.

(** ** C44: Point (no softening); None is an infinite convergence *)
Theorem C44_point : forall x0 y0 Rein x y k,
  convergence_point x0 y0 x y = Some k ->
  lens_consistent (potential_point x0 y0 Rein 0) (reduced_deflection_angle_point x0 y0 Rein 0)
    (fun _ _ => k) x y.
Proof. exact point_consistent. Qed.
Print Assumptions C44_point.

Theorem C44_point_infinite_only_at_centre : forall x0 y0 x y,
  convergence_point x0 y0 x y = None <-> (x = x0 /\ y = y0).
Proof. exact convergence_point_centre. Qed.
Print Assumptions C44_point_infinite_only_at_centre.

Theorem C44_point_ring : forall x0 y0 Rein x y,
  0 < Rein -> sqrt ((x - x0) ^ 2 + (y - y0) ^ 2) = Rein ->
  let a := reduced_deflection_angle_point x0 y0 Rein 0 x y in
  (x - fst a, y - snd a) = (x0, y0).
Proof. exact point_ring. Qed.
Print Assumptions C44_point_ring.

Example C44_hyps : convergence_point 1 2 3 2 = Some 0 /\ sqrt ((4 - 1) ^ 2 + (6 - 2) ^ 2) = 5.
Proof.
  split.
  - unfold convergence_point, translate_rotate. destruct (Req_EM_T (3 - 1) 0); [exfalso; lra|reflexivity].
  - replace ((4 - 1) ^ 2 + (6 - 2) ^ 2) with (5 ^ 2) by ring. apply sqrt_pow2; lra.
Qed.

(** ** C45: with softening the statements of C43 and C44 fail, at every point off the centre *)
Theorem C45_softened_sis_gradient_refuted : forall x0 y0 Rein s x y,
  0 < s -> Rein <> 0 -> (x <> x0 \/ y <> y0) ->
  ~ deflection_is_gradient (potential_sis x0 y0 Rein s) (reduced_deflection_angle_sis x0 y0 Rein s) x y.
Proof. exact softened_sis_not_gradient. Qed.
Print Assumptions C45_softened_sis_gradient_refuted.

Theorem C45_softened_sis_convergence_refuted : forall x0 y0 Rein s x y,
  0 < s -> Rein <> 0 -> (x <> x0 \/ y <> y0) ->
  ~ convergence_is_half_divergence (reduced_deflection_angle_sis x0 y0 Rein s)
      (convergence_sis x0 y0 Rein s) x y.
Proof. exact softened_sis_wrong_convergence. Qed.
Print Assumptions C45_softened_sis_convergence_refuted.

Theorem C45_softened_point_gradient_refuted : forall x0 y0 Rein s x y,
  0 < s -> Rein <> 0 -> (x <> x0 \/ y <> y0) ->
  ~ deflection_is_gradient (potential_point x0 y0 Rein s) (reduced_deflection_angle_point x0 y0 Rein s) x y.
Proof. exact softened_point_not_gradient. Qed.
Print Assumptions C45_softened_point_gradient_refuted.

Theorem C45_softened_point_convergence_refuted : forall x0 y0 Rein s x y k,
  0 < s -> Rein <> 0 -> convergence_point x0 y0 x y = Some k ->
  ~ convergence_is_half_divergence (reduced_deflection_angle_point x0 y0 Rein s) (fun _ _ => k) x y.
Proof. exact softened_point_wrong_convergence. Qed.
Print Assumptions C45_softened_point_convergence_refuted.

(** the witness in existential form *)
Theorem C45_refuted : exists x0 y0 Rein s x y, 0 < s /\ (x <> x0 \/ y <> y0) /\
  ~ deflection_is_gradient (potential_sis x0 y0 Rein s) (reduced_deflection_angle_sis x0 y0 Rein s) x y.
Proof.
  exists 0, 0, 1, 1, 1, 0. split; [lra|split; [left; lra|]].
  apply softened_sis_not_gradient; [lra|lra|left; lra].
Qed.
Print Assumptions C45_refuted.

(** ** C46: SIE *)
Theorem C46_sie : forall x0 y0 q phi Rein s x y,
  0 < q < 1 -> (s = 0 \/ 1 / 10 ^ 6 <= s) -> (x <> x0 \/ y <> y0 \/ 0 < s) ->
  lens_consistent (potential_sie x0 y0 q phi Rein s) (reduced_deflection_angle_sie x0 y0 q phi Rein s)
    (convergence_sie x0 y0 q phi Rein s) x y.
Proof. exact sie_consistent. Qed.
Print Assumptions C46_sie.

Example C46_hyps : 0 < 0.7 < 1 /\ 1 / 10 ^ 6 <= 0.1 /\ (1 <> 0 \/ 0 <> 0 \/ 0 < 0.1).
Proof. lra. Qed.

(** ** C47: SIE symmetries, contours, velocity dispersion *)
Theorem C47_isodensity_ellipses : forall x0 y0 q phi Rein s x y x' y',
  0 < q -> 0 < Rein -> (x <> x0 \/ y <> y0) -> (x' <> x0 \/ y' <> y0) ->
  (convergence_sie x0 y0 q phi Rein s x y = convergence_sie x0 y0 q phi Rein s x' y' <->
   (let '(a, b) := translate_rotate x y x0 y0 (Some phi) in
    let '(a', b') := translate_rotate x' y' x0 y0 (Some phi) in
    a ^ 2 + (b / q) ^ 2 = a' ^ 2 + (b' / q) ^ 2)).
Proof. exact sie_isodensity. Qed.
Print Assumptions C47_isodensity_ellipses.

Theorem C47_half_contour : forall x0 y0 q phi Rein x y,
  0 < q -> 0 < Rein -> (x <> x0 \/ y <> y0) ->
  (convergence_sie x0 y0 q phi Rein 0 x y = 1 / 2 <->
   (let '(a, b) := translate_rotate x y x0 y0 (Some phi) in
    (a / (Rein / sqrt q)) ^ 2 + (b / (Rein * sqrt q)) ^ 2 = 1)).
Proof. exact sie_half_contour. Qed.
Print Assumptions C47_half_contour.

Theorem C47_homogeneous : forall x0 y0 q phi Rein k x y,
  0 < q <= 1 -> 0 < k -> (x <> x0 \/ y <> y0) ->
  reduced_deflection_angle_sie x0 y0 q phi Rein 0 (x0 + k * (x - x0)) (y0 + k * (y - y0))
  = reduced_deflection_angle_sie x0 y0 q phi Rein 0 x y.
Proof. exact sie_homogeneous. Qed.
Print Assumptions C47_homogeneous.

Theorem C47_potential_euler : forall x0 y0 q phi Rein x y,
  let a := reduced_deflection_angle_sie x0 y0 q phi Rein 0 x y in
  potential_sie x0 y0 q phi Rein 0 x y = (x - x0) * fst a + (y - y0) * snd a.
Proof. exact sie_potential_euler. Qed.
Print Assumptions C47_potential_euler.

Theorem C47_half_turn : forall x0 y0 q phi Rein s x y,
  0 < q <= 1 -> 0 <= s -> (x <> x0 \/ y <> y0 \/ 0 < s) ->
  reduced_deflection_angle_sie x0 y0 q (phi + PI) Rein s x y
    = reduced_deflection_angle_sie x0 y0 q phi Rein s x y /\
  potential_sie x0 y0 q (phi + PI) Rein s x y = potential_sie x0 y0 q phi Rein s x y /\
  convergence_sie x0 y0 q (phi + PI) Rein s x y = convergence_sie x0 y0 q phi Rein s x y.
Proof.
  exact (fun x0 y0 q phi Rein s x y Hq Hs H =>
    conj (sie_deflection_phi_pi x0 y0 q phi Rein s x y Hq Hs H)
    (conj (sie_potential_phi_pi x0 y0 q phi Rein s x y Hq Hs H)
          (sie_convergence_phi_pi x0 y0 q phi Rein s x y))).
Qed.
Print Assumptions C47_half_turn.

Theorem C47_velocity_dispersion : forall sigma k dls ds, ds <> 0 ->
  sigma_v_to_rein_sie (k * sigma) dls ds = k ^ 2 * sigma_v_to_rein_sie sigma dls ds /\
  arcsec_to_rad * sigma_v_to_rein_sie sigma dls ds = 4 * PI * (sigma / c_km_s) ^ 2 * (dls / ds).
Proof. exact sigma_v_law. Qed.
Print Assumptions C47_velocity_dispersion.

Example C47_hyps : 0 < 0.7 <= 1 /\ 0 < 2 /\ (1 <> 0 \/ 0 <> 0) /\ 1000 <> 0.
Proof. lra. Qed.
