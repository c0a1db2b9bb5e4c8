(** * C103: textbook time delays *)
From Coq Require Import Reals Lra.
From Verif Require Import Py Cosmo_Model LensBase_Model LensBasic_Model Lens_Lib Epl_Model Epl_Spec Epl3_Proofs Epl4_Proofs Delay_Spec Delay_Proofs.
Local Open Scope R_scope.

(** The delays between the two images of a source at distance b from an SIS or a Point lens in the direction (c, s); the images are those of C85. *)
Theorem C103_sis_pair : forall cd z zs x0 y0 Rein b c s, 0 < Rein -> 0 < b -> c ^ 2 + s ^ 2 = 1 -> b < Rein ->
  time_delay cd (sis_lens z x0 y0 Rein) zs (x0 + (b - Rein) * c) (y0 + (b - Rein) * s) true true - time_delay cd (sis_lens z x0 y0 Rein) zs (x0 + (b + Rein) * c) (y0 + (b + Rein) * s) true true
  = delay_unit cd z zs * (2 * Rein * b).
Proof. exact sis_pair. Qed.
Print Assumptions C103_sis_pair.
Theorem C103_point_pair : forall cd z zs x0 y0 Rein b c s, 0 < Rein -> 0 < b -> c ^ 2 + s ^ 2 = 1 -> let w := sqrt (b ^ 2 + 4 * Rein ^ 2) in
  time_delay cd (point_lens z x0 y0 Rein) zs (x0 + (b - w) / 2 * c) (y0 + (b - w) / 2 * s) true true - time_delay cd (point_lens z x0 y0 Rein) zs (x0 + (b + w) / 2 * c) (y0 + (b + w) / 2 * s) true true
  = delay_unit cd z zs * (b * w / 2 + Rein ^ 2 * ln ((w + b) / (w - b))).
Proof. exact point_pair. Qed.
Print Assumptions C103_point_pair.
(** the unit is positive: the outer image comes first *)
Theorem C103_unit : forall cd z zs, -1 < z -> 0 < angular_diameter_distance cd z -> 0 < angular_diameter_distance cd zs -> 0 < angular_diameter_distance_z1z2 cd z zs -> 0 < delay_unit cd z zs.
Proof. exact unit_pos. Qed.
Print Assumptions C103_unit.
(** Isothermal lenses of any shape: only the distances of the images from the lens enter the delay between them. *)
Theorem C103_sie_two_images : forall cd z zs x0 y0 q phi Rein x y x' y', raytrace (reduced_deflection_angle_sie x0 y0 q phi Rein 0) x y = raytrace (reduced_deflection_angle_sie x0 y0 q phi Rein 0) x' y' ->
  time_delay cd (sie_lens z x0 y0 q phi Rein) zs x' y' true true - time_delay cd (sie_lens z x0 y0 q phi Rein) zs x y true true =
  delay_unit cd z zs * (((x - x0) ^ 2 + (y - y0) ^ 2) - ((x' - x0) ^ 2 + (y' - y0) ^ 2)) / 2.
Proof. exact sie_two. Qed.
Print Assumptions C103_sie_two_images.
(** and of single rays, with the position (fst b, snd b) they are traced to *)
Theorem C103_sis : forall cd z zs x0 y0 Rein x y, x <> x0 \/ y <> y0 -> let b := raytrace (reduced_deflection_angle (sis_lens z x0 y0 Rein)) x y in
  time_delay cd (sis_lens z x0 y0 Rein) zs x y true true = delay_unit cd z zs * (((fst b - x0) ^ 2 + (snd b - y0) ^ 2) - ((x - x0) ^ 2 + (y - y0) ^ 2)) / 2.
Proof. exact sis_delay. Qed.
Print Assumptions C103_sis.
Theorem C103_epl : forall cd lens zs x0 y0 q phi Rein t n c x y,
  reduced_deflection_angle_epl x0 y0 q phi Rein t n c x y = Ok (reduced_deflection_angle lens x y) -> potential_epl x0 y0 q phi Rein t n c x y = Ok (potential lens x y) ->
  let b := raytrace (reduced_deflection_angle lens) x y in
  time_delay cd lens zs x y true true = delay_unit cd (z_l lens) zs *
    (((x - fst b) ^ 2 + (y - snd b) ^ 2) / 2 - ((x - x0) * (x - fst b) + (y - y0) * (y - snd b)) / (2 - t)).
Proof. exact epl_delay. Qed.
Print Assumptions C103_epl.
Example C103_hyps : let dc := fun z : R => z in 0 < angular_diameter_distance dc (1 / 2) /\ 0 < angular_diameter_distance dc 1 /\ 0 < angular_diameter_distance_z1z2 dc (1 / 2) 1 /\
  0 < 2 /\ 0 < 1 /\ (3 / 5) ^ 2 + (4 / 5) ^ 2 = 1 /\ 1 < 2 /\
  (exists x x', x <> x' /\ raytrace (reduced_deflection_angle_sie 0 0 (1 / 2) 0 1 0) x 0 = raytrace (reduced_deflection_angle_sie 0 0 (1 / 2) 0 1 0) x' 0) /\
  exists lens, reduced_deflection_angle_epl 0 0 (1 / 2) 0 1 1 1 None 1 0 = Ok (reduced_deflection_angle lens 1 0) /\ potential_epl 0 0 (1 / 2) 0 1 1 1 None 1 0 = Ok (potential lens 1 0).
Proof.
  cbv zeta. unfold angular_diameter_distance, angular_diameter_distance_z1z2, comoving_distance_z1z2. repeat split; try lra; [exact two_images|].
  exists (ThinLens 0 (framed_alpha (alpha0 (1 / 2) 1 1 1) 0 0 0) (framed (psi0 (1 / 2) 1 1 1) 0 0 0) (fun _ _ => 0)). cbn [reduced_deflection_angle potential].
  split; [apply deflection_framed|apply potential_framed]; cbn; auto.
Qed.
