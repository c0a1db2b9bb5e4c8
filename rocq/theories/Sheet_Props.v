(** * C84: the mass-sheet degeneracy *)
From Coq Require Import Reals List Lra.
From Verif Require Import Py Const_Model Cosmo_Model Geo_Model LensBase_Model LensBasic_Model Halo_Model Sheet_Proofs.
Import ListNotations.
Open Scope R_scope.

(** [t'] is [t] with all its mass multiplied by c *)
Definition scaled_lens (c : R) (t t' : thin_lens) : Prop :=
  forall x y, reduced_deflection_angle t' x y = (c * fst (reduced_deflection_angle t x y), c * snd (reduced_deflection_angle t x y)) /\
    potential t' x y = c * potential t x y /\ convergence t' x y = c * convergence t x y.
(** the transformed model: the scaled lens and a sheet of convergence kappa in one SinglePlane *)
Definition with_sheet (kappa x0 y0 : R) (t t' : thin_lens) : thin_lens := singleplane (z_l t) [t'; mass_sheet_lens (z_l t) x0 y0 kappa].

(** convergence 1 - kappa times the old one plus kappa *)
Theorem C84_convergence : forall kappa x0 y0 t t', scaled_lens (1 - kappa) t t' -> forall x y,
  convergence (with_sheet kappa x0 y0 t t') x y = (1 - kappa) * convergence t x y + kappa.
Proof. exact sheet_conv. Qed.
Print Assumptions C84_convergence.
(** every ray lands at the position scaled about the centre of the sheet; so the images of a source are the images of the scaled source *)
Theorem C84_raytrace : forall kappa x0 y0 t t', scaled_lens (1 - kappa) t t' -> forall x y,
  let (bx, by_) := raytrace (reduced_deflection_angle t) x y in
  raytrace (reduced_deflection_angle (with_sheet kappa x0 y0 t t')) x y = (x0 + (1 - kappa) * (bx - x0), y0 + (1 - kappa) * (by_ - y0)).
Proof.
  intros kappa x0 y0 t t' H x y. assert (E := sheet_rt kappa x0 y0 t t' H x y). destruct (raytrace (reduced_deflection_angle t) x y) as [bx by_].
  unfold with_sheet. rewrite E. cbn [fst snd]. f_equal; ring.
Qed.
Print Assumptions C84_raytrace.
Theorem C84_same_images : forall kappa x0 y0 t t', scaled_lens (1 - kappa) t t' -> kappa <> 1 -> forall x y x2 y2,
  raytrace (reduced_deflection_angle t) x y = raytrace (reduced_deflection_angle t) x2 y2 <->
  raytrace (reduced_deflection_angle (with_sheet kappa x0 y0 t t')) x y = raytrace (reduced_deflection_angle (with_sheet kappa x0 y0 t t')) x2 y2.
Proof. exact sheet_images. Qed.
Print Assumptions C84_same_images.
(** magnifications are all divided by (1 - kappa)^2 (NaN where they were NaN) *)
Theorem C84_magnification : forall kappa x0 y0 t t', scaled_lens (1 - kappa) t t' -> forall x y, kappa <> 1 ->
  magnification (reduced_deflection_angle (with_sheet kappa x0 y0 t t')) x y =
  option_map (fun m => m / (1 - kappa) ^ 2) (magnification (reduced_deflection_angle t) x y).
Proof. exact sheet_mag. Qed.
Print Assumptions C84_magnification.
(** time delays between two images of one source are multiplied by 1 - kappa *)
Theorem C84_time_delay : forall kappa x0 y0 t t', scaled_lens (1 - kappa) t t' -> forall cd z_s x y x2 y2,
  raytrace (reduced_deflection_angle t) x y = raytrace (reduced_deflection_angle t) x2 y2 ->
  time_delay cd (with_sheet kappa x0 y0 t t') z_s x y true true - time_delay cd (with_sheet kappa x0 y0 t t') z_s x2 y2 true true =
  (1 - kappa) * (time_delay cd t z_s x y true true - time_delay cd t z_s x2 y2 true true).
Proof. exact sheet_delay. Qed.
Print Assumptions C84_time_delay.
(** an SIS whose Einstein radius is scaled meets the hypothesis, and has two images of a source *)
Example C84_hyps : scaled_lens (1 - / 4) (sis_lens 1 0 0 4 0) (sis_lens 1 0 0 3 0) /\
  raytrace (reduced_deflection_angle (sis_lens 1 0 0 4 0)) 5 0 = raytrace (reduced_deflection_angle (sis_lens 1 0 0 4 0)) (-3) 0.
Proof.
  split.
  - intros x y. cbn [sis_lens reduced_deflection_angle potential convergence]. unfold reduced_deflection_angle_sis, potential_sis, convergence_sis, translate_rotate.
    cbn [fst snd]. unfold Rdiv. generalize (sqrt ((x - 0) ^ 2 + (y - 0) ^ 2) + 0). intros r. generalize (/ r). intros i. repeat split; [f_equal|..]; field.
  - cbn [sis_lens reduced_deflection_angle]. unfold raytrace, reduced_deflection_angle_sis, translate_rotate. cbv zeta. rewrite !Rplus_0_r.
    replace (sqrt ((5 - 0) ^ 2 + (0 - 0) ^ 2)) with 5 by (replace ((5 - 0) ^ 2 + (0 - 0) ^ 2) with (5 * 5) by ring; symmetry; apply sqrt_square; lra).
    replace (sqrt ((-3 - 0) ^ 2 + (0 - 0) ^ 2)) with 3 by (replace ((-3 - 0) ^ 2 + (0 - 0) ^ 2) with (3 * 3) by ring; symmetry; apply sqrt_square; lra).
    f_equal; field.
Qed.
