(** * C148: how a shear changes the ellipticity of any galaxy *)
From Coq Require Import Reals Lra List.
From Coquelicot Require Import Complex.
From Verif Require Import Py Angle_Model LensBase_Model Light_Model Sim_Model First_Spec Gxy_Spec Gxy2_Proofs.
Import ListNotations.
Local Open Scope R_scope.

(** A Sersic galaxy of ellipticity e = (e1, e2), of any orientation, seen through an ExternalShear (1 - kappa) g of any orientation and a MassSheet kappa, |e| < 1, |g| < 1, has at every point the brightness of
    the Sersic galaxy of ellipticity (e + g) / (1 + e g* ) at the image position (cx, cy), with the same n and Ie, and Re and softening multiplied by [growth]. *)
Theorem C148_brightness : forall z X0 Y0 kappa g1 g2 e1 e2, kappa <> 1 -> Cmod (e1, e2) < 1 -> Cmod (g1, g2) < 1 -> forall lk soft cx cy n Re Ie x y, Re <> 0 ->
  let ray := raytrace (reduced_deflection_angle (singleplane z (map (lens_of z) [Shear X0 Y0 ((1 - kappa) * g1) ((1 - kappa) * g2); Sheet X0 Y0 kappa]))) in
  let E := sheared (e1, e2) (g1, g2) in let m := growth kappa (e1, e2) (g1, g2) in
  sersic_brightness lk soft (fst (ray cx cy)) (snd (ray cx cy)) (e1e2_to_q e1 e2) (e1e2_to_phi e1 e2) n Re Ie (fst (ray x y)) (snd (ray x y)) =
  sersic_brightness lk (m * soft) cx cy (e1e2_to_q (fst E) (snd E)) (e1e2_to_phi (fst E) (snd E)) n (m * Re) Ie x y.
Proof. intros z X0 Y0 kappa g1 g2 e1 e2 Hk He Hg lk soft cx cy n Re Ie x y HR. exact (sersic_sheared z X0 Y0 kappa g1 g2 e1 e2 Hk He Hg lk soft cx cy n Re Ie x y HR). Qed.
Print Assumptions C148_brightness.
(** LensSource returns the same image, or the same exception, for the lensed galaxy and for the other galaxy with lens_source=False. *)
Theorem C148_image : forall z X0 Y0 kappa g1 g2 e1 e2, kappa <> 1 -> Cmod (e1, e2) < 1 -> Cmod (g1, g2) < 1 -> forall lk soft cx cy n Re Ie (F : option R -> R), Re <> 0 ->
  let ray := raytrace (reduced_deflection_angle (singleplane z (map (lens_of z) [Shear X0 Y0 ((1 - kappa) * g1) ((1 - kappa) * g2); Sheet X0 Y0 kappa]))) in
  let E := sheared (e1, e2) (g1, g2) in let m := growth kappa (e1, e2) (g1, g2) in forall S ll kr kc psf x0 y0 so lo conv chunk,
  call ray S (Some (fun x y => F (sersic_brightness lk soft (fst (ray cx cy)) (snd (ray cx cy)) (e1e2_to_q e1 e2) (e1e2_to_phi e1 e2) n Re Ie x y))) ll kr kc psf x0 y0 so lo true conv chunk =
  call ray S (Some (fun x y => F (sersic_brightness lk (m * soft) cx cy (e1e2_to_q (fst E) (snd E)) (e1e2_to_phi (fst E) (snd E)) n (m * Re) Ie x y))) ll kr kc psf x0 y0 so lo false conv chunk.
Proof. intros z X0 Y0 kappa g1 g2 e1 e2 Hk He Hg lk soft cx cy n Re Ie F HR. exact (sheared_image z X0 Y0 kappa g1 g2 e1 e2 Hk He Hg lk soft cx cy n Re Ie F HR). Qed.
Print Assumptions C148_image.
(** The new ellipticity is again one of an ellipse, and the galaxy grows by a positive factor. *)
Theorem C148_ellipse : forall kappa g1 g2 e1 e2, kappa <> 1 -> Cmod (e1, e2) < 1 -> Cmod (g1, g2) < 1 -> Cmod (sheared (e1, e2) (g1, g2)) < 1 /\ 0 < growth kappa (e1, e2) (g1, g2).
Proof. intros kappa g1 g2 e1 e2 Hk He Hg. split; [exact (E_lt g1 g2 e1 e2 He Hg)|exact (growth_pos kappa g1 g2 e1 e2 Hk He Hg)]. Qed.
Print Assumptions C148_ellipse.
(** Its area, and so its flux, is multiplied by the magnification 1 / ((1 - kappa)^2 - gamma^2). *)
Theorem C148_area : forall kappa g1 g2 e1 e2, kappa <> 1 -> Cmod (e1, e2) < 1 -> Cmod (g1, g2) < 1 -> forall Re, let E := sheared (e1, e2) (g1, g2) in let m := growth kappa (e1, e2) (g1, g2) in
  e1e2_to_q (fst E) (snd E) * (m * Re) ^ 2 = e1e2_to_q e1 e2 * Re ^ 2 * (1 / ((1 - kappa) ^ 2 * (1 - Cmod (g1, g2) ^ 2))).
Proof. intros kappa g1 g2 e1 e2 Hk He Hg Re. exact (sheared_area kappa g1 g2 e1 e2 Hk He Hg Re). Qed.
Print Assumptions C148_area.
(** Every source position has exactly one image, so (cx, cy) above covers all sources. *)
Theorem C148_one_image : forall z X0 Y0 kappa g1 g2, kappa <> 1 -> Cmod (g1, g2) < 1 -> forall sx sy,
  let ray := raytrace (reduced_deflection_angle (singleplane z (map (lens_of z) [Shear X0 Y0 ((1 - kappa) * g1) ((1 - kappa) * g2); Sheet X0 Y0 kappa]))) in
  exists cx cy, ray cx cy = (sx, sy) /\ forall x y, ray x y = (sx, sy) -> x = cx /\ y = cy.
Proof. intros z X0 Y0 kappa g1 g2 Hk Hg sx sy. exact (one_image z X0 Y0 kappa g1 g2 Hk Hg sx sy). Qed.
Print Assumptions C148_one_image.

(** The hypotheses can be met: e = 3/10 i, g = 1/2, kappa = 1/4. *)
Example C148_hyps : 1 / 4 <> 1 /\ Cmod (0, 3 / 10) < 1 /\ Cmod (1 / 2, 0) < 1 /\ e1e2_to_q 0 (3 / 10) = 7 / 13.
Proof.
  assert (A : sqrt (0 ^ 2 + (3 / 10) ^ 2) = 3 / 10) by (replace (0 ^ 2 + (3 / 10) ^ 2) with (Rsqr (3 / 10)) by (unfold Rsqr; field); apply sqrt_Rsqr; lra).
  assert (B : sqrt ((1 / 2) ^ 2 + 0 ^ 2) = 1 / 2) by (replace ((1 / 2) ^ 2 + 0 ^ 2) with (Rsqr (1 / 2)) by (unfold Rsqr; field); apply sqrt_Rsqr; lra).
  unfold Cmod, e1e2_to_q. cbn [fst snd]. rewrite A, B. repeat split; try lra. unfold clamp01. rewrite Rmax_left by lra. rewrite Rmin_left by lra. field.
Qed.
