(** * C147: the shape of a galaxy seen through a sheet and a shear *)
From Coq Require Import Reals Lra List.
From Verif Require Import Py Angle_Model LensBase_Model Light_Model Sim_Model First_Spec Four_Spec Gxy_Proofs.
Import ListNotations.
Local Open Scope R_scope.

(** A Sersic galaxy turned like the shear, seen through an ExternalShear of strength gamma and orientation theta and a MassSheet kappa in a SinglePlane, has at every point the brightness of another
    Sersic galaxy: with axis ratio multiplied by u / v, and Re (and softening) divided by u, where u = 1 - kappa - gamma and v = 1 - kappa + gamma; n and Ie stay. It is seen at U / u along and V / v across
    the direction theta when the galaxy is U along and V across. *)
Theorem C147_brightness : forall z X0 Y0 kappa gamma theta lk soft U V q n Re Ie x y, let u := 1 - kappa - gamma in let v := 1 - kappa + gamma in 0 < u -> 0 < v -> q <> 0 -> Re <> 0 ->
  let b := raytrace (reduced_deflection_angle (singleplane z (map (lens_of z) [Shear X0 Y0 (gamma * cos (2 * theta)) (gamma * sin (2 * theta)); Sheet X0 Y0 kappa]))) x y in
  let src := along X0 Y0 theta U V in let im := along X0 Y0 theta (U / u) (V / v) in
  sersic_brightness lk soft (fst src) (snd src) q theta n Re Ie (fst b) (snd b) = sersic_brightness lk (soft / u) (fst im) (snd im) (q * u / v) theta n (Re / u) Ie x y.
Proof. exact sersic_looks. Qed.
Print Assumptions C147_brightness.
(** A round galaxy (q = 1, any phi) is seen with axis ratio u / v and orientation theta. *)
Theorem C147_round : forall z X0 Y0 kappa gamma theta lk soft U V phi n Re Ie x y, let u := 1 - kappa - gamma in let v := 1 - kappa + gamma in 0 < u -> 0 < v -> Re <> 0 ->
  let b := raytrace (reduced_deflection_angle (singleplane z (map (lens_of z) [Shear X0 Y0 (gamma * cos (2 * theta)) (gamma * sin (2 * theta)); Sheet X0 Y0 kappa]))) x y in
  let src := along X0 Y0 theta U V in let im := along X0 Y0 theta (U / u) (V / v) in
  sersic_brightness lk soft (fst src) (snd src) 1 phi n Re Ie (fst b) (snd b) = sersic_brightness lk (soft / u) (fst im) (snd im) (u / v) theta n (Re / u) Ie x y.
Proof. exact round_looks. Qed.
Print Assumptions C147_round.
(** The ellipticity (e1, e2) of that shape in the library's convention is the reduced shear (gamma_1, gamma_2) / (1 - kappa), *)
Theorem C147_reduced_shear : forall kappa gamma theta, let u := 1 - kappa - gamma in let v := 1 - kappa + gamma in 0 < u -> 0 < v ->
  qphi_to_e1e2 (u / v) theta = (gamma * cos (2 * theta) / (1 - kappa), gamma * sin (2 * theta) / (1 - kappa)).
Proof. exact reduced_shear. Qed.
Print Assumptions C147_reduced_shear.
(** and a reduced shear given as (e1, e2) is read as that axis ratio. *)
Theorem C147_axis_ratio : forall kappa gamma theta, 0 <= gamma -> gamma < 1 - kappa ->
  e1e2_to_q (gamma * cos (2 * theta) / (1 - kappa)) (gamma * sin (2 * theta) / (1 - kappa)) = (1 - kappa - gamma) / (1 - kappa + gamma).
Proof. exact reduced_shear_q. Qed.
Print Assumptions C147_axis_ratio.
(** LensSource returns the same image, pixel by pixel, or the same exception, for the lensed galaxy and for the other galaxy with lens_source=False ([F] reads the brightness, e.g. NaN as some number). *)
Theorem C147_image : forall z X0 Y0 kappa gamma theta lk soft U V q n Re Ie (F : option R -> R), let u := 1 - kappa - gamma in let v := 1 - kappa + gamma in 0 < u -> 0 < v -> q <> 0 -> Re <> 0 ->
  let ray := raytrace (reduced_deflection_angle (singleplane z (map (lens_of z) [Shear X0 Y0 (gamma * cos (2 * theta)) (gamma * sin (2 * theta)); Sheet X0 Y0 kappa]))) in
  let src := along X0 Y0 theta U V in let im := along X0 Y0 theta (U / u) (V / v) in forall S ll kr kc psf x0 y0 so lo conv chunk,
  call ray S (Some (fun x y => F (sersic_brightness lk soft (fst src) (snd src) q theta n Re Ie x y))) ll kr kc psf x0 y0 so lo true conv chunk =
  call ray S (Some (fun x y => F (sersic_brightness lk (soft / u) (fst im) (snd im) (q * u / v) theta n (Re / u) Ie x y))) ll kr kc psf x0 y0 so lo false conv chunk.
Proof. exact galaxy_image. Qed.
Print Assumptions C147_image.

(** The hypotheses can be met: kappa = 1/2, gamma = 1/4, so that a galaxy with q = 9/10 is seen with axis ratio 3/10. *)
Example C147_hyps : let kappa := 1 / 2 in let gamma := 1 / 4 in 0 < 1 - kappa - gamma /\ 0 < 1 - kappa + gamma /\ 9 / 10 * (1 - kappa - gamma) / (1 - kappa + gamma) = 3 / 10 /\ 0 <= gamma < 1 - kappa.
Proof. cbv zeta. repeat split; lra. Qed.
