(** * Proofs for C147: the shape of a galaxy behind a sheet and a shear *)
From Coq Require Import Reals Lra List Arith.
From Verif Require Import Py RealFun Geo_Model Angle_Model LensBase_Model LensBasic_Model Light_Model Sim_Model First_Spec Four_Spec Sim_Proofs.
Import ListNotations.
Local Open Scope R_scope.

Section Shape.
Variables (z X0 Y0 kappa gamma theta : R).
Let u := 1 - kappa - gamma. Let v := 1 - kappa + gamma. Let c := cos theta. Let s := sin theta.
Let ray := raytrace (reduced_deflection_angle (singleplane z (map (lens_of z) [Shear X0 Y0 (gamma * cos (2 * theta)) (gamma * sin (2 * theta)); Sheet X0 Y0 kappa]))).
Lemma unit_circle : c * c + s * s = 1.
Proof. assert (Q := sin2_cos2 theta). unfold Rsqr in Q. unfold c, s. lra. Qed.
Lemma ray_at x y : ray x y = (x - (gamma * (c * c - s * s) * (x - X0) + gamma * (2 * s * c) * (y - Y0) + (x - X0) * kappa), y - (gamma * (2 * s * c) * (x - X0) - gamma * (c * c - s * s) * (y - Y0) + (y - Y0) * kappa)).
Proof.
  unfold ray, raytrace. cbn [singleplane reduced_deflection_angle map lens_of singleplane_deflection fold_left fst snd].
  unfold reduced_deflection_angle_external_shear, reduced_deflection_angle_mass_sheet, translate_rotate. cbv zeta. cbn [fst snd]. rewrite cos_2a, sin_2a. fold c s. f_equal; ring.
Qed.
Lemma ray_along U V x y : let src := along X0 Y0 theta U V in
  (fst (ray x y) - fst src) * c + (snd (ray x y) - snd src) * s = u * ((x - X0) * c + (y - Y0) * s) - U /\
  (snd (ray x y) - snd src) * c - (fst (ray x y) - fst src) * s = v * ((y - Y0) * c - (x - X0) * s) - V.
Proof.
  intros src. rewrite ray_at. unfold src, along. cbn [fst snd]. fold c s. assert (N := unit_circle). set (n := c * c + s * s) in N. unfold u, v. split.
  - transitivity ((1 - kappa) * ((x - X0) * c + (y - Y0) * s) - gamma * n * ((x - X0) * c + (y - Y0) * s) - U * n); [unfold n; ring|rewrite N; ring].
  - transitivity ((1 - kappa) * ((y - Y0) * c - (x - X0) * s) + gamma * n * ((y - Y0) * c - (x - X0) * s) - V * n); [unfold n; ring|rewrite N; ring].
Qed.
Lemma image_along U V x y : let im := along X0 Y0 theta U V in
  (x - fst im) * c + (y - snd im) * s = (x - X0) * c + (y - Y0) * s - U /\ (y - snd im) * c - (x - fst im) * s = (y - Y0) * c - (x - X0) * s - V.
Proof.
  intros im. unfold im, along. cbn [fst snd]. fold c s. assert (N := unit_circle). set (n := c * c + s * s) in N. split.
  - transitivity ((x - X0) * c + (y - Y0) * s - U * n); [unfold n; ring|rewrite N; ring].
  - transitivity ((y - Y0) * c - (x - X0) * s - V * n); [unfold n; ring|rewrite N; ring].
Qed.
Lemma same_radius U V q x y : 0 < u -> 0 < v -> q <> 0 -> let src := along X0 Y0 theta U V in let im := along X0 Y0 theta (U / u) (V / v) in
  sqrt (((fst (ray x y) - fst src) * c + (snd (ray x y) - snd src) * s) ^ 2 + (((snd (ray x y) - snd src) * c - (fst (ray x y) - fst src) * s) / q) ^ 2) =
  u * sqrt (((x - fst im) * c + (y - snd im) * s) ^ 2 + (((y - snd im) * c - (x - fst im) * s) / (q * u / v)) ^ 2).
Proof.
  intros Hu Hv Hq src im. destruct (ray_along U V x y) as [E1 E2]. cbv zeta in E1, E2. fold src in E1, E2. rewrite E1, E2. destruct (image_along (U / u) (V / v) x y) as [F1 F2]. cbv zeta in F1, F2. fold im in F1, F2. rewrite F1, F2.
  set (a := (x - X0) * c + (y - Y0) * s). set (b := (y - Y0) * c - (x - X0) * s).
  replace ((u * a - U) ^ 2 + ((v * b - V) / q) ^ 2) with (Rsqr u * ((a - U / u) ^ 2 + ((b - V / v) / (q * u / v)) ^ 2)) by (unfold Rsqr; field; repeat split; lra).
  rewrite sqrt_mult_alt by apply Rle_0_sqr. rewrite sqrt_Rsqr by lra. reflexivity.
Qed.
Lemma sersic_looks lk soft U V q n Re Ie x y : 0 < u -> 0 < v -> q <> 0 -> Re <> 0 -> let src := along X0 Y0 theta U V in let im := along X0 Y0 theta (U / u) (V / v) in
  sersic_brightness lk soft (fst src) (snd src) q theta n Re Ie (fst (ray x y)) (snd (ray x y)) = sersic_brightness lk (soft / u) (fst im) (snd im) (q * u / v) theta n (Re / u) Ie x y.
Proof.
  intros Hu Hv Hq HR src im. unfold sersic_brightness. set (k := if lk then _ else _). unfold brightness_sersic, translate_rotate, to_elliptical. cbv zeta. fold c s.
  assert (E := same_radius U V q x y Hu Hv Hq). cbv zeta in E. fold src im in E. rewrite E. set (r := sqrt _).
  replace ((u * r + soft) / Re) with ((r + soft / u) / (Re / u)) by (field; lra). reflexivity.
Qed.
End Shape.
Lemma round_turned lk soft sx sy phi psi n Re Ie x y : sersic_brightness lk soft sx sy 1 phi n Re Ie x y = sersic_brightness lk soft sx sy 1 psi n Re Ie x y.
Proof.
  unfold sersic_brightness. set (k := if lk then _ else _). unfold brightness_sersic, translate_rotate, to_elliptical. cbv zeta.
  assert (E : forall t, ((x - sx) * cos t + (y - sy) * sin t) ^ 2 + (((y - sy) * cos t - (x - sx) * sin t) / 1) ^ 2 = (x - sx) ^ 2 + (y - sy) ^ 2).
  { intros t. assert (N := unit_circle t). set (m := cos t * cos t + sin t * sin t) in N. transitivity (((x - sx) ^ 2 + (y - sy) ^ 2) * m); [unfold m; field|rewrite N; ring]. }
  rewrite !E. reflexivity.
Qed.
Lemma round_looks z X0 Y0 kappa gamma theta lk soft U V phi n Re Ie x y : let u := 1 - kappa - gamma in let v := 1 - kappa + gamma in 0 < u -> 0 < v -> Re <> 0 ->
  let b := raytrace (reduced_deflection_angle (singleplane z (map (lens_of z) [Shear X0 Y0 (gamma * cos (2 * theta)) (gamma * sin (2 * theta)); Sheet X0 Y0 kappa]))) x y in
  let src := along X0 Y0 theta U V in let im := along X0 Y0 theta (U / u) (V / v) in
  sersic_brightness lk soft (fst src) (snd src) 1 phi n Re Ie (fst b) (snd b) = sersic_brightness lk (soft / u) (fst im) (snd im) (u / v) theta n (Re / u) Ie x y.
Proof.
  intros u v Hu Hv HR b src im. rewrite (round_turned lk soft (fst src) (snd src) phi theta). assert (E := sersic_looks z X0 Y0 kappa gamma theta lk soft U V 1 n Re Ie x y Hu Hv ltac:(lra) HR).
  cbv zeta in E. fold u v in E. fold b src im in E. rewrite E. replace (1 * u / v) with (u / v) by (unfold Rdiv; ring). reflexivity.
Qed.
Lemma reduced_shear kappa gamma theta : let u := 1 - kappa - gamma in let v := 1 - kappa + gamma in 0 < u -> 0 < v ->
  qphi_to_e1e2 (u / v) theta = (gamma * cos (2 * theta) / (1 - kappa), gamma * sin (2 * theta) / (1 - kappa)).
Proof. intros u v Hu Hv. unfold qphi_to_e1e2. assert (0 < 1 - kappa) by (unfold u, v in *; lra). f_equal; (unfold u, v in *; field; repeat split; lra). Qed.
(** the image of the lensed source is the image of the other source without a lens *)
Lemma looks_image ray f f' : (forall x y, f (fst (ray x y)) (snd (ray x y)) = f' x y) -> forall S ll kr kc psf x0 y0 so lo conv chunk,
  call ray S (Some f) ll kr kc psf x0 y0 so lo true conv chunk = call ray S (Some f') ll kr kc psf x0 y0 so lo false conv chunk.
Proof.
  intros H S ll kr kc psf x0 y0 so lo conv chunk. unfold call. f_equal. unfold scene. set (pts := points S x0 y0). f_equal. destruct so; [|reflexivity].
  destruct chunk as [[|k]|]; [reflexivity| |]; rewrite !vmap_val by discriminate; cbn [bind]; rewrite !vmap_val by discriminate; cbn [bind]; rewrite map_map; do 2 f_equal; apply map_ext; intros p; apply H.
Qed.
Lemma reduced_shear_q kappa gamma theta : 0 <= gamma -> gamma < 1 - kappa ->
  e1e2_to_q (gamma * cos (2 * theta) / (1 - kappa)) (gamma * sin (2 * theta) / (1 - kappa)) = (1 - kappa - gamma) / (1 - kappa + gamma).
Proof.
  intros Hg Hk. unfold e1e2_to_q. assert (N := unit_circle (2 * theta)). set (m := cos (2 * theta) * cos (2 * theta) + sin (2 * theta) * sin (2 * theta)) in N.
  replace ((gamma * cos (2 * theta) / (1 - kappa)) ^ 2 + (gamma * sin (2 * theta) / (1 - kappa)) ^ 2) with (Rsqr (gamma / (1 - kappa))) by (transitivity (Rsqr (gamma / (1 - kappa)) * m); [rewrite N; ring|unfold m, Rsqr; field; lra]).
  assert (0 <= gamma / (1 - kappa)) by (apply Rle_mult_inv_pos; lra).
  assert (gamma / (1 - kappa) < 1) by (apply (Rmult_lt_reg_r (1 - kappa)); [lra|]; unfold Rdiv; rewrite Rmult_assoc, Rinv_l by lra; lra).
  rewrite sqrt_Rsqr by assumption. unfold clamp01. cbv zeta. rewrite Rmax_left by lra. rewrite Rmin_left by lra. field. lra.
Qed.
Lemma galaxy_image z X0 Y0 kappa gamma theta lk soft U V q n Re Ie (F : option R -> R) : let u := 1 - kappa - gamma in let v := 1 - kappa + gamma in 0 < u -> 0 < v -> q <> 0 -> Re <> 0 ->
  let ray := raytrace (reduced_deflection_angle (singleplane z (map (lens_of z) [Shear X0 Y0 (gamma * cos (2 * theta)) (gamma * sin (2 * theta)); Sheet X0 Y0 kappa]))) in
  let src := along X0 Y0 theta U V in let im := along X0 Y0 theta (U / u) (V / v) in forall S ll kr kc psf x0 y0 so lo conv chunk,
  call ray S (Some (fun x y => F (sersic_brightness lk soft (fst src) (snd src) q theta n Re Ie x y))) ll kr kc psf x0 y0 so lo true conv chunk =
  call ray S (Some (fun x y => F (sersic_brightness lk (soft / u) (fst im) (snd im) (q * u / v) theta n (Re / u) Ie x y))) ll kr kc psf x0 y0 so lo false conv chunk.
Proof.
  intros u v Hu Hv Hq HR ray src im. apply looks_image. intros x y. cbv beta. f_equal. exact (sersic_looks z X0 Y0 kappa gamma theta lk soft U V q n Re Ie x y Hu Hv Hq HR).
Qed.
