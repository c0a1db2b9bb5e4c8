(** * C140: the light of a star *)
From Coq Require Import Reals String Lra.
From Coquelicot Require Import Coquelicot.
From Verif Require Import Py LensBase_Model LensBasic_Model Light_Model Micro_Model PixMean_Spec MicroStat_Spec Star_Spec Star_Proofs Star2_Proofs Star3_Proofs.
Local Open Scope string_scope.
Local Open Scope R_scope.

(** A limb-darkened star of radius theta_s should give pi theta_s^2 Ie (1 - gamma / 3). False for every radius below one, not only above it (C62): it is too bright. *)
Theorem C140_limb_refuted : forall x0 y0 theta_s Ie gamma f0 f1 f2 f3, 0 < theta_s < 1 -> 0 < Ie -> 0 < gamma -> holds_disc f0 f1 f2 f3 x0 y0 theta_s ->
  exists T, light_is (shown (fun x y => brightness_star x0 y0 theta_s Ie x y gamma)) f0 f1 f2 f3 T /\ PI * theta_s ^ 2 * Ie * (1 - gamma / 3) < T.
Proof. exact limb_wrong. Qed.
Print Assumptions C140_limb_refuted.
(** It holds when the radius is one unit of angle ... *)
Theorem C140_limb_partial : forall x0 y0 Ie gamma f0 f1 f2 f3, holds_disc f0 f1 f2 f3 x0 y0 1 ->
  light_is (shown (fun x y => brightness_star x0 y0 1 Ie x y gamma)) f0 f1 f2 f3 (PI * 1 ^ 2 * Ie * (1 - gamma / 3)).
Proof. exact limb_unit. Qed.
Print Assumptions C140_limb_partial.
(** ... and without limb darkening up to that radius; there is no NaN then. *)
Theorem C140_uniform_partial : forall x0 y0 theta_s Ie f0 f1 f2 f3, 0 <= theta_s <= 1 -> holds_disc f0 f1 f2 f3 x0 y0 theta_s ->
  light_is (shown (fun x y => brightness_star x0 y0 theta_s Ie x y 0)) f0 f1 f2 f3 (PI * theta_s ^ 2 * Ie).
Proof. exact limb_none. Qed.
Print Assumptions C140_uniform_partial.
Theorem C140_shown_partial : forall x0 y0 theta_s Ie gamma, 0 <= theta_s <= 1 -> always_shown (fun x y => brightness_star x0 y0 theta_s Ie x y gamma).
Proof. exact star_shown. Qed.
Print Assumptions C140_shown_partial.

(** Microlens, averaged over its draws: without a lens, *)
Theorem C140_microlens_partial : forall x0 y0 theta_s Ie f0 f1 f2 f3 N Ng, 0 <= theta_s <= 1 -> f0 < f1 -> f2 < f3 -> (1 <= N)%nat -> holds_disc f0 f1 f2 f3 x0 y0 theta_s ->
  expect N (fun rx ry => flux_of (microlens straight (shown (fun x y => brightness_star x0 y0 theta_s Ie x y 0)) rx ry (f0, f1, f2, f3) "mcmc" N Ng)) = PI * theta_s ^ 2 * Ie.
Proof. exact star_alone. Qed.
Print Assumptions C140_microlens_partial.
(** behind a mass sheet, *)
Theorem C140_sheet_partial : forall lx ly kappa x0 y0 theta_s Ie f0 f1 f2 f3 N Ng, kappa < 1 -> 0 < theta_s <= 1 -> f0 < f1 -> f2 < f3 -> (1 <= N)%nat ->
  holds_disc f0 f1 f2 f3 (lx + (x0 - lx) / (1 - kappa)) (ly + (y0 - ly) / (1 - kappa)) (theta_s / (1 - kappa)) ->
  expect N (fun rx ry => flux_of (microlens (raytrace (reduced_deflection_angle_mass_sheet lx ly kappa)) (shown (fun x y => brightness_star x0 y0 theta_s Ie x y 0)) rx ry (f0, f1, f2, f3) "mcmc" N Ng))
  = PI * theta_s ^ 2 * Ie * (1 / (1 - kappa) ^ 2).
Proof. exact star_sheet. Qed.
Print Assumptions C140_sheet_partial.
(** right behind an SIS, *)
Theorem C140_sis_partial : forall x0 y0 Rein theta_s Ie f0 f1 f2 f3 N Ng, 0 < Rein -> 0 < theta_s <= 1 -> f0 < f1 -> f2 < f3 -> (1 <= N)%nat -> holds_disc f0 f1 f2 f3 x0 y0 (Rein + theta_s) ->
  expect N (fun rx ry => flux_of (microlens (raytrace (reduced_deflection_angle_sis x0 y0 Rein 0)) (shown (fun x y => brightness_star x0 y0 theta_s Ie x y 0)) rx ry (f0, f1, f2, f3) "mcmc" N Ng))
  = PI * theta_s ^ 2 * Ie * (if Rle_dec theta_s Rein then 4 * Rein / theta_s else (1 + Rein / theta_s) ^ 2).
Proof. exact star_sis. Qed.
Print Assumptions C140_sis_partial.
(** and right behind a point mass, the peak of a microlensing light curve. *)
Theorem C140_point_partial : forall x0 y0 Rein theta_s Ie f0 f1 f2 f3 N Ng, 0 < Rein -> 0 < theta_s <= 1 -> f0 < f1 -> f2 < f3 -> (1 <= N)%nat ->
  holds_disc f0 f1 f2 f3 x0 y0 ((sqrt (theta_s ^ 2 + 4 * Rein ^ 2) + theta_s) / 2) ->
  expect N (fun rx ry => flux_of (microlens (raytrace (reduced_deflection_angle_point x0 y0 Rein 0)) (shown (fun x y => brightness_star x0 y0 theta_s Ie x y 0)) rx ry (f0, f1, f2, f3) "mcmc" N Ng))
  = PI * theta_s ^ 2 * Ie * sqrt (1 + 4 * (Rein / theta_s) ^ 2).
Proof. exact star_point. Qed.
Print Assumptions C140_point_partial.
(** a star of radius 3/5 behind a lens with Einstein radius 2/5 (a field of 4 x 4 holds all images) *)
Example C140_hyps : holds_disc (-2) 2 (-2) 2 0 0 (3 / 5) /\ holds_disc (-2) 2 (-2) 2 0 0 (2 / 5 + 3 / 5) /\ holds_disc (-2) 2 (-2) 2 0 0 ((sqrt ((3 / 5) ^ 2 + 4 * (2 / 5) ^ 2) + 3 / 5) / 2) /\
  holds_disc (-2) 2 (-2) 2 (0 + (1 / 10 - 0) / (1 - 1 / 2)) (0 + (1 / 10 - 0) / (1 - 1 / 2)) (3 / 5 / (1 - 1 / 2)).
Proof.
  replace ((3 / 5) ^ 2 + 4 * (2 / 5) ^ 2) with (1 ^ 2) by field. rewrite sqrt_pow2 by lra. unfold holds_disc. repeat split; lra.
Qed.
