(** * C142: a shear breaks the Einstein ring into a cross *)
From Coq Require Import Reals Lra List.
From Verif Require Import Cosmo_Model LensBase_Model LensBasic_Model First_Spec Four_Spec Delay_Spec Cross_Spec Split_Proofs.
Import ListNotations.
Local Open Scope R_scope.

(** A star (Point) with a shear of strength gamma at angle theta and a sheet kappa, as one SinglePlane, shows a source behind it at exactly four positions: along the shear at
    R0 / sqrt(1 - kappa - gamma), upright, and across it at R0 / sqrt(1 - kappa + gamma), mirrored, with the magnifications given. *)
Theorem C142_point : forall z x0 y0 R0 kappa gamma theta, 0 < R0 -> 0 < gamma -> gamma < 1 - kappa ->
  let l := [PointMass x0 y0 R0; Shear x0 y0 (gamma * cos (2 * theta)) (gamma * sin (2 * theta)); Sheet x0 y0 kappa] in let L := singleplane z (map (lens_of z) l) in
  let u := 1 - kappa - gamma in let v := 1 - kappa + gamma in let a := R0 / sqrt u in let b := R0 / sqrt v in
  b < a /\ (forall p, image L l x0 y0 (fst p) (snd p) <-> In p [along x0 y0 theta a 0; along x0 y0 theta (- a) 0; along x0 y0 theta 0 b; along x0 y0 theta 0 (- b)]) /\
  (forall p, In p [along x0 y0 theta a 0; along x0 y0 theta (- a) 0] -> magnification (reduced_deflection_angle L) (fst p) (snd p) = Some (1 / (4 * gamma * u)) /\ keeps_sense (reduced_deflection_angle L) (fst p) (snd p)) /\
  (forall p, In p [along x0 y0 theta 0 b; along x0 y0 theta 0 (- b)] -> magnification (reduced_deflection_angle L) (fst p) (snd p) = Some (1 / (4 * gamma * v)) /\ mirrored (reduced_deflection_angle L) (fst p) (snd p)).
Proof. exact point_split. Qed.
Print Assumptions C142_point.
(** The same for an SIS. *)
Theorem C142_sis : forall z x0 y0 R0 kappa gamma theta, 0 < R0 -> 0 < gamma -> gamma < 1 - kappa ->
  let l := [Isothermal x0 y0 R0; Shear x0 y0 (gamma * cos (2 * theta)) (gamma * sin (2 * theta)); Sheet x0 y0 kappa] in let L := singleplane z (map (lens_of z) l) in
  let u := 1 - kappa - gamma in let v := 1 - kappa + gamma in let a := R0 / u in let b := R0 / v in
  b < a /\ (forall p, image L l x0 y0 (fst p) (snd p) <-> In p [along x0 y0 theta a 0; along x0 y0 theta (- a) 0; along x0 y0 theta 0 b; along x0 y0 theta 0 (- b)]) /\
  (forall p, In p [along x0 y0 theta a 0; along x0 y0 theta (- a) 0] -> magnification (reduced_deflection_angle L) (fst p) (snd p) = Some (1 / (2 * gamma * u)) /\ keeps_sense (reduced_deflection_angle L) (fst p) (snd p)) /\
  (forall p, In p [along x0 y0 theta 0 b; along x0 y0 theta 0 (- b)] -> magnification (reduced_deflection_angle L) (fst p) (snd p) = Some (1 / (2 * gamma * v)) /\ mirrored (reduced_deflection_angle L) (fst p) (snd p)).
Proof. exact sis_split. Qed.
Print Assumptions C142_sis.
(** Opposite images arrive together; the mirrored pair lags the upright one by D_dt / c R0^2 / 2 ln (v / u). *)
Theorem C142_point_delays : forall z x0 y0 R0 kappa gamma theta, 0 < R0 -> 0 < gamma -> gamma < 1 - kappa -> forall cd zs,
  let L := singleplane z (map (lens_of z) [PointMass x0 y0 R0; Shear x0 y0 (gamma * cos (2 * theta)) (gamma * sin (2 * theta)); Sheet x0 y0 kappa]) in
  let u := 1 - kappa - gamma in let v := 1 - kappa + gamma in let a := R0 / sqrt u in let b := R0 / sqrt v in let tau p := time_delay cd L zs (fst p) (snd p) true true in
  tau (along x0 y0 theta a 0) = tau (along x0 y0 theta (- a) 0) /\ tau (along x0 y0 theta 0 b) = tau (along x0 y0 theta 0 (- b)) /\
  tau (along x0 y0 theta 0 b) - tau (along x0 y0 theta a 0) = delay_unit cd z zs * (R0 ^ 2 / 2 * ln (v / u)).
Proof. exact point_split_delays. Qed.
Print Assumptions C142_point_delays.
(** For an SIS by D_dt / c R0^2 gamma / (u v). *)
Theorem C142_sis_delays : forall z x0 y0 R0 kappa gamma theta, 0 < R0 -> 0 < gamma -> gamma < 1 - kappa -> forall cd zs,
  let L := singleplane z (map (lens_of z) [Isothermal x0 y0 R0; Shear x0 y0 (gamma * cos (2 * theta)) (gamma * sin (2 * theta)); Sheet x0 y0 kappa]) in
  let u := 1 - kappa - gamma in let v := 1 - kappa + gamma in let a := R0 / u in let b := R0 / v in let tau p := time_delay cd L zs (fst p) (snd p) true true in
  tau (along x0 y0 theta a 0) = tau (along x0 y0 theta (- a) 0) /\ tau (along x0 y0 theta 0 b) = tau (along x0 y0 theta 0 (- b)) /\
  tau (along x0 y0 theta 0 b) - tau (along x0 y0 theta a 0) = delay_unit cd z zs * (R0 ^ 2 * gamma / (u * v)).
Proof. exact sis_split_delays. Qed.
Print Assumptions C142_sis_delays.

(** The hypotheses can be met: a shear of 1/4 and a sheet of 1/4 around an SIS of radius 2 show the source at distance 4 along the shear. *)
Example C142_hyps : 0 < 2 /\ 0 < 1 / 4 /\ 1 / 4 < 1 - 1 / 4 /\
  let l := [Isothermal 0 0 2; Shear 0 0 (1 / 4 * cos (2 * 0)) (1 / 4 * sin (2 * 0)); Sheet 0 0 (1 / 4)] in image (singleplane 0 (map (lens_of 0) l)) l 0 0 4 0.
Proof.
  split; [lra|]. split; [lra|]. split; [lra|]. intros l. destruct (sis_split 0 0 0 2 (1 / 4) (1 / 4) 0) as (_ & I & _); [lra|lra|lra|].
  apply (I (4, 0)). left. unfold along. rewrite cos_0, sin_0. f_equal; field.
Qed.
