(** * C141: the Einstein cross of an elliptical isothermal lens *)
From Coq Require Import Reals Lra List String.
From Coquelicot Require Import Coquelicot.
From Verif Require Import Py Cosmo_Model LensBase_Model LensBasic_Model Area_Spec Four_Spec Delay_Spec Cross_Spec Cross_Proofs.
Import ListNotations.
Local Open Scope string_scope.
Local Open Scope R_scope.

(** Everywhere off the centre the Jacobian of the lens equation leaves the direction to the centre alone and multiplies the direction across it by 1 - 2 kappa: images are
    stretched around the lens only, by 1 / (1 - 2 kappa). *)
Theorem C141_stretch : forall x0 y0 q phi Rein x y shape X Y ps i j, 0 < q < 1 -> x <> x0 \/ y <> y0 -> X i j = x -> Y i j = y ->
  exists A, jacobian_lens_equation (reduced_deflection_angle_sie x0 y0 q phi Rein 0) shape X Y "autograd" ps = Ok A /\
  let k := convergence_sie x0 y0 q phi Rein 0 x y in
  (m00 (A i j) * (x - x0) + m01 (A i j) * (y - y0) = x - x0 /\ m10 (A i j) * (x - x0) + m11 (A i j) * (y - y0) = y - y0) /\
  (m00 (A i j) * - (y - y0) + m01 (A i j) * (x - x0) = (1 - 2 * k) * - (y - y0) /\ m10 (A i j) * - (y - y0) + m11 (A i j) * (x - x0) = (1 - 2 * k) * (x - x0)).
Proof. exact sie_stretch. Qed.
Print Assumptions C141_stretch.
(** Small triangles are mirrored where kappa > 1/2 and keep their sense where kappa < 1/2. *)
Theorem C141_sense : forall x0 y0 q phi Rein x y, 0 < q < 1 -> x <> x0 \/ y <> y0 -> let k := convergence_sie x0 y0 q phi Rein 0 x y in
  (2 * k < 1 -> keeps_sense (reduced_deflection_angle_sie x0 y0 q phi Rein 0) x y) /\ (1 < 2 * k -> mirrored (reduced_deflection_angle_sie x0 y0 q phi Rein 0) x y).
Proof. exact sie_sense. Qed.
Print Assumptions C141_sense.
(** The four images of a source behind the centre (C133): the pair on the major axis is nearer and mirrored, the pair on the minor axis is farther out, upright and always
    brighter than the source. *)
Theorem C141_cross : forall x0 y0 q phi Rein, 0 < q < 1 -> 0 < Rein ->
  let f := sqrt (1 - q ^ 2) in let at_ := atan (f / q) in let ath := / 2 * ln ((1 + f) / (1 - f)) in
  let a := Rein * sqrt q / f * at_ in let b := Rein * sqrt q / f * ath in let alpha := reduced_deflection_angle_sie x0 y0 q phi Rein 0 in
  a < b /\ 1 < f / (q * at_) /\ 0 < f / ath < 1 /\
  (forall p, In p [along x0 y0 phi a 0; along x0 y0 phi (- a) 0] -> magnification alpha (fst p) (snd p) = Some (1 / (f / (q * at_) - 1)) /\ mirrored alpha (fst p) (snd p)) /\
  (forall p, In p [along x0 y0 phi 0 b; along x0 y0 phi 0 (- b)] -> magnification alpha (fst p) (snd p) = Some (1 / (1 - f / ath)) /\ keeps_sense alpha (fst p) (snd p)).
Proof. exact cross_images. Qed.
Print Assumptions C141_cross.
(** Opposite images arrive together; the nearer pair lags the farther one by D_dt / c (b^2 - a^2) / 2. *)
Theorem C141_delays : forall x0 y0 q phi Rein, 0 < q < 1 -> 0 < Rein -> forall cd z zs,
  let f := sqrt (1 - q ^ 2) in let a := Rein * sqrt q / f * atan (f / q) in let b := Rein * sqrt q / f * (/ 2 * ln ((1 + f) / (1 - f))) in
  let tau p := time_delay cd (sie_lens z x0 y0 q phi Rein) zs (fst p) (snd p) true true in
  tau (along x0 y0 phi a 0) = tau (along x0 y0 phi (- a) 0) /\ tau (along x0 y0 phi 0 b) = tau (along x0 y0 phi 0 (- b)) /\
  tau (along x0 y0 phi a 0) - tau (along x0 y0 phi 0 b) = delay_unit cd z zs * (b ^ 2 - a ^ 2) / 2.
Proof. exact cross_delays. Qed.
Print Assumptions C141_delays.
(** With positive distances, for which C103 shows the unit to be positive, the images on the minor axis come first. *)
Theorem C141_first : forall x0 y0 q phi Rein, 0 < q < 1 -> 0 < Rein -> forall cd z zs, 0 < delay_unit cd z zs ->
  let f := sqrt (1 - q ^ 2) in let a := Rein * sqrt q / f * atan (f / q) in let b := Rein * sqrt q / f * (/ 2 * ln ((1 + f) / (1 - f))) in
  let tau p := time_delay cd (sie_lens z x0 y0 q phi Rein) zs (fst p) (snd p) true true in
  tau (along x0 y0 phi 0 b) < tau (along x0 y0 phi a 0).
Proof. exact cross_first. Qed.
Print Assumptions C141_first.

(** The hypotheses can be met: a lens with convergence 1/2 * sqrt(1/4) * 4 / 3 = 1/3 at one position and 2 at another, and a triangle of positive area. *)
Example C141_hyps : 0 < 1 / 4 < 1 /\ 0 < 4 /\ 2 * convergence_sie 0 0 (1 / 4) 0 4 0 0 3 < 1 /\ 1 < 2 * convergence_sie 0 0 (1 / 4) 0 4 0 2 0 /\ cross3 (0, 0) (1, 0) (0, 1) <> 0.
Proof. exact cross_hyps. Qed.
