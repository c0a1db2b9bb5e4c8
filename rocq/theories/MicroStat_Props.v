(** * C125: the flux measured by the microlensing simulator and its error *)
From Coq Require Import Reals Lra Lia String.
From Coquelicot Require Import Coquelicot.
From Verif Require Import Py Gauss_Model Micro_Model PixMean_Spec MicroStat_Spec MicroStat_Proofs.
Local Open Scope R_scope.

(** the Monte Carlo flux is right on average for every number of samples *)
Theorem C125_unbiased : forall ray f f0 f1 f2 f3 N Ng, f0 < f1 -> f2 < f3 -> (1 <= N)%nat ->
  integrable (lensed ray f) f0 f1 f2 f3 -> integrable (fun x y => lensed ray f x y ^ 2) f0 f1 f2 f3 ->
  expect N (fun rx ry => flux_of (microlens ray f rx ry (f0, f1, f2, f3) "mcmc" N Ng)) = box (lensed ray f) f0 f1 f2 f3.
Proof. exact unbiased. Qed.

(** its mean square error is a fixed number divided by the number of samples *)
Theorem C125_variance : forall ray f f0 f1 f2 f3 N Ng, f0 < f1 -> f2 < f3 -> (1 <= N)%nat ->
  integrable (lensed ray f) f0 f1 f2 f3 -> integrable (fun x y => lensed ray f x y ^ 2) f0 f1 f2 f3 ->
  expect N (fun rx ry => (flux_of (microlens ray f rx ry (f0, f1, f2, f3) "mcmc" N Ng) - box (lensed ray f) f0 f1 f2 f3) ^ 2) = spread (lensed ray f) f0 f1 f2 f3 / INR N.
Proof. exact variance. Qed.

(** the square of the reported error is, on average, the mean square error times 1 - 1/N *)
Theorem C125_error_bar : forall ray f f0 f1 f2 f3 N Ng, f0 < f1 -> f2 < f3 -> (1 <= N)%nat ->
  integrable (lensed ray f) f0 f1 f2 f3 -> integrable (fun x y => lensed ray f x y ^ 2) f0 f1 f2 f3 ->
  expect N (fun rx ry => error_of (microlens ray f rx ry (f0, f1, f2, f3) "mcmc" N Ng) ^ 2) =
  (1 - / INR N) * expect N (fun rx ry => (flux_of (microlens ray f rx ry (f0, f1, f2, f3) "mcmc" N Ng) - box (lensed ray f) f0 f1 f2 f3) ^ 2).
Proof. exact error_bar. Qed.

(** the grid flux of a scene of limited slope has an error of at most a constant divided by the number of points on a side *)
Theorem C125_grid_slope : forall ray f f0 f1 f2 f3 rx ry Nm, f0 <= f1 -> f2 <= f3 -> forall L N, 0 <= L -> (1 <= N)%nat ->
  (forall x y u v, f0 <= x <= f1 -> f2 <= y <= f3 -> f0 <= u <= f1 -> f2 <= v <= f3 -> Rabs (lensed ray f u v - lensed ray f x y) <= L * (Rabs (u - x) + Rabs (v - y))) ->
  exists s e, microlens ray f rx ry (f0, f1, f2, f3) "grid" Nm N = Ok (Some s, Some e) /\
    Rabs (s - box (lensed ray f) f0 f1 f2 f3) <= L * ((f1 - f0) + (f3 - f2)) / INR N * ((f1 - f0) * (f3 - f2)).
Proof. exact grid_slope. Qed.

(** and that of any continuous scene tends to the flux *)
Theorem C125_grid_converges : forall ray f f0 f1 f2 f3 rx ry Nm, f0 <= f1 -> f2 <= f3 ->
  (forall x y, f0 <= x <= f1 -> f2 <= y <= f3 -> continuity_2d_pt (lensed ray f) x y) ->
  forall eps, 0 < eps -> exists N0, forall N, (N0 <= N)%nat -> (1 <= N)%nat ->
  exists s e, microlens ray f rx ry (f0, f1, f2, f3) "grid" Nm N = Ok (Some s, Some e) /\ Rabs (s - box (lensed ray f) f0 f1 f2 f3) <= eps.
Proof. exact grid_converges. Qed.

(** the hypotheses of the first three are met by every continuous scene *)
Theorem C125_continuous : forall F a b c d, a <= b -> c <= d -> (forall x y, a <= x <= b -> c <= y <= d -> continuity_2d_pt F x y) ->
  integrable F a b c d /\ integrable (fun x y => F x y ^ 2) a b c d.
Proof. exact continuous_both. Qed.

(** a scene whose brightness rises along the first axis: the flux is 1/2, and 4 samples give a mean square error of 1/48 *)
Example C125_hyps : let ray x y := (x, y) : R * R in let f (x y : R) := x in
  integrable (lensed ray f) 0 1 0 1 /\ integrable (fun x y => lensed ray f x y ^ 2) 0 1 0 1 /\ box (lensed ray f) 0 1 0 1 = 1 / 2 /\ spread (lensed ray f) 0 1 0 1 / INR 4 = 1 / 48 /\
  (forall x y u v : R, Rabs (lensed ray f u v - lensed ray f x y) <= 1 * (Rabs (u - x) + Rabs (v - y))).
Proof.
  cbv zeta. unfold lensed, spread. cbn [fst snd]. destruct ramp_box as [B1 B2]. destruct (continuous_both (fun x _ => x) 0 1 0 1) as [J1 J2]; [lra|lra|intros x y _ _; apply ramp_continuous|].
  split; [exact J1|]. split; [exact J2|]. split; [exact B1|]. split.
  - rewrite B1, B2. cbn [INR]. field.
  - intros x y u v. assert (Z := Rabs_pos (v - y)). lra.
Qed.

Print Assumptions C125_unbiased.
Print Assumptions C125_variance.
Print Assumptions C125_error_bar.
Print Assumptions C125_grid_slope.
Print Assumptions C125_grid_converges.
Print Assumptions C125_continuous.
