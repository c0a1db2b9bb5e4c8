(** * C100: an almost round SIE is an SIS *)
From Coq Require Import Reals Lra.
From Verif Require Import LensBasic_Model Einstein_Proofs Round_Proofs.
Local Open Scope R_scope.

Theorem C100_deflection : forall x0 y0 q phi Rein x y, 1 / 2 <= q < 1 -> 0 <= Rein -> x <> x0 \/ y <> y0 ->
  let a := reduced_deflection_angle_sie x0 y0 q phi Rein 0 x y in let b := reduced_deflection_angle_sis x0 y0 Rein 0 x y in
  (fst a - fst b) ^ 2 + (snd a - snd b) ^ 2 <= (12 * Rein * (1 - q)) ^ 2.
Proof. exact sie_near_sis_below. Qed.
Print Assumptions C100_deflection.
Theorem C100_potential : forall x0 y0 q phi Rein x y, 1 / 2 <= q < 1 -> 0 <= Rein -> x <> x0 \/ y <> y0 ->
  Rabs (potential_sie x0 y0 q phi Rein 0 x y - potential_sis x0 y0 Rein 0 x y) <= 12 * Rein * (1 - q) * sqrt ((x - x0) ^ 2 + (y - y0) ^ 2).
Proof. exact sie_potential_near_sis_below. Qed.
Print Assumptions C100_potential.
(** At q = 1 itself: the convergence is that of the SIS; the deflection, evaluated at q - 1e-6, is off by at most 1.2e-5 Rein, and not by nothing. *)
Theorem C100_round : forall x0 y0 phi Rein x y, 0 <= Rein -> x <> x0 \/ y <> y0 ->
  let a := reduced_deflection_angle_sie x0 y0 1 phi Rein 0 x y in let b := reduced_deflection_angle_sis x0 y0 Rein 0 x y in
  convergence_sie x0 y0 1 phi Rein 0 x y = convergence_sis x0 y0 Rein 0 x y /\
  (fst a - fst b) ^ 2 + (snd a - snd b) ^ 2 <= (12 * Rein / 10 ^ 6) ^ 2 /\
  Rabs (potential_sie x0 y0 1 phi Rein 0 x y - potential_sis x0 y0 Rein 0 x y) <= 12 * Rein / 10 ^ 6 * sqrt ((x - x0) ^ 2 + (y - y0) ^ 2).
Proof. exact sie_round. Qed.
Print Assumptions C100_round.
Theorem C100_not_exact : forall x0 y0 Rein x, 0 < Rein -> x0 < x ->
  fst (reduced_deflection_angle_sie x0 y0 1 0 Rein 0 x y0) < Rein /\ fst (reduced_deflection_angle_sis x0 y0 Rein 0 x y0) = Rein.
Proof. exact sie_round_short. Qed.
Print Assumptions C100_not_exact.
Example C100_hyps : 1 / 2 <= 9 / 10 < 1 /\ 0 <= 2 /\ (1 <> 0 \/ 1 <> 0) /\ 0 < 2 /\ 0 < 1.
Proof. repeat split; try lra. Qed.
