(** * C156: a ring of galaxies averages to the reduced shear *)
From Coq Require Import Reals Lra List Lia.
From Coquelicot Require Import Complex.
From Verif Require Import Py Angle_Model LensBase_Model Light_Model Sim_Model First_Spec Wheel_Spec Wheel_Proofs.
Import ListNotations.
Local Open Scope R_scope.

(** N Sersic galaxies of one ellipticity |e| < 1, the j-th turned by j / N of half a turn, are seen through an ExternalShear (1 - kappa) g and a MassSheet kappa.  Each is seen as a Sersic galaxy of
    some ellipticity E j, and the mean of these N ellipticities misses g by at most 2 |e|^N |g|^(N - 1). *)
Theorem C156_ring : forall z X0 Y0 kappa e g N, kappa <> 1 -> Cmod e < 1 -> Cmod g < 1 -> (0 < N)%nat ->
  let ray := raytrace (reduced_deflection_angle (singleplane z (map (lens_of z) [Shear X0 Y0 ((1 - kappa) * fst g) ((1 - kappa) * snd g); Sheet X0 Y0 kappa]))) in
  exists (E : nat -> C) (m : nat -> R),
    (forall j, (j < N)%nat -> Cmod (E j) < 1 /\ 0 < m j /\ forall lk soft cx cy n Re Ie x y, Re <> 0 -> let e' := turned e N j in
      sersic_brightness lk soft (fst (ray cx cy)) (snd (ray cx cy)) (e1e2_to_q (fst e') (snd e')) (e1e2_to_phi (fst e') (snd e')) n Re Ie (fst (ray x y)) (snd (ray x y)) =
      sersic_brightness lk (m j * soft) cx cy (e1e2_to_q (fst (E j)) (snd (E j))) (e1e2_to_phi (fst (E j)) (snd (E j))) n (m j * Re) Ie x y) /\
    Cmod (mean N E - g)%C <= 2 * Cmod e ^ N * Cmod g ^ (N - 1).
Proof. exact ring_seen. Qed.
Print Assumptions C156_ring.
(** The galaxies of the ring have one axis ratio, and their position angles are phi + pi j / N up to half turns. *)
Theorem C156_shape : forall e N j, let e' := turned e N j in
  e1e2_to_q (fst e') (snd e') = e1e2_to_q (fst e) (snd e) /\
  (e <> RtoC 0 -> cos (2 * e1e2_to_phi (fst e') (snd e')) = cos (2 * (e1e2_to_phi (fst e) (snd e) + PI * INR j / INR N)) /\ sin (2 * e1e2_to_phi (fst e') (snd e')) = sin (2 * (e1e2_to_phi (fst e) (snd e) + PI * INR j / INR N))).
Proof. intros e N j. split; [exact (turned_q e N j)|exact (turned_phi e N j)]. Qed.
Print Assumptions C156_shape.
(** The bound goes to nothing as the ring fills up. *)
Theorem C156_limit : forall (e g : C), Cmod e < 1 -> Cmod g < 1 -> forall eps, 0 < eps -> exists N0, forall N, (N0 <= N)%nat -> 2 * Cmod e ^ N * Cmod g ^ (N - 1) < eps.
Proof. exact bound_limit. Qed.
Print Assumptions C156_limit.

(** The hypotheses can be met: e = 3/10 i, g = 1/2, kappa = 1/4; four galaxies give g to within 0.0021. *)
Example C156_hyps : 1 / 4 <> 1 /\ Cmod (0, 3 / 10) < 1 /\ Cmod (1 / 2, 0) < 1 /\ 2 * Cmod (0, 3 / 10) ^ 4 * Cmod (1 / 2, 0) ^ (4 - 1) < 21 / 10000.
Proof.
  assert (A : sqrt (0 ^ 2 + (3 / 10) ^ 2) = 3 / 10) by (replace (0 ^ 2 + (3 / 10) ^ 2) with (Rsqr (3 / 10)) by (unfold Rsqr; field); apply sqrt_Rsqr; lra).
  assert (B : sqrt ((1 / 2) ^ 2 + 0 ^ 2) = 1 / 2) by (replace ((1 / 2) ^ 2 + 0 ^ 2) with (Rsqr (1 / 2)) by (unfold Rsqr; field); apply sqrt_Rsqr; lra).
  unfold Cmod. cbn [fst snd Nat.sub]. rewrite A, B. repeat split; lra.
Qed.
