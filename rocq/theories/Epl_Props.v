(** * Properties of the elliptical power law *)
From Coq Require Import Reals Arith Lia Lra.
From Verif Require Import Py Calc2 Lens_Spec Geo_Model LensBasic_Model Epl_Model Epl_Spec Epl4_Proofs Epl5_Proofs.
Local Open Scope R_scope.

(** C48 fails: with four terms, chunks of two give another deflection than no chunks. *)
Theorem C48_chunk_refuted : exists u v, reduced_deflection_angle_epl 0 0 (1 / 2) 0 1 1 4 None 2 0 = Ok u /\
  reduced_deflection_angle_epl 0 0 (1 / 2) 0 1 1 4 (Some 2%nat) 2 0 = Ok v /\ u <> v.
Proof. exact chunk_witness_deflection. Qed.
(** What does hold: term by term and any chunk size above half of n_iter give the same deflection as no chunks. *)
Theorem C48_whole_series_partial : forall x0 y0 q phi Rein t n c x y, (1 <= n)%nat -> c = 1%nat \/ (2 <= c <= n /\ n < 2 * c)%nat ->
  reduced_deflection_angle_epl x0 y0 q phi Rein t n (Some c) x y = reduced_deflection_angle_epl x0 y0 q phi Rein t n None x y.
Proof.
  intros x0 y0 q phi Rein t n c x y Hn Hc. rewrite !deflection_framed; try assumption; try exact I; [reflexivity|].
  destruct Hc as [->|[H1 H2]]; [left; reflexivity|right; split; [apply H1|]].
  symmetry. apply Nat.div_unique with (n - c)%nat; lia.
Qed.
(** A chunk size above n_iter fails with a TypeError. *)
Theorem C48_oversized_chunk : forall x0 y0 q phi Rein t n c x y, (2 <= c)%nat -> (n < c)%nat ->
  reduced_deflection_angle_epl x0 y0 q phi Rein t n (Some c) x y = Raise TypeError.
Proof. exact big_chunk_deflection. Qed.
Example C48_hyps : (1 <= 18)%nat /\ (2 <= 10 <= 18 /\ 18 < 2 * 10)%nat /\ (18 < 20)%nat.
Proof. lia. Qed.

(** C49: the exact remainder of the divergence, of the curl and of the gradient of the potential. *)
Theorem C49_remainder : forall x0 y0 q phi Rein t n c, (1 <= n)%nat -> good_chunk n c -> 0 < q <= 1 -> 0 < Rein -> 0 < t < 2 ->
  forall x y, x <> x0 \/ y <> y0 ->
  let X := fst (translate_rotate x y x0 y0 (Some phi)) in let Y := snd (translate_rotate x y x0 y0 (Some phi)) in
  exists alpha psi th,
  (forall u v, reduced_deflection_angle_epl x0 y0 q phi Rein t n c u v = Ok (alpha u v)) /\
  (forall u v, potential_epl x0 y0 q phi Rein t n c u v = Ok (psi u v)) /\
  q * X = sqrt ((q * X) ^ 2 + Y ^ 2) * cos th /\ Y = sqrt ((q * X) ^ 2 + Y ^ 2) * sin th /\
  let kappa := convergence_epl x0 y0 q phi Rein t 0 x y in
  let rem := 2 / (2 - t) * neglected t n * (- ((1 - q) / (1 + q))) ^ n in
  (exists axx axy ayx ayy, D2 (fun u v => fst (alpha u v)) x y axx axy /\ D2 (fun u v => snd (alpha u v)) x y ayx ayy /\
    (axx + ayy) / 2 = kappa * (1 - rem * cos (2 * INR n * th)) /\ (ayx - axy) / 2 = - (kappa * rem * sin (2 * INR n * th))) /\
  gradient psi x y (fst (alpha x y) - 2 * (kappa * rem * sin (2 * INR n * th)) / (2 - t) * (y - y0),
                    snd (alpha x y) + 2 * (kappa * rem * sin (2 * INR n * th)) / (2 - t) * (x - x0)).
Proof. exact epl_derivatives. Qed.
(** For slopes up to the isothermal one the constant t (1 - q) / ((2 - t) (1 + q)) works. *)
Theorem C49_divergence_partial : forall x0 y0 q phi Rein t n c x y, (1 <= n)%nat -> good_chunk n c -> 0 < q <= 1 -> 0 < Rein -> 0 < t <= 1 -> x <> x0 \/ y <> y0 ->
  let kappa := convergence_epl x0 y0 q phi Rein t 0 x y in
  exists alpha d, (forall u v, reduced_deflection_angle_epl x0 y0 q phi Rein t n c u v = Ok (alpha u v)) /\ half_divergence alpha x y d /\
  Rabs (d - kappa) <= kappa * (((1 - q) / (1 + q)) ^ (n - 1) * (2 / (2 - t) * (t / 2) * ((1 - q) / (1 + q)))).
Proof. exact divergence_flat. Qed.
(** For every slope the constant has to be multiplied by the number of terms. *)
Theorem C49_divergence_all_slopes_partial : forall x0 y0 q phi Rein t n c x y, (1 <= n)%nat -> good_chunk n c -> 0 < q <= 1 -> 0 < Rein -> 0 < t < 2 -> x <> x0 \/ y <> y0 ->
  let kappa := convergence_epl x0 y0 q phi Rein t 0 x y in
  exists alpha d, (forall u v, reduced_deflection_angle_epl x0 y0 q phi Rein t n c u v = Ok (alpha u v)) /\ half_divergence alpha x y d /\
  Rabs (d - kappa) <= kappa * (((1 - q) / (1 + q)) ^ (n - 1) * (2 / (2 - t) * INR n * ((1 - q) / (1 + q)))).
Proof. exact divergence_steep. Qed.
(** No constant independent of n_iter works for t = 3/2. *)
Theorem C49_constant_refuted : forall C, exists n alpha d, (1 <= n)%nat /\
  (forall u v, reduced_deflection_angle_epl 0 0 (1 / 2) 0 1 (3 / 2) n None u v = Ok (alpha u v)) /\ half_divergence alpha 1 0 d /\
  Rabs (d - convergence_epl 0 0 (1 / 2) 0 1 (3 / 2) 0 1 0) > convergence_epl 0 0 (1 / 2) 0 1 (3 / 2) 0 1 0 * ((1 - 1 / 2) / (1 + 1 / 2)) ^ (n - 1) * C.
Proof. exact constant_refuted_aux. Qed.
(** Circular: deflection, potential and convergence agree exactly. *)
Theorem C49_circular : forall x0 y0 phi Rein t n c x y, (1 <= n)%nat -> good_chunk n c -> 0 < Rein -> 0 < t < 2 -> x <> x0 \/ y <> y0 ->
  exists alpha psi, (forall u v, reduced_deflection_angle_epl x0 y0 1 phi Rein t n c u v = Ok (alpha u v)) /\
  (forall u v, potential_epl x0 y0 1 phi Rein t n c u v = Ok (psi u v)) /\ lens_consistent psi alpha (convergence_epl x0 y0 1 phi Rein t 0) x y.
Proof. exact epl_circular. Qed.
Theorem C49_scaling : forall x0 y0 q phi Rein t n c x y l, (1 <= n)%nat -> good_chunk n c -> 0 < q <= 1 -> 0 < Rein -> x <> x0 \/ y <> y0 -> 0 < l ->
  exists ax ay, reduced_deflection_angle_epl x0 y0 q phi Rein t n c x y = Ok (ax, ay) /\
  reduced_deflection_angle_epl x0 y0 q phi Rein t n c (x0 + l * (x - x0)) (y0 + l * (y - y0)) = Ok (Rpower l (1 - t) * ax, Rpower l (1 - t) * ay) /\
  potential_epl x0 y0 q phi Rein t n c x y = Ok (((x - x0) * ax + (y - y0) * ay) / (2 - t)).
Proof. exact epl_scale. Qed.
Theorem C49_isothermal : forall x0 y0 phi Rein n c x y, (1 <= n)%nat -> good_chunk n c -> 0 < Rein -> x <> x0 \/ y <> y0 ->
  reduced_deflection_angle_epl x0 y0 1 phi Rein 1 n c x y = Ok (reduced_deflection_angle_sis x0 y0 Rein 0 x y) /\
  potential_epl x0 y0 1 phi Rein 1 n c x y = Ok (potential_sis x0 y0 Rein 0 x y).
Proof. exact epl_is_sis. Qed.
(** The softening enters the convergence only, which then is no longer half the divergence. *)
Theorem C49_softened_refuted : forall s, 0 < s ->
  ~ (exists alpha, (forall u v, reduced_deflection_angle_epl 0 0 1 0 1 1 1 None u v = Ok (alpha u v)) /\ half_divergence alpha 1 0 (convergence_epl 0 0 1 0 1 1 s 1 0)).
Proof. exact epl_softened. Qed.
Example C49_hyps : (1 <= 18)%nat /\ good_chunk 18 None /\ good_chunk 18 (Some 18%nat) /\ 0 < 7 / 10 <= 1 /\ 0 < 1 /\ 0 < 3 / 2 < 2 /\ (2 <> 0 \/ 1 <> 0).
Proof. assert (G : good_chunk 18 (Some 18%nat)) by (right; split; [lia|reflexivity]). assert (H : 2 <> 0 \/ 1 <> 0) by (left; lra). repeat split; try lia; try lra; assumption. Qed.

Theorem C74_isothermal_convergence : forall x0 y0 q phi Rein x y, 0 < q -> 0 < Rein -> x <> x0 \/ y <> y0 ->
  convergence_epl x0 y0 q phi Rein 1 0 x y = convergence_sie x0 y0 q phi Rein 0 x y.
Proof. exact epl_is_sie. Qed.
Example C74_hyps : 0 < 7 / 10 /\ 0 < 3 / 2 /\ (1 <> 0 \/ 2 <> 0).
Proof. repeat split; lra. Qed.
Print Assumptions C48_chunk_refuted.
Print Assumptions C48_whole_series_partial.
Print Assumptions C48_oversized_chunk.
Print Assumptions C49_remainder.
Print Assumptions C49_divergence_partial.
Print Assumptions C49_divergence_all_slopes_partial.
Print Assumptions C49_constant_refuted.
Print Assumptions C49_circular.
Print Assumptions C49_scaling.
Print Assumptions C49_isothermal.
Print Assumptions C49_softened_refuted.
Print Assumptions C74_isothermal_convergence.
