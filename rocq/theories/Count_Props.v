(** * C135: how many images a round lens makes *)
From Coq Require Import Reals Lra Lia.
From Verif Require Import Py Const_Model LensBase_Model LensBasic_Model Epl_Model Epl_Spec Jaffe_Model Ring_Spec Ring_Proofs Ring2_Proofs Count_Spec Count_Proofs Count2_Proofs.
Local Open Scope R_scope.

(** With a core, a third image appears: three images up to the source radius (sqrt Rein - sqrt s)^2. *)
Theorem C135_sis : forall x0 y0 Rein s, 0 < s -> s < Rein -> radial_caustic (reduced_deflection_angle_sis x0 y0 Rein s) x0 y0 ((sqrt Rein - sqrt s) ^ 2).
Proof. exact sis_caustic. Qed.
Print Assumptions C135_sis.
Theorem C135_sis_wide : forall x0 y0 Rein s, 0 < Rein -> Rein <= s -> forall b, off x0 y0 b -> image_count (reduced_deflection_angle_sis x0 y0 Rein s) x0 y0 b 1.
Proof. exact sis_wide. Qed.
Print Assumptions C135_sis_wide.
Theorem C135_sis_sharp : forall x0 y0 Rein, 0 < Rein -> forall b, off x0 y0 b ->
  (radius x0 y0 b < Rein -> image_count (reduced_deflection_angle_sis x0 y0 Rein 0) x0 y0 b 2) /\ (Rein <= radius x0 y0 b -> image_count (reduced_deflection_angle_sis x0 y0 Rein 0) x0 y0 b 1).
Proof. exact sis_sharp. Qed.
Print Assumptions C135_sis_sharp.
Theorem C135_point : forall x0 y0 Rein s, 0 < s -> s < Rein -> exists bc, radial_caustic (reduced_deflection_angle_point x0 y0 Rein s) x0 y0 bc.
Proof. exact point_caustic. Qed.
Print Assumptions C135_point.
Theorem C135_point_wide : forall x0 y0 Rein s, 0 < Rein -> Rein <= s -> forall b, off x0 y0 b -> image_count (reduced_deflection_angle_point x0 y0 Rein s) x0 y0 b 1.
Proof. exact point_wide. Qed.
Print Assumptions C135_point_wide.
Theorem C135_point_sharp : forall x0 y0 Rein, 0 < Rein -> forall b, off x0 y0 b -> image_count (reduced_deflection_angle_point x0 y0 Rein 0) x0 y0 b 2.
Proof. exact point_sharp. Qed.
Print Assumptions C135_point_sharp.
(** Three, two or one image for a power law shallower than isothermal, always two for a steeper one. *)
Theorem C135_epl : forall x0 y0 phi Rein t n c, 0 < Rein -> 0 < t < 2 -> (1 <= n)%nat -> good_chunk n c ->
  exists a, (forall x y, reduced_deflection_angle_epl x0 y0 1 phi Rein t n c x y = Ok (a x y)) /\
  (t < 1 -> radial_caustic a x0 y0 (t / (1 - t) * (Rein * Rpower (1 - t) (/ t)))) /\
  (1 < t -> forall b, off x0 y0 b -> image_count a x0 y0 b 2) /\
  (t = 1 -> forall b, off x0 y0 b -> (radius x0 y0 b < Rein -> image_count a x0 y0 b 2) /\ (Rein <= radius x0 y0 b -> image_count a x0 y0 b 1)).
Proof. exact epl_count. Qed.
Print Assumptions C135_epl.
Theorem C135_pseudo_jaffe_weak : forall x0 y0 mass Rc Rs d_l sigma, 0 < mass -> 0 < Rc -> 0 < Rs -> Rc <> Rs -> 0 < d_l -> 0 < sigma ->
  convergence_pseudo_jaffe x0 y0 mass Rc Rs x0 y0 d_l sigma 0 <= 1 -> forall b, off x0 y0 b -> image_count (fun x y => reduced_deflection_angle_pseudo_jaffe x0 y0 mass Rc Rs x y d_l sigma 0) x0 y0 b 1.
Proof. exact jaffe_single. Qed.
Print Assumptions C135_pseudo_jaffe_weak.
Theorem C135_pseudo_jaffe_strong : forall x0 y0 mass Rc Rs d_l sigma, 0 < mass -> 0 < Rc -> 0 < Rs -> Rc <> Rs -> 0 < d_l -> 0 < sigma ->
  1 < convergence_pseudo_jaffe x0 y0 mass Rc Rs x0 y0 d_l sigma 0 -> exists bc, radial_caustic (fun x y => reduced_deflection_angle_pseudo_jaffe x0 y0 mass Rc Rs x y d_l sigma 0) x0 y0 bc.
Proof. exact jaffe_caustic. Qed.
Print Assumptions C135_pseudo_jaffe_strong.

Example C135_hyps : (0 < 1 / 4 /\ 1 / 4 < 4 /\ radius 0 0 (3 / 5, 4 / 5) < (sqrt 4 - sqrt (1 / 4)) ^ 2 /\ (sqrt 4 - sqrt (1 / 4)) ^ 2 < radius 0 0 (3, 4)) /\ off 0 0 (3, 4) /\ (0 < 1 / 2 < 2 /\ (1 <= 5)%nat /\ good_chunk 5 None) /\
  exists mass, 0 < mass /\ 1 < convergence_pseudo_jaffe 0 0 mass 1 2 0 0 1 1 0.
Proof.
  assert (R4 : sqrt 4 = 2) by (replace 4 with (2 ^ 2) by ring; apply sqrt_pow2; lra). assert (Rq : sqrt (1 / 4) = 1 / 2) by (replace (1 / 4) with ((1 / 2) ^ 2) by field; apply sqrt_pow2; lra).
  split; [|split; [|split]].
  - rewrite R4, Rq. unfold radius. cbn [fst snd]. replace ((3 / 5 - 0) ^ 2 + (4 / 5 - 0) ^ 2) with (1 ^ 2) by field. replace ((3 - 0) ^ 2 + (4 - 0) ^ 2) with (5 ^ 2) by ring. rewrite !sqrt_pow2 by lra. repeat split; lra.
  - left. cbn. lra.
  - repeat split; lra || lia.
  - exact heavy_jaffe.
Qed.
