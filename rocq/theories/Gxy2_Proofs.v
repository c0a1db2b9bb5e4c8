(** * Proofs for C148: a shear changes the ellipticity of a galaxy by the composition law *)
From Coq Require Import Reals Lra List Arith.
From Coquelicot Require Import Complex.
From Verif Require Import Py RealFun Geo_Model Angle_Model Angle_Proofs LensBase_Model LensBasic_Model Light_Model Sim_Model First_Spec Gxy_Spec Gxy_Proofs.
Import ListNotations.
Local Open Scope R_scope.

(** the squared elliptical radius of an ellipse given by e1, e2 *)
Definition form (e1 e2 X Y : R) : R := ((1 - e1) * X - e2 * Y) ^ 2 + ((1 + e1) * Y - e2 * X) ^ 2.
Lemma form_pos e1 e2 X Y : 0 <= form e1 e2 X Y.
Proof. unfold form. assert (A := pow2_ge_0 ((1 - e1) * X - e2 * Y)). assert (B := pow2_ge_0 ((1 + e1) * Y - e2 * X)). lra. Qed.
Lemma ell_radius e1 e2 X Y : sqrt (e1 ^ 2 + e2 ^ 2) < 1 -> let phi := e1e2_to_phi e1 e2 in let q := e1e2_to_q e1 e2 in
  sqrt ((X * cos phi + Y * sin phi) ^ 2 + ((Y * cos phi - X * sin phi) / q) ^ 2) = sqrt (form e1 e2 X Y) / (1 - sqrt (e1 ^ 2 + e2 ^ 2)).
Proof.
  intros H phi q. destruct (atan2_polar e1 e2) as [A B]. set (r := sqrt (e1 ^ 2 + e2 ^ 2)) in *. assert (Hr : 0 <= r) by apply sqrt_pos.
  assert (Q : q = (1 - r) / (1 + r)) by (unfold q, e1e2_to_q; fold r; rewrite clamp01_id by lra; reflexivity).
  replace (atan2 e2 e1) with (2 * phi) in A, B by (unfold phi, e1e2_to_phi; field). rewrite cos_2a in A. rewrite sin_2a in B.
  assert (N := unit_circle phi). set (c := cos phi) in *. set (s := sin phi) in *.
  assert (E : (X * c + Y * s) ^ 2 + ((Y * c - X * s) / q) ^ 2 = form e1 e2 X Y / Rsqr (1 - r)).
  { rewrite Q. unfold Rsqr. apply (Rmult_eq_reg_r ((1 - r) * (1 - r))); [|apply Rmult_integral_contrapositive_currified; lra].
    transitivity ((X * c + Y * s) ^ 2 * (1 - r) ^ 2 + (Y * c - X * s) ^ 2 * (1 + r) ^ 2); [field; lra|]. transitivity (form e1 e2 X Y); [|field; lra].
    unfold form. set (n := c * c + s * s) in N.
    transitivity (n * (X ^ 2 + Y ^ 2) * (1 + r ^ 2) - 2 * (r * (c * c - s * s)) * (X ^ 2 - Y ^ 2) - 4 * (r * (2 * s * c)) * (X * Y)); [unfold n; ring|]. rewrite <- A, <- B, N.
    transitivity ((X ^ 2 + Y ^ 2) * (1 + (e1 ^ 2 + e2 ^ 2)) - 2 * e1 * (X ^ 2 - Y ^ 2) - 4 * e2 * (X * Y)); [|ring].
    replace (e1 ^ 2 + e2 ^ 2) with (r ^ 2); [ring|]. unfold r. rewrite pow2_sqrt; [reflexivity|]. assert (U := pow2_ge_0 e1). assert (V := pow2_ge_0 e2). lra. }
  rewrite E. rewrite sqrt_div_alt by (apply Rsqr_pos_lt; lra). rewrite sqrt_Rsqr by lra. reflexivity.
Qed.

Section Compose.
Variables (e1 e2 g1 g2 : R).
Let d1 := 1 + e1 * g1 + e2 * g2. Let d2 := e2 * g1 - e1 * g2.
Hypothesis He : e1 ^ 2 + e2 ^ 2 < 1.
Hypothesis Hg : g1 ^ 2 + g2 ^ 2 < 1.
Lemma den_num : (d1 ^ 2 + d2 ^ 2) - ((e1 + g1) ^ 2 + (e2 + g2) ^ 2) = (1 - (e1 ^ 2 + e2 ^ 2)) * (1 - (g1 ^ 2 + g2 ^ 2)).
Proof. unfold d1, d2. ring. Qed.
Lemma den_pos : 0 < d1 ^ 2 + d2 ^ 2.
Proof.
  assert (A := den_num). assert (B : 0 < (1 - (e1 ^ 2 + e2 ^ 2)) * (1 - (g1 ^ 2 + g2 ^ 2))) by (apply Rmult_lt_0_compat; lra).
  assert (U := pow2_ge_0 (e1 + g1)). assert (V := pow2_ge_0 (e2 + g2)). lra.
Qed.
Let E := sheared (e1, e2) (g1, g2).
Lemma sheared_at : fst E = ((e1 + g1) * d1 + (e2 + g2) * d2) / (d1 ^ 2 + d2 ^ 2) /\ snd E = ((e2 + g2) * d1 - (e1 + g1) * d2) / (d1 ^ 2 + d2 ^ 2).
Proof.
  assert (P := den_pos). unfold E, sheared, Cdiv, Cinv, Cmult, Cplus, Cconj, RtoC. cbn [fst snd].
  replace (1 + (e1 * g1 - e2 * - g2)) with d1 by (unfold d1; ring). replace (0 + (e1 * - g2 + e2 * g1)) with d2 by (unfold d2; ring). split; field; lra.
Qed.
Lemma sheared_eq : e1 + g1 = fst E * d1 - snd E * d2 /\ e2 + g2 = fst E * d2 + snd E * d1.
Proof. assert (P := den_pos). destruct sheared_at as [A B]. rewrite A, B. split; field; lra. Qed.
Lemma sheared_lt : fst E ^ 2 + snd E ^ 2 < 1.
Proof.
  assert (P := den_pos). destruct sheared_eq as [A B]. assert (N := den_num). rewrite A, B in N.
  assert (K : (d1 ^ 2 + d2 ^ 2) * (1 - (fst E ^ 2 + snd E ^ 2)) = (1 - (e1 ^ 2 + e2 ^ 2)) * (1 - (g1 ^ 2 + g2 ^ 2))) by (rewrite <- N; ring).
  assert (0 < (1 - (e1 ^ 2 + e2 ^ 2)) * (1 - (g1 ^ 2 + g2 ^ 2))) by (apply Rmult_lt_0_compat; lra).
  assert (0 < 1 - (fst E ^ 2 + snd E ^ 2)); [|lra]. apply (Rmult_lt_reg_l (d1 ^ 2 + d2 ^ 2)); [exact P|]. lra.
Qed.
Lemma form_sheared k X Y : form e1 e2 (k * (X - (g1 * X + g2 * Y))) (k * (Y - (g2 * X - g1 * Y))) = Rsqr k * (d1 ^ 2 + d2 ^ 2) * form (fst E) (snd E) X Y.
Proof.
  destruct sheared_eq as [A B].
  transitivity (Rsqr k * ((d1 * X - d2 * Y - ((e1 + g1) * X + (e2 + g2) * Y)) ^ 2 + (d1 * Y + d2 * X - ((e2 + g2) * X - (e1 + g1) * Y)) ^ 2)); [unfold form, d1, d2, Rsqr; ring|].
  rewrite A, B. unfold form, Rsqr. ring.
Qed.
Lemma den_mod : Cmod (1 + (e1, e2) * Cconj (g1, g2))%C = sqrt (d1 ^ 2 + d2 ^ 2).
Proof. unfold Cmod, Cmult, Cplus, Cconj, RtoC. cbn [fst snd]. f_equal. unfold d1, d2. ring. Qed.
End Compose.

Lemma mod_lt e1 e2 : Cmod (e1, e2) < 1 -> e1 ^ 2 + e2 ^ 2 < 1.
Proof. intros H. unfold Cmod in H. cbn [fst snd] in H. apply sqrt_lt_0_alt. rewrite sqrt_1. exact H. Qed.
Section Looks.
Variables (z X0 Y0 kappa g1 g2 e1 e2 : R).
Let ray := raytrace (reduced_deflection_angle (singleplane z (map (lens_of z) [Shear X0 Y0 ((1 - kappa) * g1) ((1 - kappa) * g2); Sheet X0 Y0 kappa]))).
Let E := sheared (e1, e2) (g1, g2).
Hypothesis Hk : kappa <> 1.
Hypothesis He : Cmod (e1, e2) < 1.
Hypothesis Hg : Cmod (g1, g2) < 1.
Lemma ray_diff x y cx cy : fst (ray x y) - fst (ray cx cy) = (1 - kappa) * ((x - cx) - (g1 * (x - cx) + g2 * (y - cy))) /\ snd (ray x y) - snd (ray cx cy) = (1 - kappa) * ((y - cy) - (g2 * (x - cx) - g1 * (y - cy))).
Proof.
  unfold ray, raytrace. cbn [singleplane reduced_deflection_angle map lens_of singleplane_deflection fold_left fst snd].
  unfold reduced_deflection_angle_external_shear, reduced_deflection_angle_mass_sheet, translate_rotate. cbv zeta. cbn [fst snd]. split; ring.
Qed.
Lemma E_lt : Cmod E < 1.
Proof. unfold Cmod. rewrite <- sqrt_1. apply sqrt_lt_1_alt. split; [assert (U := pow2_ge_0 (fst E)); assert (V := pow2_ge_0 (snd E)); lra|]. exact (sheared_lt e1 e2 g1 g2 (mod_lt _ _ He) (mod_lt _ _ Hg)). Qed.
Lemma den_gt : 0 < Cmod (1 + (e1, e2) * Cconj (g1, g2))%C.
Proof. rewrite den_mod. apply sqrt_lt_R0. exact (den_pos e1 e2 g1 g2 (mod_lt _ _ He) (mod_lt _ _ Hg)). Qed.
Lemma growth_pos : 0 < growth kappa (e1, e2) (g1, g2).
Proof. assert (A := E_lt). assert (B := den_gt). unfold growth. fold E. apply Rdiv_lt_0_compat; [lra|]. repeat apply Rmult_lt_0_compat; [lra|apply Rabs_pos_lt; lra|exact B]. Qed.
Lemma sersic_sheared lk soft cx cy n Re Ie x y : Re <> 0 -> let m := growth kappa (e1, e2) (g1, g2) in
  sersic_brightness lk soft (fst (ray cx cy)) (snd (ray cx cy)) (e1e2_to_q e1 e2) (e1e2_to_phi e1 e2) n Re Ie (fst (ray x y)) (snd (ray x y)) =
  sersic_brightness lk (m * soft) cx cy (e1e2_to_q (fst E) (snd E)) (e1e2_to_phi (fst E) (snd E)) n (m * Re) Ie x y.
Proof.
  intros HR m. unfold sersic_brightness. set (k := if lk then _ else _). unfold brightness_sersic, translate_rotate, to_elliptical. cbv zeta.
  rewrite (ell_radius e1 e2 _ _ He). rewrite (ell_radius (fst E) (snd E) _ _ E_lt). destruct (ray_diff x y cx cy) as [D1 D2]. rewrite D1, D2.
  rewrite (form_sheared e1 e2 g1 g2 (mod_lt _ _ He) (mod_lt _ _ Hg)). fold E. rewrite Rmult_assoc. rewrite sqrt_mult_alt by apply Rle_0_sqr. rewrite sqrt_mult_alt by (apply Rlt_le; exact (den_pos e1 e2 g1 g2 (mod_lt _ _ He) (mod_lt _ _ Hg))).
  rewrite <- den_mod. rewrite sqrt_Rsqr_abs. set (r := sqrt (form _ _ _ _)).
  change (sqrt (e1 ^ 2 + e2 ^ 2)) with (Cmod (e1, e2)). change (sqrt (fst E ^ 2 + snd E ^ 2)) with (Cmod E).
  assert (A := E_lt). assert (B := den_gt). assert (K : 0 < Rabs (1 - kappa)) by (apply Rabs_pos_lt; lra). assert (M := growth_pos). fold m in M.
  replace ((Rabs (1 - kappa) * (Cmod (1 + (e1, e2) * Cconj (g1, g2))%C * r) / (1 - Cmod (e1, e2)) + soft) / Re) with ((r / (1 - Cmod E) + m * soft) / (m * Re)); [reflexivity|].
  assert (J : r / (1 - Cmod E) = m * (Rabs (1 - kappa) * (Cmod (1 + (e1, e2) * Cconj (g1, g2))%C * r) / (1 - Cmod (e1, e2)))) by (unfold m, growth; fold E; field; repeat split; lra).
  rewrite J. field. lra.
Qed.
Lemma sheared_image lk soft cx cy n Re Ie (F : option R -> R) : Re <> 0 -> let m := growth kappa (e1, e2) (g1, g2) in forall S ll kr kc psf x0 y0 so lo conv chunk,
  call ray S (Some (fun x y => F (sersic_brightness lk soft (fst (ray cx cy)) (snd (ray cx cy)) (e1e2_to_q e1 e2) (e1e2_to_phi e1 e2) n Re Ie x y))) ll kr kc psf x0 y0 so lo true conv chunk =
  call ray S (Some (fun x y => F (sersic_brightness lk (m * soft) cx cy (e1e2_to_q (fst E) (snd E)) (e1e2_to_phi (fst E) (snd E)) n (m * Re) Ie x y))) ll kr kc psf x0 y0 so lo false conv chunk.
Proof. intros HR m. apply looks_image. intros x y. cbv beta. f_equal. exact (sersic_sheared lk soft cx cy n Re Ie x y HR). Qed.
(** the area of the galaxy is multiplied by the magnification *)
Lemma sheared_area Re : let m := growth kappa (e1, e2) (g1, g2) in
  e1e2_to_q (fst E) (snd E) * (m * Re) ^ 2 = e1e2_to_q e1 e2 * Re ^ 2 * (1 / ((1 - kappa) ^ 2 * (1 - Cmod (g1, g2) ^ 2))).
Proof.
  intros m. assert (A := E_lt). assert (B := den_gt). assert (K : 0 < Rabs (1 - kappa)) by (apply Rabs_pos_lt; lra). assert (PE := Cmod_ge_0 E). assert (Pe := Cmod_ge_0 (e1, e2)). assert (Pg := Cmod_ge_0 (g1, g2)).
  unfold e1e2_to_q. change (sqrt (e1 ^ 2 + e2 ^ 2)) with (Cmod (e1, e2)). change (sqrt (fst E ^ 2 + snd E ^ 2)) with (Cmod E). rewrite !clamp01_id by lra.
  assert (M2 : forall c : C, Cmod c ^ 2 = fst c ^ 2 + snd c ^ 2) by (intros [a b]; unfold Cmod; rewrite pow2_sqrt; [reflexivity|]; cbn [fst snd]; assert (U := pow2_ge_0 a); assert (V := pow2_ge_0 b); lra).
  assert (J : (1 - Cmod E ^ 2) * Cmod (1 + (e1, e2) * Cconj (g1, g2))%C ^ 2 = (1 - Cmod (e1, e2) ^ 2) * (1 - Cmod (g1, g2) ^ 2)).
  { rewrite !(M2 E), !(M2 (e1, e2)), !(M2 (g1, g2)), den_mod. cbn [fst snd]. rewrite pow2_sqrt by (apply Rlt_le; exact (den_pos e1 e2 g1 g2 (mod_lt _ _ He) (mod_lt _ _ Hg))).
    rewrite <- (den_num e1 e2 g1 g2). destruct (sheared_eq e1 e2 g1 g2 (mod_lt _ _ He) (mod_lt _ _ Hg)) as [S1 S2]. rewrite S1, S2. fold E. ring. }
  unfold m, growth. fold E. set (d := Cmod (1 + (e1, e2) * Cconj (g1, g2))%C) in *. set (h := Cmod E) in *. set (e := Cmod (e1, e2)) in *. set (g := Cmod (g1, g2)) in *.
  replace ((1 - kappa) ^ 2) with (Rabs (1 - kappa) ^ 2) by apply pow2_abs. set (a := Rabs (1 - kappa)) in *.
  transitivity (Re ^ 2 * (1 - e) ^ 2 / (((1 - h ^ 2) * d ^ 2) * a ^ 2)).
  - replace (1 - h ^ 2) with ((1 - h) * (1 + h)) by ring. field. repeat split; lra.
  - rewrite J. replace (1 - e ^ 2) with ((1 - e) * (1 + e)) by ring. field. repeat split; try lra. replace (1 - g ^ 2) with ((1 - g) * (1 + g)) by ring. apply Rmult_integral_contrapositive_currified; lra.
Qed.
(** every source position has exactly one image *)
Lemma one_image sx sy : exists cx cy, ray cx cy = (sx, sy) /\ forall x y, ray x y = (sx, sy) -> x = cx /\ y = cy.
Proof.
  assert (G := mod_lt _ _ Hg). set (a := 1 - kappa). assert (Ha : a <> 0) by (unfold a; lra). set (d := 1 - (g1 ^ 2 + g2 ^ 2)). assert (Hd : 0 < d) by (unfold d; lra).
  set (p := sx - fst (ray 0 0)). set (w := sy - snd (ray 0 0)). exists (((1 + g1) * p + g2 * w) / (a * d)), ((g2 * p + (1 - g1) * w) / (a * d)). split.
  - destruct (ray_diff (((1 + g1) * p + g2 * w) / (a * d)) ((g2 * p + (1 - g1) * w) / (a * d)) 0 0) as [A B]. fold a in A, B. rewrite (surjective_pairing (ray _ _)). apply f_equal2.
    + enough (fst (ray (((1 + g1) * p + g2 * w) / (a * d)) ((g2 * p + (1 - g1) * w) / (a * d))) - fst (ray 0 0) = p) by (unfold p in *; lra). rewrite A. clearbody p w. unfold d in *. field. split; lra.
    + enough (snd (ray (((1 + g1) * p + g2 * w) / (a * d)) ((g2 * p + (1 - g1) * w) / (a * d))) - snd (ray 0 0) = w) by (unfold w in *; lra). rewrite B. clearbody p w. unfold d in *. field. split; lra.
  - intros x y H. destruct (ray_diff x y 0 0) as [A B]. rewrite H in A, B. cbn [fst snd] in A, B. fold a in A, B. fold p in A. fold w in B. rewrite A, B. unfold d in *. split; field; split; lra.
Qed.
End Looks.
