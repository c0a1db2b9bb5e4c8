(** * Proofs for C142: a round lens in a shear *)
From Coq Require Import Reals Lra Psatz List String.
From Coquelicot Require Import Coquelicot.
From Verif Require Import Py RealFun Calc2 Lens_Spec Lens_Lib Geo_Model Cosmo_Model LensBase_Model LensBasic_Model LensBasic_Proofs LensBasic2_Proofs LensBase_Proofs First_Spec Four_Spec Four_Proofs Area_Spec Area_Proofs Delay_Spec Cross_Spec.
Import ListNotations.
Local Open Scope R_scope.

(** ** from the matrix to magnification and parity *)
Lemma mag_det alpha x y a b d w : D2 (fun u v => fst (alpha u v)) x y a b -> D2 (fun u v => snd (alpha u v)) x y b d -> (1 - a) * (1 - d) - (0 - b) * (0 - b) = w -> w <> 0 ->
  magnification alpha x y = Some (1 / Rabs w).
Proof.
  intros A B E N. destruct (D2_raytrace _ _ _ _ _ _ _ A B) as [Rx Ry]. unfold magnification, pixel_magnification. rewrite (jacfwd_D2 _ _ _ _ _ _ _ Rx Ry). cbn [m00 m01 m10 m11]. cbv zeta. rewrite E.
  destruct (Req_EM_T (Rabs w) 0) as [Z|Z]; [destruct (Rabs_no_R0 _ N Z)|reflexivity].
Qed.
Lemma sense_det alpha x y a b d w : D2 (fun u v => fst (alpha u v)) x y a b -> D2 (fun u v => snd (alpha u v)) x y b d -> (1 - a) * (1 - d) - (0 - b) * (0 - b) = w ->
  (0 < w -> keeps_sense alpha x y) /\ (w < 0 -> mirrored alpha x y).
Proof.
  intros A B E.
  assert (P : forall u v t, cross3 u v t <> 0 -> w <> 0 -> Rbar_locally' 0 (fun h => 0 < w * orientation (raytrace alpha) x y u v t h)).
  { intros u v t C Nz. destruct (parity_area alpha x y u v t (1, 1)%nat (fun _ _ => x) (fun _ _ => y) None 0%nat 0%nat) as (M & EM & H); [exists a, b, b, d; split; assumption|exact C|reflexivity|reflexivity|].
    injection EM as EM. subst M. cbv zeta beta in H. unfold jacobian_autograd in H. rewrite (jacfwd_D2 _ _ _ _ _ _ _ A B) in H. unfold mat2_sub, eye2 in H. cbn [m00 m01 m10 m11] in H.
    rewrite E in H. apply H, Nz. }
  split; intros L u v t C; (eapply filter_imp; [|apply (P u v t C); lra]); cbv beta; intros h Hh; nra.
Qed.
(** ** any round profile with deflection m(r) r *)
Section Split.
Variables x0 y0 kappa gamma theta nn : R.
Variable m : R -> R.
Let c := cos theta.
Let s := sin theta.
Let g1 := gamma * cos (2 * theta).
Let g2 := gamma * sin (2 * theta).
Let u := 1 - kappa - gamma.
Let v := 1 - kappa + gamma.
Let rad (x y : R) := sqrt ((x - x0) ^ 2 + (y - y0) ^ 2).
Let alpha (x y : R) : R * R := (m (rad x y) * (x - x0) + (g1 * (x - x0) + g2 * (y - y0)) + kappa * (x - x0), m (rad x y) * (y - y0) + (g2 * (x - x0) - g1 * (y - y0)) + kappa * (y - y0)).
Lemma cs1 : c * c = 1 - s * s.
Proof. assert (U := sin2_cos2 theta). unfold Rsqr in U. fold c s in U. lra. Qed.
Lemma g1_cs : g1 = gamma * (c * c - s * s).
Proof. unfold g1. rewrite cos_2a. reflexivity. Qed.
Lemma g2_cs : g2 = gamma * (2 * s * c).
Proof. unfold g2. rewrite sin_2a. reflexivity. Qed.
Lemma rad_along X Y : rad (fst (along x0 y0 theta X Y)) (snd (along x0 y0 theta X Y)) = sqrt (X ^ 2 + Y ^ 2).
Proof.
  unfold rad, along. cbn [fst snd]. fold c s. f_equal. transitivity ((X ^ 2 + Y ^ 2) * (c * c + s * s)); [ring|]. rewrite cs1. ring.
Qed.
Lemma hit_along X Y : let w := m (sqrt (X ^ 2 + Y ^ 2)) in
  raytrace alpha (fst (along x0 y0 theta X Y)) (snd (along x0 y0 theta X Y)) = (x0, y0) <-> X * (u - w) = 0 /\ Y * (v - w) = 0.
Proof.
  intros w. assert (E : raytrace alpha (fst (along x0 y0 theta X Y)) (snd (along x0 y0 theta X Y)) =
    (x0 + (c * (X * (u - w)) - s * (Y * (v - w))), y0 + (s * (X * (u - w)) + c * (Y * (v - w))))).
  { unfold raytrace, alpha. rewrite rad_along. fold w. rewrite g1_cs, g2_cs. unfold along. cbn [fst snd]. fold c s. unfold u, v.
    assert (Q := cs1). assert (C3 : c * c * c = (1 - s * s) * c) by (rewrite Q; ring). f_equal.
    - transitivity (x0 + (X * c - Y * s) * (1 - w - kappa) - gamma * ((X * c * (c * c + s * s)) + Y * s * (c * c + s * s))); [ring|]. rewrite Q. ring.
    - transitivity (y0 + (X * s + Y * c) * (1 - w - kappa) - gamma * ((X * s * (c * c + s * s)) - Y * c * (c * c + s * s))); [ring|]. rewrite Q. ring. }
  rewrite E. set (p := X * (u - w)). set (q := Y * (v - w)). assert (Q := cs1). split.
  - intros H. injection H as H1 H2. assert (A : c * p - s * q = 0) by lra. assert (B : s * p + c * q = 0) by lra. split.
    + transitivity (p * (c * c + s * s)); [rewrite Q; ring|]. transitivity (c * (c * p - s * q) + s * (s * p + c * q)); [ring|]. rewrite A, B. ring.
    + transitivity (q * (c * c + s * s)); [rewrite Q; ring|]. transitivity (c * (s * p + c * q) - s * (c * p - s * q)); [ring|]. rewrite A, B. ring.
  - intros [-> ->]. f_equal; ring.
Qed.
(** *** the images *)
Variables a b : R.
Hypothesis Hg : 0 < gamma.
Hypothesis Ha : 0 < a.
Hypothesis Hb : 0 < b.
Hypothesis Hma : forall r, 0 < r -> (m r = u <-> r = a).
Hypothesis Hmb : forall r, 0 < r -> (m r = v <-> r = b).
Let cross := [along x0 y0 theta a 0; along x0 y0 theta (- a) 0; along x0 y0 theta 0 b; along x0 y0 theta 0 (- b)].
Lemma norm1 X : sqrt (X ^ 2 + 0 ^ 2) = Rabs X.
Proof. replace (X ^ 2 + 0 ^ 2) with (Rsqr X) by (unfold Rsqr; ring). apply sqrt_Rsqr_abs. Qed.
Lemma norm2 X : sqrt (0 ^ 2 + X ^ 2) = Rabs X.
Proof. replace (0 ^ 2 + X ^ 2) with (Rsqr X) by (unfold Rsqr; ring). apply sqrt_Rsqr_abs. Qed.
Lemma abs_cases X r : Rabs X = r -> X = r \/ X = - r.
Proof. unfold Rabs. destruct (Rcase_abs X); lra. Qed.
Lemma split_images p : ((fst p <> x0 \/ snd p <> y0) /\ raytrace alpha (fst p) (snd p) = (x0, y0)) <-> In p cross.
Proof.
  rewrite <- (frame_along x0 y0 theta p). rewrite frame_off, along_frame. set (X := fst (frame x0 y0 theta p)). set (Y := snd (frame x0 y0 theta p)). clearbody X Y. cbn [fst snd]. rewrite hit_along. split.
  - intros (N & A & B). destruct (Req_dec X 0) as [ZX|NX].
    + destruct N as [N|N]; [contradiction|]. subst X. rewrite norm2 in B. assert (W : m (Rabs Y) = v) by (apply Rmult_integral in B; destruct B; [contradiction|lra]). apply Hmb in W; [|apply Rabs_pos_lt, N].
      destruct (abs_cases _ _ W) as [->| ->]; cbn [cross In]; tauto.
    + assert (W : m (sqrt (X ^ 2 + Y ^ 2)) = u) by (apply Rmult_integral in A; destruct A; [contradiction|lra]). rewrite W in B. assert (ZY : Y = 0) by (apply Rmult_integral in B; destruct B as [B|B]; [exact B|unfold u, v in B; lra]). subst Y.
      rewrite norm1 in W. apply Hma in W; [|apply Rabs_pos_lt, NX]. destruct (abs_cases _ _ W) as [->| ->]; cbn [cross In]; tauto.
  - assert (MA : m a = u) by (apply Hma; [exact Ha|reflexivity]). assert (MB : m b = v) by (apply Hmb; [exact Hb|reflexivity]).
    assert (D : forall u v u' v', along x0 y0 theta u v = along x0 y0 theta u' v' -> u = u' /\ v = v'). { intros u0 v0 u' v' E. apply (f_equal (frame x0 y0 theta)) in E. rewrite !along_frame in E. injection E as E1 E2. split; assumption. }
    intros I. destruct I as [I|[I|[I|[I|[]]]]]; apply D in I; destruct I as [<- <-]; rewrite ?norm1, ?norm2, ?Rabs_Ropp, ?(Rabs_right a), ?(Rabs_right b) by lra; rewrite ?MA, ?MB; repeat split; try lra; ring.
Qed.
(** *** magnification and parity *)
Lemma alpha_D2 x y : x <> x0 \/ y <> y0 -> let r := rad x y in is_derive m r (- nn * m r / r) ->
  D2 (fun x y => fst (alpha x y)) x y (m r - nn * m r * (x - x0) ^ 2 / r ^ 2 + g1 + kappa) (- nn * m r * (x - x0) * (y - y0) / r ^ 2 + g2) /\
  D2 (fun x y => snd (alpha x y)) x y (- nn * m r * (x - x0) * (y - y0) / r ^ 2 + g2) (m r - nn * m r * (y - y0) ^ 2 / r ^ 2 - g1 + kappa).
Proof.
  intros N r Dm. assert (P : 0 < r) by (apply norm_pos, LensBasic2_Proofs.off_centre, N).
  assert (Dr : D2 rad x y ((x - x0) / r) ((y - y0) / r)) by (apply (D2_shift (fun u v => sqrt (u ^ 2 + v ^ 2))), D2_norm, LensBasic2_Proofs.off_centre, N).
  assert (DM := D2_comp1 m rad x y _ _ _ Dm Dr).
  assert (Dx : D2 (fun x _ => x - x0) x y 1 0) by (eapply D2_eq; [apply D2_minus; [apply D2_fst|apply D2_const]| |]; ring).
  assert (Dy : D2 (fun _ y => y - y0) x y 0 1) by (eapply D2_eq; [apply D2_minus; [apply D2_snd|apply D2_const]| |]; ring).
  unfold alpha; cbn [fst snd]; split.
  - eapply D2_eq; [apply D2_plus; [apply D2_plus; [apply (D2_mult (fun x y => m (rad x y)) (fun x _ => x - x0)); [exact DM|exact Dx]|apply D2_plus; [apply (D2_scal g1 (fun x _ => x - x0)); exact Dx|apply (D2_scal g2 (fun _ y => y - y0)); exact Dy]]|apply (D2_scal kappa (fun x _ => x - x0)); exact Dx]| |]; cbv beta; fold r; field; lra.
  - eapply D2_eq; [apply D2_plus; [apply D2_plus; [apply (D2_mult (fun x y => m (rad x y)) (fun _ y => y - y0)); [exact DM|exact Dy]|apply D2_minus; [apply (D2_scal g2 (fun x _ => x - x0)); exact Dx|apply (D2_scal g1 (fun _ y => y - y0)); exact Dy]]|apply (D2_scal kappa (fun _ y => y - y0)); exact Dy]| |]; cbv beta; fold r; field; lra.
Qed.
Hypothesis Dma : is_derive m a (- nn * m a / a).
Hypothesis Dmb : is_derive m b (- nn * m b / b).
Lemma off_along X Y : (X <> 0 \/ Y <> 0) -> fst (along x0 y0 theta X Y) <> x0 \/ snd (along x0 y0 theta X Y) <> y0.
Proof. intros H. apply (frame_off x0 y0 theta). rewrite along_frame. exact H. Qed.
Lemma split_outer p : In p [along x0 y0 theta a 0; along x0 y0 theta (- a) 0] -> exists A B D, D2 (fun x y => fst (alpha x y)) (fst p) (snd p) A B /\ D2 (fun x y => snd (alpha x y)) (fst p) (snd p) B D /\
  (1 - A) * (1 - D) - (0 - B) * (0 - B) = 2 * gamma * nn * u.
Proof.
  intros I. assert (MA : m a = u) by (apply Hma; [exact Ha|reflexivity]).
  assert (E : exists X, (X = a \/ X = - a) /\ p = along x0 y0 theta X 0) by (destruct I as [<-|[<-|[]]]; [exists a|exists (- a)]; split; auto). destruct E as (X & EX & ->).
  assert (NX : X <> 0) by (destruct EX; lra). assert (RX : rad (fst (along x0 y0 theta X 0)) (snd (along x0 y0 theta X 0)) = a).
  { rewrite rad_along, norm1. destruct EX as [->| ->]; rewrite ?Rabs_Ropp, Rabs_right by lra; reflexivity. }
  assert (G := alpha_D2 _ _ (off_along X 0 (or_introl NX))). cbv zeta in G. rewrite RX in G. destruct (G Dma) as [A B]. clear G. eexists _, _, _. split; [exact A|]. split; [exact B|].
  rewrite MA, g1_cs, g2_cs. unfold along. cbn [fst snd]. fold c s. assert (X2 : X ^ 2 = a ^ 2) by (destruct EX as [->| ->]; ring).
  replace (nn * u * (x0 + X * c - 0 * s - x0) ^ 2 / a ^ 2) with (nn * u * (c * c)); [|transitivity (nn * u * (c * c) * (X ^ 2 / a ^ 2)); [rewrite X2; field; lra|field; lra]].
  replace (nn * u * (y0 + X * s + 0 * c - y0) ^ 2 / a ^ 2) with (nn * u * (s * s)); [|transitivity (nn * u * (s * s) * (X ^ 2 / a ^ 2)); [rewrite X2; field; lra|field; lra]].
  replace (- nn * u * (x0 + X * c - 0 * s - x0) * (y0 + X * s + 0 * c - y0) / a ^ 2) with (- nn * u * (c * s)); [|transitivity (- nn * u * (c * s) * (X ^ 2 / a ^ 2)); [rewrite X2; field; lra|field; lra]].
  assert (Q := cs1). assert (K : kappa = 1 - gamma - u) by (unfold u; ring). clearbody u. rewrite K.
  transitivity ((2 * gamma * (s * s) + nn * u * (c * c) + gamma * (1 - s * s - c * c)) * (2 * gamma * (c * c) + nn * u * (s * s) + gamma * (1 - s * s - c * c)) - (nn * u - 2 * gamma) * (nn * u - 2 * gamma) * (s * s) * (c * c)); [ring|]. rewrite Q. ring.
Qed.
Lemma split_inner p : In p [along x0 y0 theta 0 b; along x0 y0 theta 0 (- b)] -> exists A B D, D2 (fun x y => fst (alpha x y)) (fst p) (snd p) A B /\ D2 (fun x y => snd (alpha x y)) (fst p) (snd p) B D /\
  (1 - A) * (1 - D) - (0 - B) * (0 - B) = - (2 * gamma * nn * v).
Proof.
  intros I. assert (MB : m b = v) by (apply Hmb; [exact Hb|reflexivity]).
  assert (E : exists X, (X = b \/ X = - b) /\ p = along x0 y0 theta 0 X) by (destruct I as [<-|[<-|[]]]; [exists b|exists (- b)]; split; auto). destruct E as (X & EX & ->).
  assert (NX : X <> 0) by (destruct EX; lra). assert (RX : rad (fst (along x0 y0 theta 0 X)) (snd (along x0 y0 theta 0 X)) = b).
  { rewrite rad_along, norm2. destruct EX as [->| ->]; rewrite ?Rabs_Ropp, Rabs_right by lra; reflexivity. }
  assert (G := alpha_D2 _ _ (off_along 0 X (or_intror NX))). cbv zeta in G. rewrite RX in G. destruct (G Dmb) as [A B]. clear G. eexists _, _, _. split; [exact A|]. split; [exact B|].
  rewrite MB, g1_cs, g2_cs. unfold along. cbn [fst snd]. fold c s. assert (X2 : X ^ 2 = b ^ 2) by (destruct EX as [->| ->]; ring).
  replace (nn * v * (x0 + 0 * c - X * s - x0) ^ 2 / b ^ 2) with (nn * v * (s * s)); [|transitivity (nn * v * (s * s) * (X ^ 2 / b ^ 2)); [rewrite X2; field; lra|field; lra]].
  replace (nn * v * (y0 + 0 * s + X * c - y0) ^ 2 / b ^ 2) with (nn * v * (c * c)); [|transitivity (nn * v * (c * c) * (X ^ 2 / b ^ 2)); [rewrite X2; field; lra|field; lra]].
  replace (- nn * v * (x0 + 0 * c - X * s - x0) * (y0 + 0 * s + X * c - y0) / b ^ 2) with (nn * v * (c * s)); [|transitivity (nn * v * (c * s) * (X ^ 2 / b ^ 2)); [rewrite X2; field; lra|field; lra]].
  assert (Q := cs1). assert (K : kappa = 1 + gamma - v) by (unfold v; ring). clearbody v. rewrite K.
  transitivity ((- (2 * gamma * (c * c)) + nn * v * (s * s) - gamma * (1 - s * s - c * c)) * (- (2 * gamma * (s * s)) + nn * v * (c * c) - gamma * (1 - s * s - c * c)) - (nn * v + 2 * gamma) * (nn * v + 2 * gamma) * (s * s) * (c * c)); [ring|]. rewrite Q. ring.
Qed.
Lemma split_looks : 0 < nn -> 0 < u ->
  (forall p, In p [along x0 y0 theta a 0; along x0 y0 theta (- a) 0] -> magnification alpha (fst p) (snd p) = Some (1 / (2 * gamma * nn * u)) /\ keeps_sense alpha (fst p) (snd p)) /\
  (forall p, In p [along x0 y0 theta 0 b; along x0 y0 theta 0 (- b)] -> magnification alpha (fst p) (snd p) = Some (1 / (2 * gamma * nn * v)) /\ mirrored alpha (fst p) (snd p)).
Proof.
  intros Hn Hu. assert (Hv : 0 < v) by (unfold u in Hu; unfold v; lra).
  assert (P : 0 < 2 * gamma * nn * u) by (repeat apply Rmult_lt_0_compat; lra). assert (P' : 0 < 2 * gamma * nn * v) by (repeat apply Rmult_lt_0_compat; lra). split; intros p I.
  - destruct (split_outer p I) as (A & B & D & D1 & D3 & E). split; [|apply (proj1 (sense_det _ _ _ _ _ _ _ D1 D3 E)), P]. rewrite (mag_det _ _ _ _ _ _ _ D1 D3 E) by lra. rewrite Rabs_right by lra. reflexivity.
  - destruct (split_inner p I) as (A & B & D & D1 & D3 & E). split; [|apply (proj2 (sense_det _ _ _ _ _ _ _ D1 D3 E)); lra]. rewrite (mag_det _ _ _ _ _ _ _ D1 D3 E) by lra. rewrite Rabs_Ropp, Rabs_right by lra. reflexivity.
Qed.
End Split.
(** ** Point and SIS *)
Section Scene.
Variables z x0 y0 R0 kappa gamma theta : R.
Hypothesis HR : 0 < R0.
Hypothesis Hg : 0 < gamma.
Hypothesis Hu : gamma < 1 - kappa.
Let rest := [Shear x0 y0 (gamma * cos (2 * theta)) (gamma * sin (2 * theta)); Sheet x0 y0 kappa].
Let u := 1 - kappa - gamma.
Let v := 1 - kappa + gamma.
Let lens main := singleplane z (map (lens_of z) (main :: rest)).
Let rad (x y : R) := sqrt ((x - x0) ^ 2 + (y - y0) ^ 2).
Lemma ext2 (f g : R -> R -> R * R) : (forall x y, f x y = g x y) -> f = g.
Proof. intros H. apply FunctionalExtensionality.functional_extensionality. intros x. apply FunctionalExtensionality.functional_extensionality. intros y. apply H. Qed.
Definition round_in_shear (m : R -> R) (x y : R) : R * R :=
  (m (rad x y) * (x - x0) + (gamma * cos (2 * theta) * (x - x0) + gamma * sin (2 * theta) * (y - y0)) + kappa * (x - x0), m (rad x y) * (y - y0) + (gamma * sin (2 * theta) * (x - x0) - gamma * cos (2 * theta) * (y - y0)) + kappa * (y - y0)).
Lemma point_scene : reduced_deflection_angle (lens (PointMass x0 y0 R0)) = round_in_shear (fun r => R0 ^ 2 / r ^ 2).
Proof.
  apply ext2. intros x y. unfold lens, round_in_shear, rest. cbn [singleplane reduced_deflection_angle map lens_of singleplane_deflection fold_left fst snd].
  unfold reduced_deflection_angle_point, reduced_deflection_angle_external_shear, reduced_deflection_angle_mass_sheet, translate_rotate. cbv zeta. cbn [fst snd]. rewrite Rplus_0_r. fold (rad x y). unfold Rdiv. f_equal; ring.
Qed.
Lemma sis_scene : reduced_deflection_angle (lens (Isothermal x0 y0 R0)) = round_in_shear (fun r => R0 / r).
Proof.
  apply ext2. intros x y. unfold lens, round_in_shear, rest. cbn [singleplane reduced_deflection_angle map lens_of singleplane_deflection fold_left fst snd].
  unfold reduced_deflection_angle_sis, reduced_deflection_angle_external_shear, reduced_deflection_angle_mass_sheet, translate_rotate. cbv zeta. cbn [fst snd]. rewrite Rplus_0_r. fold (rad x y). unfold Rdiv. f_equal; ring.
Qed.
Lemma clear_round main x y : (main = PointMass x0 y0 R0 \/ main = Isothermal x0 y0 R0) -> clear (main :: rest) x y <-> x <> x0 \/ y <> y0.
Proof.
  intros M. split.
  - intros C. assert (H := C main (or_introl eq_refl)). destruct M as [->| ->]; exact H.
  - intros N p [<-|[<-|[<-|[]]]]; [destruct M as [->| ->]; exact N|exact Logic.I|exact Logic.I].
Qed.
Lemma uv : 0 < u < v. Proof. unfold u, v. lra. Qed.
Lemma point_level w r : 0 < w -> 0 < r -> (R0 ^ 2 / r ^ 2 = w <-> r = R0 / sqrt w).
Proof.
  intros W Hr. assert (S := sqrt_lt_R0 w W). assert (S2 : sqrt w * sqrt w = w) by (apply sqrt_sqrt; lra). split; intros H.
  - assert (E : R0 ^ 2 = w * r ^ 2) by (rewrite <- H; field; lra). assert (E' : R0 = sqrt w * r). { apply Rsqr_inj; [lra|left; apply Rmult_lt_0_compat; lra|]. unfold Rsqr. cbn [pow] in E. transitivity (sqrt w * sqrt w * (r * r)); [rewrite S2; lra|ring]. } rewrite E'. field. lra.
  - subst r. transitivity (sqrt w * sqrt w); [field; split; lra|exact S2].
Qed.
Lemma sis_level w r : 0 < w -> 0 < r -> (R0 / r = w <-> r = R0 / w).
Proof. intros W Hr. split; intros H; subst; field; lra. Qed.
Lemma point_slope r : 0 < r -> is_derive (fun r => R0 ^ 2 / r ^ 2) r (- 2 * (R0 ^ 2 / r ^ 2) / r).
Proof. intros H. auto_derive; [apply Rgt_not_eq; repeat apply Rmult_lt_0_compat; lra|field; lra]. Qed.
Lemma sis_slope r : 0 < r -> is_derive (fun r => R0 / r) r (- (1) * (R0 / r) / r).
Proof. intros H. auto_derive; [lra|field; lra]. Qed.
Lemma point_split : let a := R0 / sqrt u in let b := R0 / sqrt v in let L := lens (PointMass x0 y0 R0) in
  b < a /\ (forall p, image L (PointMass x0 y0 R0 :: rest) x0 y0 (fst p) (snd p) <-> In p [along x0 y0 theta a 0; along x0 y0 theta (- a) 0; along x0 y0 theta 0 b; along x0 y0 theta 0 (- b)]) /\
  (forall p, In p [along x0 y0 theta a 0; along x0 y0 theta (- a) 0] -> magnification (reduced_deflection_angle L) (fst p) (snd p) = Some (1 / (4 * gamma * u)) /\ keeps_sense (reduced_deflection_angle L) (fst p) (snd p)) /\
  (forall p, In p [along x0 y0 theta 0 b; along x0 y0 theta 0 (- b)] -> magnification (reduced_deflection_angle L) (fst p) (snd p) = Some (1 / (4 * gamma * v)) /\ mirrored (reduced_deflection_angle L) (fst p) (snd p)).
Proof.
  intros a b L. destruct uv as [U V]. assert (SU := sqrt_lt_R0 u U). assert (SV := sqrt_lt_1_alt u v ltac:(lra)). assert (A : 0 < a) by (apply Rdiv_lt_0_compat; lra). assert (B : 0 < b) by (apply Rdiv_lt_0_compat; lra).
  split; [apply Rmult_lt_compat_l; [exact HR|]; apply Rinv_lt_contravar; [apply Rmult_lt_0_compat; lra|exact SV]|].
  unfold image, L. rewrite point_scene. split.
  - intros p. rewrite (clear_round (PointMass x0 y0 R0)) by (left; reflexivity). apply (split_images x0 y0 kappa gamma theta (fun r => R0 ^ 2 / r ^ 2) a b Hg A B); intros r Hr; apply point_level; lra || assumption.
  - replace (4 * gamma * u) with (2 * gamma * 2 * u) by ring. replace (4 * gamma * v) with (2 * gamma * 2 * v) by ring.
    apply (split_looks x0 y0 kappa gamma theta 2 (fun r => R0 ^ 2 / r ^ 2) a b Hg A B); [intros r Hr; apply point_level; lra || assumption|intros r Hr; apply point_level; lra || assumption|apply point_slope, A|apply point_slope, B|lra|exact U].
Qed.
Lemma sis_split : let a := R0 / u in let b := R0 / v in let L := lens (Isothermal x0 y0 R0) in
  b < a /\ (forall p, image L (Isothermal x0 y0 R0 :: rest) x0 y0 (fst p) (snd p) <-> In p [along x0 y0 theta a 0; along x0 y0 theta (- a) 0; along x0 y0 theta 0 b; along x0 y0 theta 0 (- b)]) /\
  (forall p, In p [along x0 y0 theta a 0; along x0 y0 theta (- a) 0] -> magnification (reduced_deflection_angle L) (fst p) (snd p) = Some (1 / (2 * gamma * u)) /\ keeps_sense (reduced_deflection_angle L) (fst p) (snd p)) /\
  (forall p, In p [along x0 y0 theta 0 b; along x0 y0 theta 0 (- b)] -> magnification (reduced_deflection_angle L) (fst p) (snd p) = Some (1 / (2 * gamma * v)) /\ mirrored (reduced_deflection_angle L) (fst p) (snd p)).
Proof.
  intros a b L. destruct uv as [U V]. assert (A : 0 < a) by (apply Rdiv_lt_0_compat; lra). assert (B : 0 < b) by (apply Rdiv_lt_0_compat; lra).
  split; [apply Rmult_lt_compat_l; [exact HR|]; apply Rinv_lt_contravar; [apply Rmult_lt_0_compat; lra|exact V]|].
  unfold image, L. rewrite sis_scene. split.
  - intros p. rewrite (clear_round (Isothermal x0 y0 R0)) by (right; reflexivity). apply (split_images x0 y0 kappa gamma theta (fun r => R0 / r) a b Hg A B); intros r Hr; apply sis_level; lra || assumption.
  - replace (2 * gamma * u) with (2 * gamma * 1 * u) by ring. replace (2 * gamma * v) with (2 * gamma * 1 * v) by ring.
    apply (split_looks x0 y0 kappa gamma theta 1 (fun r => R0 / r) a b Hg A B); [intros r Hr; apply sis_level; lra || assumption|intros r Hr; apply sis_level; lra || assumption|apply sis_slope, A|apply sis_slope, B|lra|exact U].
Qed.
Lemma ln_root w : 0 < w -> ln (sqrt w) = ln w / 2.
Proof. intros W. assert (S := sqrt_lt_R0 w W). rewrite <- (sqrt_sqrt w) at 2 by lra. rewrite ln_mult by exact S. field. Qed.
(** *** delays *)
Lemma along_sub X Y : fst (along x0 y0 theta X Y) - x0 = X * cos theta - Y * sin theta /\ snd (along x0 y0 theta X Y) - y0 = X * sin theta + Y * cos theta.
Proof. unfold along. cbn [fst snd]. split; ring. Qed.
Lemma cs : cos theta * cos theta = 1 - sin theta * sin theta.
Proof. assert (U := sin2_cos2 theta). unfold Rsqr in U. lra. Qed.
Lemma scene_delay cd zs main P X Y : potential (lens_of z main) (fst (along x0 y0 theta X Y)) (snd (along x0 y0 theta X Y)) = P -> raytrace (reduced_deflection_angle (lens main)) (fst (along x0 y0 theta X Y)) (snd (along x0 y0 theta X Y)) = (x0, y0) ->
  time_delay cd (lens main) zs (fst (along x0 y0 theta X Y)) (snd (along x0 y0 theta X Y)) true true = delay_unit cd z zs * ((u * X ^ 2 + v * Y ^ 2) / 2 - P).
Proof.
  intros EP H. destruct (along_sub X Y) as [EX EY]. set (px := fst (along x0 y0 theta X Y)) in *. set (py := snd (along x0 y0 theta X Y)) in *.
  assert (PP : potential (lens main) px py = P + gamma * (X ^ 2 - Y ^ 2) / 2 + kappa * (X ^ 2 + Y ^ 2) / 2).
  { unfold lens, rest. cbn [singleplane potential map singleplane_potential fold_left]. rewrite EP. cbn [lens_of potential]. unfold potential_external_shear, potential_mass_sheet, translate_rotate. rewrite EX, EY, cos_2a, sin_2a.
    assert (Q := cs). set (c := cos theta) in *. set (s := sin theta) in *.
    transitivity (P + gamma * (X ^ 2 - Y ^ 2) * ((c * c + s * s) * (c * c + s * s)) / 2 + kappa * (X ^ 2 + Y ^ 2) * (c * c + s * s) / 2); [field|]. rewrite Q. field. }
  unfold raytrace in H. destruct (reduced_deflection_angle (lens main) px py) as [ax ay] eqn:EA. injection H as H1 H2.
  assert (N : ax ^ 2 + ay ^ 2 = X ^ 2 + Y ^ 2). { replace ax with (px - x0) by lra. replace ay with (py - y0) by lra. rewrite EX, EY. assert (Q := cs). transitivity ((X ^ 2 + Y ^ 2) * (cos theta * cos theta + sin theta * sin theta)); [ring|rewrite Q; ring]. }
  unfold time_delay. rewrite EA, PP. unfold delay_unit, arcsec2_to_days, time_delay_arcsec2_to_days, time_delay_distance. cbv zeta. rewrite N. change (z_l (lens main)) with z. unfold u, v, Rdiv. ring.
Qed.
Lemma point_pot X Y : potential (lens_of z (PointMass x0 y0 R0)) (fst (along x0 y0 theta X Y)) (snd (along x0 y0 theta X Y)) = R0 ^ 2 * ln (sqrt (X ^ 2 + Y ^ 2)).
Proof. cbn [lens_of potential]. unfold potential_point, translate_rotate. cbv zeta. rewrite Rplus_0_r. rewrite <- (rad_along x0 y0 theta X Y). reflexivity. Qed.
Lemma sis_pot X Y : potential (lens_of z (Isothermal x0 y0 R0)) (fst (along x0 y0 theta X Y)) (snd (along x0 y0 theta X Y)) = R0 * sqrt (X ^ 2 + Y ^ 2).
Proof. cbn [lens_of potential]. unfold potential_sis, translate_rotate. cbv zeta. rewrite Rplus_0_r. rewrite <- (rad_along x0 y0 theta X Y). reflexivity. Qed.
Lemma point_split_delays cd zs : let a := R0 / sqrt u in let b := R0 / sqrt v in let tau p := time_delay cd (lens (PointMass x0 y0 R0)) zs (fst p) (snd p) true true in
  tau (along x0 y0 theta a 0) = tau (along x0 y0 theta (- a) 0) /\ tau (along x0 y0 theta 0 b) = tau (along x0 y0 theta 0 (- b)) /\
  tau (along x0 y0 theta 0 b) - tau (along x0 y0 theta a 0) = delay_unit cd z zs * (R0 ^ 2 / 2 * ln (v / u)).
Proof.
  intros a b tau. destruct point_split as (_ & I & _). fold a b in I. destruct uv as [U V]. assert (SU := sqrt_lt_R0 u U). assert (SV := sqrt_lt_R0 v ltac:(lra)). assert (A : 0 < a) by (apply Rdiv_lt_0_compat; lra). assert (B : 0 < b) by (apply Rdiv_lt_0_compat; lra).
  assert (T1 : forall X, X = a \/ X = - a -> tau (along x0 y0 theta X 0) = delay_unit cd z zs * (u * a ^ 2 / 2 - R0 ^ 2 * ln a)).
  { intros X EX. unfold tau. rewrite (scene_delay cd zs (PointMass x0 y0 R0) _ X 0 (point_pot X 0)); [|apply (I (along x0 y0 theta X 0)); destruct EX as [->| ->]; cbn [In]; tauto].
    rewrite norm1. destruct EX as [->| ->]; rewrite ?Rabs_Ropp, Rabs_right by lra; unfold Rdiv; ring. }
  assert (T2 : forall Y, Y = b \/ Y = - b -> tau (along x0 y0 theta 0 Y) = delay_unit cd z zs * (v * b ^ 2 / 2 - R0 ^ 2 * ln b)).
  { intros X EX. unfold tau. rewrite (scene_delay cd zs (PointMass x0 y0 R0) _ 0 X (point_pot 0 X)); [|apply (I (along x0 y0 theta 0 X)); destruct EX as [->| ->]; cbn [In]; tauto].
    rewrite norm2. destruct EX as [->| ->]; rewrite ?Rabs_Ropp, Rabs_right by lra; unfold Rdiv; ring. }
  split; [rewrite !T1 by tauto; reflexivity|]. split; [rewrite !T2 by tauto; reflexivity|]. rewrite T1, T2 by tauto.
  assert (E1 : u * a ^ 2 = R0 ^ 2). { unfold a. rewrite <- (sqrt_sqrt u) at 1 by lra. field. lra. }
  assert (E2 : v * b ^ 2 = R0 ^ 2). { unfold b. rewrite <- (sqrt_sqrt v) at 1 by lra. field. lra. }
  rewrite E1, E2. unfold a, b. rewrite !ln_div by lra. rewrite !ln_root by lra. field.
Qed.
Lemma sis_split_delays cd zs : let a := R0 / u in let b := R0 / v in let tau p := time_delay cd (lens (Isothermal x0 y0 R0)) zs (fst p) (snd p) true true in
  tau (along x0 y0 theta a 0) = tau (along x0 y0 theta (- a) 0) /\ tau (along x0 y0 theta 0 b) = tau (along x0 y0 theta 0 (- b)) /\
  tau (along x0 y0 theta 0 b) - tau (along x0 y0 theta a 0) = delay_unit cd z zs * (R0 ^ 2 * gamma / (u * v)).
Proof.
  intros a b tau. destruct sis_split as (_ & I & _). fold a b in I. destruct uv as [U V]. assert (A : 0 < a) by (apply Rdiv_lt_0_compat; lra). assert (B : 0 < b) by (apply Rdiv_lt_0_compat; lra).
  assert (T1 : forall X, X = a \/ X = - a -> tau (along x0 y0 theta X 0) = delay_unit cd z zs * (u * a ^ 2 / 2 - R0 * a)).
  { intros X EX. unfold tau. rewrite (scene_delay cd zs (Isothermal x0 y0 R0) _ X 0 (sis_pot X 0)); [|apply (I (along x0 y0 theta X 0)); destruct EX as [->| ->]; cbn [In]; tauto].
    rewrite norm1. destruct EX as [->| ->]; rewrite ?Rabs_Ropp, Rabs_right by lra; unfold Rdiv; ring. }
  assert (T2 : forall Y, Y = b \/ Y = - b -> tau (along x0 y0 theta 0 Y) = delay_unit cd z zs * (v * b ^ 2 / 2 - R0 * b)).
  { intros X EX. unfold tau. rewrite (scene_delay cd zs (Isothermal x0 y0 R0) _ 0 X (sis_pot 0 X)); [|apply (I (along x0 y0 theta 0 X)); destruct EX as [->| ->]; cbn [In]; tauto].
    rewrite norm2. destruct EX as [->| ->]; rewrite ?Rabs_Ropp, Rabs_right by lra; unfold Rdiv; ring. }
  split; [rewrite !T1 by tauto; reflexivity|]. split; [rewrite !T2 by tauto; reflexivity|]. rewrite T1, T2 by tauto.
  unfold a, b. replace gamma with ((v - u) / 2) at 1 by (unfold u, v; field). field. lra.
Qed.
End Scene.
