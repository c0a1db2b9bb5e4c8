(** * The elliptical lens, and scenes of any number of pieces *)
From Coq Require Import Reals Lra Lia Psatz List FunctionalExtensionality Classical.
From Coquelicot Require Import Coquelicot.
From Verif Require Import RealFun Calc2 Geo_Model Const_Model Cosmo_Model Lens_Spec Lens_Lib LensBasic_Model LensBasic_Proofs LensBase_Model LensBase_Proofs Soft_Proofs Project_Proofs Round_Proofs First_Spec First_Proofs First2_Proofs First3_Proofs.
Import ListNotations.
Local Open Scope R_scope.

Section Sie.
Variables x0 y0 q phi Rein s : R.
Hypothesis Hq : 0 < q < 1.
Hypothesis HR : 0 < Rein.
Hypothesis Hs : s = 0 \/ 1 / 10 ^ 6 <= s.
Let f := sqrt (1 - q ^ 2).
Let K := Rein * sqrt q / f.
Let rx (x y : R) : R := (x - x0) * cos phi + (y - y0) * sin phi.
Let ry (x y : R) : R := (y - y0) * cos phi - (x - x0) * sin phi.
Let psi (X Y : R) : R := sqrt (q ^ 2 * (X ^ 2 + s ^ 2) + Y ^ 2).
Let ms := Rmax s (1 / 10 ^ 6).
Let core (X Y : R) : R := X * (K * atan (f * X / (psi X Y + s))) + Y * (K * atanh (f * Y / (psi X Y + q ^ 2 * s))).
Lemma s_pos : 0 <= s. Proof. destruct Hs as [->|H]; lra. Qed.
Lemma f_range : 0 < f < 1.
Proof. assert (A : 0 < 1 - q ^ 2 < 1) by (simpl; nra). split; [apply sqrt_lt_R0; lra|]. rewrite <- sqrt_1. apply sqrt_lt_1_alt. lra. Qed.
Lemma K_pos : 0 < K.
Proof. assert (F := f_range). apply Rdiv_lt_0_compat; [apply Rmult_lt_0_compat; [exact HR|apply sqrt_lt_R0; lra]|lra]. Qed.
Lemma sie_value x y : potential_sie x0 y0 q phi Rein s x y = core (rx x y) (ry x y)
  - Rein * sqrt q * s * ln (sqrt ((psi (rx x y) (ry x y) + ms) ^ 2 + (1 - q ^ 2) * rx x y ^ 2)) + Rein * sqrt q * s * ln ((1 + q) * ms).
Proof.
  unfold potential_sie, reduced_deflection_angle_sie. destruct (Req_EM_T q 1) as [A|_]; [lra|]. 
  assert (T : translate_rotate x y x0 y0 (Some phi) = (rx x y, ry x y)) by reflexivity. rewrite T.
  match goal with |- context [derotate ?m ?n (Some phi)] => assert (Hd := derotate_inverse m n phi); destruct (derotate m n (Some phi)) as [m' n'] end.
  rewrite Hd. reflexivity.
Qed.
Lemma psi_ge X Y : Rabs Y <= psi X Y.
Proof. unfold psi. rewrite <- sqrt_Rsqr_abs. apply sqrt_le_1_alt. unfold Rsqr. assert (A := pow2_ge_0 q). assert (B : 0 <= X ^ 2 + s ^ 2) by nra. assert (C := Rmult_le_pos _ _ A B). lra. Qed.
Lemma arg_le X Y : Rabs (f * Y / (psi X Y + q ^ 2 * s)) <= f.
Proof.
  assert (F := f_range). assert (P := psi_ge X Y). assert (S := s_pos). assert (A := Rabs_pos Y). assert (Q : 0 <= q ^ 2 * s) by (apply Rmult_le_pos; [apply pow2_ge_0|exact S]).
  unfold Rdiv. rewrite !Rabs_mult, (Rabs_right f) by lra. destruct (Req_dec (psi X Y + q ^ 2 * s) 0) as [Z|Z].
  - rewrite Z, Rinv_0, Rabs_R0. lra.
  - rewrite Rabs_inv, (Rabs_right (psi X Y + q ^ 2 * s)) by lra. rewrite Rmult_assoc. rewrite <- (Rmult_1_r f) at 2. apply Rmult_le_compat_l; [lra|].
    apply (Rmult_le_reg_r (psi X Y + q ^ 2 * s)); [lra|]. rewrite Rmult_assoc, Rinv_l by exact Z. lra.
Qed.
Lemma atan_le a : Rabs (atan a) <= 2.
Proof. assert (A := atan_bound a). assert (B := PI_4). apply Rabs_le. lra. Qed.
Lemma atanh_le u : Rabs u <= f -> Rabs (atanh u) <= / (1 - f ^ 2).
Proof.
  intros U. assert (F := f_range). assert (A := atanh_close f u 0 ltac:(lra) U ltac:(rewrite Rabs_R0; lra)). rewrite atanh_0, !Rminus_0_r in A.
  eapply Rle_trans; [exact A|]. rewrite <- (Rmult_1_r (/ (1 - f ^ 2))) at 2. apply Rmult_le_compat_l; [apply Rlt_le, Rinv_0_lt_compat; nra|lra].
Qed.
Definition slope_bound : R := 2 * K * (2 + / (1 - f ^ 2)).
Lemma rx_le x y : Rabs (rx x y) <= Rabs (x - x0) + Rabs (y - y0).
Proof.
  unfold rx. eapply Rle_trans; [apply Rabs_triang|]. rewrite !Rabs_mult. assert (C := COS_bound phi). assert (S := SIN_bound phi).
  assert (C' : Rabs (cos phi) <= 1) by (apply Rabs_le; lra). assert (S' : Rabs (sin phi) <= 1) by (apply Rabs_le; lra).
  assert (A := Rabs_pos (x - x0)). assert (B := Rabs_pos (y - y0)). assert (A' := Rabs_pos (cos phi)). assert (B' := Rabs_pos (sin phi)). nra.
Qed.
Lemma ry_le x y : Rabs (ry x y) <= Rabs (x - x0) + Rabs (y - y0).
Proof.
  unfold ry, Rminus at 1. eapply Rle_trans; [apply Rabs_triang|]. rewrite Rabs_Ropp, !Rabs_mult. assert (C := COS_bound phi). assert (S := SIN_bound phi).
  assert (C' : Rabs (cos phi) <= 1) by (apply Rabs_le; lra). assert (S' : Rabs (sin phi) <= 1) by (apply Rabs_le; lra).
  assert (A := Rabs_pos (x - x0)). assert (B := Rabs_pos (y - y0)). assert (A' := Rabs_pos (cos phi)). assert (B' := Rabs_pos (sin phi)). nra.
Qed.
Lemma core_le x y : core (rx x y) (ry x y) <= slope_bound * (Rabs (x - x0) + Rabs (y - y0)).
Proof.
  assert (F := f_range). assert (Kp := K_pos). assert (A := rx_le x y). assert (B := ry_le x y). unfold core. set (X := rx x y) in *. set (Y := ry x y) in *.
  assert (I : 0 < / (1 - f ^ 2)) by (apply Rinv_0_lt_compat; nra).
  eapply Rle_trans; [apply Rle_abs|]. eapply Rle_trans; [apply Rabs_triang|]. rewrite !Rabs_mult, (Rabs_right K) by lra.
  assert (T1 := atan_le (f * X / (psi X Y + s))). assert (T2 := atanh_le _ (arg_le X Y)).
  assert (P1 := Rabs_pos X). assert (P2 := Rabs_pos Y). set (d := Rabs (x - x0) + Rabs (y - y0)) in *.
  assert (U1 : Rabs X * (K * Rabs (atan (f * X / (psi X Y + s)))) <= d * (K * 2)).
  { apply Rmult_le_compat; [exact P1| |exact A|apply Rmult_le_compat_l; lra]. apply Rmult_le_pos; [lra|apply Rabs_pos]. }
  assert (U2 : Rabs Y * (K * Rabs (atanh (f * Y / (psi X Y + q ^ 2 * s)))) <= d * (K * / (1 - f ^ 2))).
  { apply Rmult_le_compat; [exact P2| |exact B|apply Rmult_le_compat_l; lra]. apply Rmult_le_pos; [lra|apply Rabs_pos]. }
  unfold slope_bound. assert (0 <= d) by lra. assert (0 <= d * K) by (apply Rmult_le_pos; lra). assert (0 <= d * K * / (1 - f ^ 2)) by (apply Rmult_le_pos; lra). nra.
Qed.
Lemma sie_growth : grows 0 (potential_sie x0 y0 q phi Rein s).
Proof.
  apply (grows_general 0 slope_bound (- (Rein * sqrt q * s * ln ms) + Rein * sqrt q * s * ln ((1 + q) * ms)) x0 y0). intros x y. rewrite sie_value. assert (C := core_le x y).
  assert (M : 0 < ms) by (unfold ms; apply Rlt_le_trans with (1 / 10 ^ 6); [lra|apply Rmax_r]).
  assert (L : ln ms <= ln (sqrt ((psi (rx x y) (ry x y) + ms) ^ 2 + (1 - q ^ 2) * rx x y ^ 2))).
  { assert (Q : ms <= sqrt ((psi (rx x y) (ry x y) + ms) ^ 2 + (1 - q ^ 2) * rx x y ^ 2)).
    { rewrite <- (sqrt_pow2 ms) at 1 by lra. apply sqrt_le_1_alt. assert (P := sqrt_pos (q ^ 2 * (rx x y ^ 2 + s ^ 2) + ry x y ^ 2)). fold (psi (rx x y) (ry x y)) in P.
      assert (0 <= (1 - q ^ 2) * rx x y ^ 2) by (apply Rmult_le_pos; [simpl; nra|apply pow2_ge_0]). nra. }
    destruct Q as [Q|Q]; [left; apply ln_increasing; assumption|right; rewrite <- Q; reflexivity]. }
  assert (0 <= Rein * sqrt q * s) by (apply Rmult_le_pos; [apply Rmult_le_pos; [lra|apply sqrt_pos]|apply s_pos]).
  assert (N := Rmult_le_compat_l _ _ _ H L). lra.
Qed.
Lemma sie_kappa x y : 0 <= convergence_sie x0 y0 q phi Rein s x y.
Proof.
  unfold convergence_sie. cbn [translate_rotate]. cbv zeta. apply Rmult_le_pos; [apply Rmult_le_pos; [apply Rmult_le_pos; [lra|apply sqrt_pos]|lra]|]. apply rinv_nonneg, sqrt_pos.
Qed.
Lemma sign_atan a p : 0 <= p -> 0 <= a * atan (f * a / p).
Proof.
  intros P. assert (F := f_range). assert (I := rinv_nonneg p P).
  assert (N : forall u, 0 <= u -> 0 <= atan u) by (intros u [U|<-]; [left; rewrite <- atan_0; apply atan_increasing, U|rewrite atan_0; lra]).
  destruct (Rle_dec 0 a) as [A|A].
  - apply Rmult_le_pos; [exact A|]. apply N. apply Rmult_le_pos; [|exact I]. apply Rmult_le_pos; lra.
  - replace (a * atan (f * a / p)) with (- a * atan (f * (- a) / p)); [|replace (f * - a / p) with (- (f * a / p)) by (unfold Rdiv; ring); rewrite atan_opp; ring].
    apply Rmult_le_pos; [lra|]. apply N. apply Rmult_le_pos; [|exact I]. apply Rmult_le_pos; lra.
Qed.
Lemma sign_atanh a p : 0 <= p -> Rabs (f * a / p) <= f -> 0 <= a * atanh (f * a / p).
Proof.
  intros P B. assert (F := f_range). assert (I := rinv_nonneg p P).
  assert (N : forall u, 0 <= u <= f -> 0 <= atanh u) by (intros u U; assert (Q := atanh_cubic_pos f u U ltac:(lra)); lra).
  apply Rabs_le_between in B. destruct (Rle_dec 0 a) as [A|A].
  - apply Rmult_le_pos; [exact A|]. apply N. split; [|lra]. apply Rmult_le_pos; [|exact I]. apply Rmult_le_pos; lra.
  - replace (a * atanh (f * a / p)) with (- a * atanh (- (f * a / p))) by (rewrite atanh_odd by lra; ring).
    apply Rmult_le_pos; [lra|]. apply N. split; [|lra]. replace (- (f * a / p)) with (f * - a * / p) by (unfold Rdiv; ring). apply Rmult_le_pos; [|exact I]. apply Rmult_le_pos; lra.
Qed.
Lemma core_pos X Y : 0 <= core X Y.
Proof.
  assert (Kp := K_pos). assert (S := s_pos). assert (P := sqrt_pos (q ^ 2 * (X ^ 2 + s ^ 2) + Y ^ 2)). fold (psi X Y) in P. unfold core.
  assert (Q : 0 <= q ^ 2 * s) by (apply Rmult_le_pos; [apply pow2_ge_0|exact S]).
  assert (A := sign_atan X (psi X Y + s) ltac:(lra)). assert (B := sign_atanh Y (psi X Y + q ^ 2 * s) ltac:(lra) (arg_le X Y)).
  replace (X * (K * atan (f * X / (psi X Y + s))) + Y * (K * atanh (f * Y / (psi X Y + q ^ 2 * s)))) with (K * (X * atan (f * X / (psi X Y + s)) + Y * atanh (f * Y / (psi X Y + q ^ 2 * s)))) by ring.
  apply Rmult_le_pos; lra.
Qed.
Lemma sie_good z : exists E, good (lens_of z (Elliptical x0 y0 q phi Rein s)) E 0 (fun x y => s = 0 -> x <> x0 \/ y <> y0).
Proof.
  set (L := lens_of z (Elliptical x0 y0 q phi Rein s)). exists (fun x y => exp (potential L x y)).
  destruct Hs as [S0|S1].
  - assert (V : forall x y, potential L x y = core (rx x y) (ry x y)) by (intros x y; cbn [L lens_of potential]; rewrite sie_value; replace (Rein * sqrt q * s) with 0 by (rewrite S0; ring); ring).
    assert (B : forall x y, 0 <= potential L x y <= slope_bound * (Rabs (x - x0) + Rabs (y - y0))) by (intros x y; rewrite V; split; [apply core_pos|apply core_le]).
    assert (Z : potential L x0 y0 = 0) by (rewrite V; unfold core, rx, ry; replace ((x0 - x0) * cos phi + (y0 - y0) * sin phi) with 0 by ring; replace ((y0 - y0) * cos phi - (x0 - x0) * sin phi) with 0 by ring; ring).
    assert (F := f_range). assert (Kp := K_pos). set (m := K * atan (f / q)).
    assert (Hm : 0 < m) by (apply Rmult_lt_0_compat; [exact Kp|]; rewrite <- atan_0; apply atan_increasing, Rdiv_lt_0_compat; lra).
    assert (C : forall t, 0 < t -> m * t <= potential L (x0 + t * cos phi) (y0 + t * sin phi)).
    { intros t T. rewrite V. assert (U := sin2_cos2 phi). unfold Rsqr in U.
      assert (X1 : rx (x0 + t * cos phi) (y0 + t * sin phi) = t) by (unfold rx; transitivity (t * (sin phi * sin phi + cos phi * cos phi)); [ring|rewrite U; ring]).
      assert (Y1 : ry (x0 + t * cos phi) (y0 + t * sin phi) = 0) by (unfold ry; ring). rewrite X1, Y1. unfold core, psi. rewrite S0.
      replace (q ^ 2 * (t ^ 2 + 0 ^ 2) + 0 ^ 2) with ((q * t) ^ 2) by ring. rewrite sqrt_pow2 by nra. rewrite Rplus_0_r. replace (f * t / (q * t)) with (f / q) by (field; lra). unfold m. lra. }
    split; [|split; [|split]].
    + apply (cone_weighed L x0 y0 slope_bound (cos phi) (sin phi) m); auto.
      * intros x y O. apply sie_consistent; [exact Hq|auto|tauto].
      * intros x y _. apply sie_kappa.
    + apply sie_growth.
    + intros; apply Rgt_not_eq, exp_pos.
    + intros x y _. destruct (Req_dec x x0) as [X|X]; [destruct (Req_dec y y0) as [Y|Y]|]; [right|left; auto|left; auto]. subst x y.
      exists (cos phi), (sin phi), m, 1. split; [exact Hm|]. split; [lra|]. intros t T. unfold rise. rewrite Z. assert (C' := C t ltac:(lra)). assert (B' := B (x0 - t * cos phi) (y0 - t * sin phi)). lra.
  - split; [|split; [|split]].
    + apply smooth_weighed. intros x y. apply consistent_smooth; [|apply sie_kappa]. intros u v. apply sie_consistent; [exact Hq|auto|]. right; right; lra.
    + apply sie_growth.
    + intros; apply Rgt_not_eq, exp_pos.
    + intros x y _. left. intros; lra.
Qed.
End Sie.

(** ** Scenes *)
Lemma piece_good z p : ordinary p -> exists E, good (lens_of z p) E (focusing p) (fun x y => off_centre x y p).
Proof.
  destruct p as [x0 y0 k|x0 y0 a b|x0 y0 Rein|x0 y0 q phi Rein s|x0 y0 Rein]; cbn [ordinary focusing off_centre]; intros H.
  - eexists. apply sheet_good, H.
  - eexists. apply shear_good.
  - eexists. apply sis_good, H.
  - destruct H as (Hq & HR & Hs). apply sie_good; assumption.
  - apply point_good, H.
Qed.
Lemma scene_good z l : (forall p, In p l -> ordinary p) -> exists E, good (singleplane z (map (lens_of z) l)) E (total_focusing l) (clear l).
Proof.
  induction l as [|p l IH]; intros H.
  - exists (fun _ _ => 1). split; [apply empty_weighed|]. split; [|split].
    + intros e He. exists 0. intros x y. cbn [map singleplane potential singleplane_potential fold_left total_focusing fold_right]. assert (0 <= e * (x ^ 2 + y ^ 2)) by (apply Rmult_le_pos; [lra|nra]). lra.
    + intros; lra.
    + intros x y _. left. intros p [].
  - destruct (piece_good z p (H p (or_introl eq_refl))) as (E & W1 & G1 & O1 & C1). destruct (IH (fun r Hr => H r (or_intror Hr))) as (F & W2 & G2 & O2 & C2).
    exists (fun x y => E x y * F x y). cbn [map]. rewrite singleplane_cons. split; [apply weighed_plus; assumption|]. split; [|split].
    + apply (grows_plus (focusing p) (total_focusing l)); assumption.
    + intros x y C. apply Rmult_integral_contrapositive_currified; [apply O1, C; left; reflexivity|apply O2; intros r Hr; apply C; right; exact Hr].
    + intros x y N. assert (N1 : E x y <> 0) by (intros Z; apply N; rewrite Z; ring). assert (N2 : F x y <> 0) by (intros Z; apply N; rewrite Z; ring).
      assert (K1 : no_cap (potential (lens_of z p)) x y) by (destruct (proj2 W1 x y) as [Z|[_ [S|[S _]]]]; [contradiction|apply smooth_no_cap, S|exact S]).
      assert (K2 : no_cap (potential (singleplane z (map (lens_of z) l))) x y) by (destruct (proj2 W2 x y) as [Z|[_ [S|[S _]]]]; [contradiction|apply smooth_no_cap, S|exact S]).
      destruct (C1 x y N1) as [A|A]; [|right; apply cusp_plus; assumption]. destruct (C2 x y N2) as [B|B]; [|right; apply cusp_plus_r; assumption].
      left. intros r [<-|Hr]; [exact A|apply B, Hr].
Qed.

Section Scene.
Variables (cd : R -> R) (z z_s : R) (l : list piece) (bx by_ : R).
Hypothesis Ord : forall p, In p l -> ordinary p.
Hypothesis Foc : total_focusing l < 1.
Let L := singleplane z (map (lens_of z) l).
Lemma quadratic_nonneg a b d : (forall u v, 0 <= a * u ^ 2 - 2 * b * u * v + d * v ^ 2) -> 0 <= a /\ 0 <= d /\ 0 <= a * d - b * b.
Proof.
  intros H. assert (A := H 1 0). assert (D := H 0 1). assert (P := H b a). assert (Q := H d b). assert (A' : 0 <= a) by lra. assert (D' : 0 <= d) by lra.
  split; [exact A'|]. split; [exact D'|]. destruct A' as [A'|A'].
  - apply (Rmult_le_reg_l a); [exact A'|]. nra.
  - destruct D' as [D'|D']; [apply (Rmult_le_reg_l d); [exact D'|]; nra|]. assert (R1 := H 1 1). assert (R2 := H 1 (-1)). nra.
Qed.
Lemma first_bright E x y : weighed L E -> first E bx by_ x y ->
  not_dimmed (magnification (reduced_deflection_angle L) x y) /\ not_mirrored (jacfwd (raytrace (reduced_deflection_angle L)) x y).
Proof.
  intros W F. destruct (first_second L E bx by_ W x y F) as (axx & axy & ayx & ayy & D1 & D2' & Sy & Kp & Q).
  destruct (quadratic_nonneg _ _ _ Q) as (A & D & Det). destruct (D2_raytrace _ _ _ _ _ _ _ D1 D2') as [R1 R2].
  unfold magnification, pixel_magnification. rewrite (jacfwd_D2 _ _ _ _ _ _ _ R1 R2). unfold not_mirrored. cbn [m00 m01 m10 m11]. cbv zeta.
  assert (Det' : 0 <= (1 - axx) * (1 - ayy) - (0 - axy) * (0 - ayx)) by (rewrite <- Sy; lra). split; [|split; [exact A|split; [exact D|exact Det']]].
  destruct (Req_EM_T _ 0) as [Z|Z]; [exact Logic.I|]. cbn [not_dimmed]. rewrite Rabs_right in Z |- * by lra.
  assert (U : (1 - axx) * (1 - ayy) - (0 - axy) * (0 - ayx) <= 1) by (rewrite <- Sy; nra).
  apply (Rmult_le_reg_r ((1 - axx) * (1 - ayy) - (0 - axy) * (0 - ayx))); [lra|]. unfold Rdiv. rewrite Rmult_assoc, Rinv_l by exact Z. lra.
Qed.
Hypothesis Dl : 0 < angular_diameter_distance cd z.
Hypothesis Ds : 0 < angular_diameter_distance cd z_s.
Hypothesis Dls : 0 < angular_diameter_distance_z1z2 cd z z_s.
Hypothesis Z1 : 0 < 1 + z.
Definition days : R := (1 + z) * (angular_diameter_distance cd z * angular_diameter_distance cd z_s / angular_diameter_distance_z1z2 cd z z_s) / c_Mpc_s / days_to_seconds * arcsec_to_rad ^ 2.
Lemma days_positive : 0 < days.
Proof.
  assert (C := c_Mpc_s_pos). assert (D := days_pos). unfold days. apply Rmult_lt_0_compat; [|apply pow_lt, arcsec_to_rad_pos].
  apply Rdiv_lt_0_compat; [|exact D]. apply Rdiv_lt_0_compat; [|exact C]. apply Rmult_lt_0_compat; [exact Z1|]. apply Rdiv_lt_0_compat; [apply Rmult_lt_0_compat; assumption|exact Dls].
Qed.
Lemma image_time x y : raytrace (reduced_deflection_angle L) x y = (bx, by_) -> time_delay cd L z_s x y true true = days * (spread bx by_ x y - potential L x y).
Proof.
  intros H. assert (T := time_delay_fermat cd L z_s x y). rewrite H in T. rewrite T. unfold days, fermat_surface, spread. change (z_l L) with z. ring.
Qed.
Lemma some_first : exists E x y, good L E (total_focusing l) (clear l) /\ first E bx by_ x y /\ image L l bx by_ x y.
Proof.
  destruct (scene_good z l Ord) as (E & Gd). assert (G' := Gd). destruct Gd as (W & G & O & C). fold L in W, G, C.
  assert (N : exists x y, E x y <> 0).
  { destruct (classic (exists x y, E x y <> 0)) as [N|N]; [exact N|exfalso].
    assert (Cl : exists x, forall p, In p l -> off_centre x 0 p).
    { assert (B : exists M, forall x, M < x -> forall q, In q l -> off_centre x 0 q).
      { clear. induction l as [|q t [M IH]]; [exists 0; intros x _ q []|].
        exists (Rmax M (match q with Isothermal a _ _ | PointMass a _ _ | Elliptical a _ _ _ _ _ => a | _ => 0 end)). intros x X q' [<-|I].
        - assert (R := Rmax_r M (match q with Isothermal a _ _ | PointMass a _ _ | Elliptical a _ _ _ _ _ => a | _ => 0 end)). destruct q; cbn [off_centre] in *; try exact Logic.I; left; apply Rgt_not_eq; lra.
        - apply IH; [|exact I]. eapply Rle_lt_trans; [apply Rmax_l|exact X]. }
      destruct B as [M B]. exists (M + 1). apply B. lra. }
    destruct Cl as [x Cl]. apply N. exists x, 0. apply O. exact Cl. }
  destruct (exists_first L E (total_focusing l) bx by_ W G Foc N) as (x & y & F). exists E, x, y. split; [exact G'|]. split; [exact F|]. split.
  - destruct (C x y (proj1 F)) as [A|A]; [exact A|destruct (first_no_cusp L E bx by_ W x y F A)].
  - exact (first_image L E bx by_ W x y F).
Qed.
Lemma scene_first : exists x y, arrives_first cd L z_s l bx by_ x y.
Proof.
  destruct some_first as (E & x & y & (W & G & O & C) & F & I). exists x, y. split; [exact I|]. intros x' y' I'.
  rewrite (image_time x y (proj2 I)), (image_time x' y' (proj2 I')). apply Rmult_le_compat_l; [apply Rlt_le, days_positive|].
  apply (first_time L E bx by_ W x y x' y' F). apply O, I'.
Qed.
Lemma scene_bright x y : arrives_first cd L z_s l bx by_ x y ->
  not_dimmed (magnification (reduced_deflection_angle L) x y) /\ not_mirrored (jacfwd (raytrace (reduced_deflection_angle L)) x y).
Proof.
  intros [I A]. destruct some_first as (E & u & v & (W & G & O & C) & F & J). apply (first_bright E x y W).
  apply (time_first L E bx by_ W x y (O x y (proj1 I))). exists u, v. split; [exact F|].
  specialize (A u v J). rewrite (image_time x y (proj2 I)), (image_time u v (proj2 J)) in A. apply (Rmult_le_reg_l days); [apply days_positive|exact A].
Qed.
End Scene.
(** with a convergence of one everything that is not behind the centre is lost *)
Lemma critical_sheet z x0 y0 bx by_ x y : bx <> x0 \/ by_ <> y0 -> ~ image (singleplane z [lens_of z (Sheet x0 y0 1)]) [Sheet x0 y0 1] bx by_ x y.
Proof.
  intros N [_ H]. unfold raytrace in H. cbn in H. inversion H. destruct N as [N|N]; apply N; ring_simplify in H1; ring_simplify in H2; lra.
Qed.
Definition some_scene : list piece := [Sheet 0 0 (1 / 10); Shear 0 0 (3 / 10) (4 / 10); Isothermal 1 0 1; Elliptical 0 0 (7 / 10) (1 / 3) (6 / 5) 0; Elliptical 2 2 (1 / 2) 1 1 (1 / 10); PointMass 3 1 (1 / 2)].
Lemma some_scene_fits : (forall p, In p some_scene -> ordinary p) /\ total_focusing some_scene < 1 /\
  0 < angular_diameter_distance (fun z => z) (1 / 2) /\ 0 < angular_diameter_distance (fun z => z) 1 /\ 0 < angular_diameter_distance_z1z2 (fun z => z) (1 / 2) 1 /\ 0 < 1 + 1 / 2.
Proof.
  split; [|split].
  - intros p I. repeat (destruct I as [<-|I]; [cbn; lra|]). destruct I.
  - unfold total_focusing, some_scene. cbn [map fold_right focusing]. replace ((3 / 10) ^ 2 + (4 / 10) ^ 2) with ((1 / 2) ^ 2) by field. rewrite sqrt_pow2 by lra. lra.
  - unfold angular_diameter_distance, angular_diameter_distance_z1z2, comoving_distance_z1z2. split; [|split; [|split]]; try (apply Rdiv_lt_0_compat; lra). lra.
Qed.
