(** * Time delays of SIS, SIE, EPL and Point lenses *)
From Coq Require Import Reals Lra Psatz.
From Verif Require Import Py Const_Model Cosmo_Model Geo_Model LensBase_Model Lens_Lib LensBasic_Model RealFun Epl_Model Tnfw3_Proofs Delay_Spec.
Local Open Scope R_scope.

Lemma delay_homogeneous cd lens zs x0 y0 t x y : let a := reduced_deflection_angle lens x y in
  potential lens x y = ((x - x0) * fst a + (y - y0) * snd a) / (2 - t) ->
  let b := raytrace (reduced_deflection_angle lens) x y in
  time_delay cd lens zs x y true true = delay_unit cd (z_l lens) zs *
    (((x - fst b) ^ 2 + (y - snd b) ^ 2) / 2 - ((x - x0) * (x - fst b) + (y - y0) * (y - snd b)) / (2 - t)).
Proof.
  cbv zeta. intros P. unfold raytrace, time_delay, delay_unit, arcsec2_to_days, time_delay_arcsec2_to_days, time_delay_distance. rewrite P.
  destruct (reduced_deflection_angle lens x y) as [ax ay]. cbn [fst snd]. unfold Rdiv. ring.
Qed.
Lemma delay_isothermal cd lens zs x0 y0 x y : let a := reduced_deflection_angle lens x y in
  potential lens x y = (x - x0) * fst a + (y - y0) * snd a ->
  let b := raytrace (reduced_deflection_angle lens) x y in
  time_delay cd lens zs x y true true = delay_unit cd (z_l lens) zs * (((fst b - x0) ^ 2 + (snd b - y0) ^ 2) - ((x - x0) ^ 2 + (y - y0) ^ 2)) / 2.
Proof.
  cbv zeta. intros P. rewrite (delay_homogeneous cd lens zs x0 y0 1); [field|]. rewrite P. field.
Qed.
Lemma turned a b X Y phi : X * cos phi + Y * sin phi = X * cos phi + Y * sin phi ->
  (X * cos phi + Y * sin phi) * (a * cos phi + b * sin phi) + (- X * sin phi + Y * cos phi) * (- a * sin phi + b * cos phi) = X * a + Y * b.
Proof. intros _. assert (Q := sin2_cos2 phi). unfold Rsqr in Q. replace (X * a + Y * b) with ((X * a + Y * b) * (sin phi * sin phi + cos phi * cos phi)) by (rewrite Q; ring). ring. Qed.
Lemma sie_pot x0 y0 q phi Rein x y : let a := reduced_deflection_angle_sie x0 y0 q phi Rein 0 x y in
  potential_sie x0 y0 q phi Rein 0 x y = (x - x0) * fst a + (y - y0) * snd a.
Proof.
  cbv zeta. unfold potential_sie. destruct (reduced_deflection_angle_sie x0 y0 q phi Rein 0 x y) as [ax ay]. cbn [derotate translate_rotate fst snd]. cbv zeta.
  rewrite cos_neg, sin_neg. rewrite !Rmult_0_r, !Rmult_0_l, Rminus_0_r, Rplus_0_r. rewrite <- (turned ax ay (x - x0) (y - y0) phi eq_refl). ring.
Qed.
Lemma sis_pot x0 y0 Rein x y : x <> x0 \/ y <> y0 -> let a := reduced_deflection_angle_sis x0 y0 Rein 0 x y in
  potential_sis x0 y0 Rein 0 x y = (x - x0) * fst a + (y - y0) * snd a.
Proof.
  intros H. assert (N := norm_pos (x - x0) (y - y0) ltac:(destruct H; [left|right]; lra)). cbv zeta. unfold potential_sis, reduced_deflection_angle_sis. cbn [translate_rotate fst snd]. cbv zeta. cbn [fst snd]. rewrite Rplus_0_r.
  assert (Q : sqrt ((x - x0) ^ 2 + (y - y0) ^ 2) ^ 2 = (x - x0) ^ 2 + (y - y0) ^ 2). { apply pow2_sqrt. assert (A := pow2_ge_0 (x - x0)). assert (B := pow2_ge_0 (y - y0)). lra. }
  set (r := sqrt _) in *. transitivity (Rein * r ^ 2 / r); [field; lra|]. rewrite Q. field. lra.
Qed.
Lemma epl_pot x0 y0 q phi Rein t n c x y a p : reduced_deflection_angle_epl x0 y0 q phi Rein t n c x y = Ok a -> potential_epl x0 y0 q phi Rein t n c x y = Ok p ->
  p = ((x - x0) * fst a + (y - y0) * snd a) / (2 - t).
Proof.
  intros A P. unfold potential_epl in P. rewrite A in P. cbn [bind derotate translate_rotate] in P. cbv zeta in P. injection P as <-. rewrite cos_neg, sin_neg. apply (f_equal (fun z => z / (2 - t))).
  rewrite <- (turned (fst a) (snd a) (x - x0) (y - y0) phi eq_refl). ring.
Qed.
Lemma sie_delay cd z zs x0 y0 q phi Rein x y : let b := raytrace (reduced_deflection_angle (sie_lens z x0 y0 q phi Rein)) x y in
  time_delay cd (sie_lens z x0 y0 q phi Rein) zs x y true true = delay_unit cd z zs * (((fst b - x0) ^ 2 + (snd b - y0) ^ 2) - ((x - x0) ^ 2 + (y - y0) ^ 2)) / 2.
Proof. exact (delay_isothermal cd (sie_lens z x0 y0 q phi Rein) zs x0 y0 x y (sie_pot x0 y0 q phi Rein x y)). Qed.
Lemma sis_delay cd z zs x0 y0 Rein x y : x <> x0 \/ y <> y0 -> let b := raytrace (reduced_deflection_angle (sis_lens z x0 y0 Rein)) x y in
  time_delay cd (sis_lens z x0 y0 Rein) zs x y true true = delay_unit cd z zs * (((fst b - x0) ^ 2 + (snd b - y0) ^ 2) - ((x - x0) ^ 2 + (y - y0) ^ 2)) / 2.
Proof. intros H. exact (delay_isothermal cd (sis_lens z x0 y0 Rein) zs x0 y0 x y (sis_pot x0 y0 Rein x y H)). Qed.
Lemma epl_delay cd lens zs x0 y0 q phi Rein t n c x y :
  reduced_deflection_angle_epl x0 y0 q phi Rein t n c x y = Ok (reduced_deflection_angle lens x y) -> potential_epl x0 y0 q phi Rein t n c x y = Ok (potential lens x y) ->
  let b := raytrace (reduced_deflection_angle lens) x y in
  time_delay cd lens zs x y true true = delay_unit cd (z_l lens) zs *
    (((x - fst b) ^ 2 + (y - snd b) ^ 2) / 2 - ((x - x0) * (x - fst b) + (y - y0) * (y - snd b)) / (2 - t)).
Proof. intros A P. apply delay_homogeneous. exact (epl_pot _ _ _ _ _ _ _ _ _ _ _ _ A P). Qed.

Lemma sie_two cd z zs x0 y0 q phi Rein x y x' y' : raytrace (reduced_deflection_angle_sie x0 y0 q phi Rein 0) x y = raytrace (reduced_deflection_angle_sie x0 y0 q phi Rein 0) x' y' ->
  time_delay cd (sie_lens z x0 y0 q phi Rein) zs x' y' true true - time_delay cd (sie_lens z x0 y0 q phi Rein) zs x y true true =
  delay_unit cd z zs * (((x - x0) ^ 2 + (y - y0) ^ 2) - ((x' - x0) ^ 2 + (y' - y0) ^ 2)) / 2.
Proof. intros E. rewrite !sie_delay. cbv zeta. cbn [reduced_deflection_angle sie_lens]. rewrite E. unfold Rdiv. ring. Qed.
(** ** two images of one source *)
Section Pair.
Variables (cd : R -> R) (z zs x0 y0 Rein b c s : R).
Hypotheses (HR : 0 < Rein) (Hb : 0 < b) (Hcs : c ^ 2 + s ^ 2 = 1).
Lemma pos_off d : d <> 0 -> x0 + d * c <> x0 \/ y0 + d * s <> y0.
Proof.
  intros D. destruct (Req_dec c 0) as [C|C]; [right|left]; intros E.
  - assert (S0 : s <> 0) by (intros Z; rewrite C, Z in Hcs; lra). apply (Rmult_integral_contrapositive_currified d s D S0). lra.
  - apply (Rmult_integral_contrapositive_currified d c D C). lra.
Qed.
Lemma polar_norm d : sqrt ((x0 + d * c - x0) ^ 2 + (y0 + d * s - y0) ^ 2) = Rabs d.
Proof. replace ((x0 + d * c - x0) ^ 2 + (y0 + d * s - y0) ^ 2) with (d ^ 2 * (c ^ 2 + s ^ 2)) by ring. rewrite Hcs, Rmult_1_r. rewrite <- Rsqr_pow2. apply sqrt_Rsqr_abs. Qed.
Lemma sis_pair : b < Rein ->
  time_delay cd (sis_lens z x0 y0 Rein) zs (x0 + (b - Rein) * c) (y0 + (b - Rein) * s) true true - time_delay cd (sis_lens z x0 y0 Rein) zs (x0 + (b + Rein) * c) (y0 + (b + Rein) * s) true true
  = delay_unit cd z zs * (2 * Rein * b).
Proof.
  intros Hlt. unfold time_delay, sis_lens. cbn [z_l potential reduced_deflection_angle]. unfold potential_sis, reduced_deflection_angle_sis. cbn [translate_rotate]. cbv zeta. rewrite !Rplus_0_r, !polar_norm.
  rewrite (Rabs_pos_eq (b + Rein)), (Rabs_left (b - Rein)) by lra. unfold delay_unit, arcsec2_to_days, time_delay_arcsec2_to_days, time_delay_distance.
  replace (Rein * (x0 + (b - Rein) * c - x0) / - (b - Rein)) with (- Rein * c) by (field; lra). replace (Rein * (y0 + (b - Rein) * s - y0) / - (b - Rein)) with (- Rein * s) by (field; lra).
  replace (Rein * (x0 + (b + Rein) * c - x0) / (b + Rein)) with (Rein * c) by (field; lra). replace (Rein * (y0 + (b + Rein) * s - y0) / (b + Rein)) with (Rein * s) by (field; lra). unfold Rdiv. ring.
Qed.
Lemma point_pair : let w := sqrt (b ^ 2 + 4 * Rein ^ 2) in
  time_delay cd (point_lens z x0 y0 Rein) zs (x0 + (b - w) / 2 * c) (y0 + (b - w) / 2 * s) true true - time_delay cd (point_lens z x0 y0 Rein) zs (x0 + (b + w) / 2 * c) (y0 + (b + w) / 2 * s) true true
  = delay_unit cd z zs * (b * w / 2 + Rein ^ 2 * ln ((w + b) / (w - b))).
Proof.
  intros w. assert (W2 : w ^ 2 = b ^ 2 + 4 * Rein ^ 2) by (apply pow2_sqrt; nra). assert (W0 := sqrt_pos (b ^ 2 + 4 * Rein ^ 2)). fold w in W0. assert (WB : b < w) by nra.
  unfold time_delay, point_lens. cbn [z_l potential reduced_deflection_angle]. unfold potential_point, reduced_deflection_angle_point. cbn [translate_rotate]. cbv zeta. rewrite !Rplus_0_r, !polar_norm.
  rewrite (Rabs_pos_eq ((b + w) / 2)), (Rabs_left ((b - w) / 2)) by lra. unfold delay_unit, arcsec2_to_days, time_delay_arcsec2_to_days, time_delay_distance.
  assert (L : ln ((w + b) / (w - b)) = ln ((b + w) / 2) - ln (- ((b - w) / 2))).
  { rewrite <- ln_quot by lra. f_equal. field. lra. }
  rewrite L. generalize (ln ((b + w) / 2)) (ln (- ((b - w) / 2))). intros l1 l2.
  assert (R2 : Rein ^ 2 = (w ^ 2 - b ^ 2) / 4) by lra.
  assert (A1 : (((x0 + (b - w) / 2 * c - x0) * Rein ^ 2 / (- ((b - w) / 2)) ^ 2) ^ 2 + ((y0 + (b - w) / 2 * s - y0) * Rein ^ 2 / (- ((b - w) / 2)) ^ 2) ^ 2) = ((b + w) / 2) ^ 2).
  { transitivity ((Rein ^ 2 / ((b - w) / 2)) ^ 2 * (c ^ 2 + s ^ 2)); [field; lra|]. rewrite Hcs, R2. field. lra. }
  assert (A2 : (((x0 + (b + w) / 2 * c - x0) * Rein ^ 2 / ((b + w) / 2) ^ 2) ^ 2 + ((y0 + (b + w) / 2 * s - y0) * Rein ^ 2 / ((b + w) / 2) ^ 2) ^ 2) = ((w - b) / 2) ^ 2).
  { transitivity ((Rein ^ 2 / ((b + w) / 2)) ^ 2 * (c ^ 2 + s ^ 2)); [field; lra|]. rewrite Hcs, R2. field. lra. }
  rewrite A1, A2.
  set (k := (1 + z) / c_Mpc_s * angular_diameter_distance cd zs * angular_diameter_distance cd z / angular_diameter_distance_z1z2 cd z zs * arcsec_to_rad ^ 2 / days_to_seconds).
  replace ((1 + z) * angular_diameter_distance cd z * angular_diameter_distance cd zs / angular_diameter_distance_z1z2 cd z zs / c_Mpc_s * arcsec_to_rad ^ 2 / days_to_seconds) with k by (unfold k, Rdiv; ring).
  clearbody k. field.
Qed.
Lemma unit_pos : -1 < z -> 0 < angular_diameter_distance cd z -> 0 < angular_diameter_distance cd zs -> 0 < angular_diameter_distance_z1z2 cd z zs -> 0 < delay_unit cd z zs.
Proof.
  intros H1 H2 H3 H4. assert (P := PI_RGT_0). unfold delay_unit, time_delay_distance. 
  assert (C : 0 < c_Mpc_s) by (unfold c_Mpc_s, c_SI, parsec_m; apply Rdiv_lt_0_compat; [lra|apply Rmult_lt_0_compat; [apply Rdiv_lt_0_compat; lra|lra]]).
  assert (A : 0 < arcsec_to_rad) by (unfold arcsec_to_rad, rad_to_arcsec; apply Rdiv_lt_0_compat; [lra|]; apply Rmult_lt_0_compat; [apply Rdiv_lt_0_compat; lra|lra]).
  assert (D : 0 < days_to_seconds) by (unfold days_to_seconds; lra).
  apply Rdiv_lt_0_compat; [|exact D]. apply Rmult_lt_0_compat; [|apply pow_lt, A]. apply Rdiv_lt_0_compat; [|exact C].
  set (a := angular_diameter_distance cd z) in *. set (e := angular_diameter_distance cd zs) in *. set (f := angular_diameter_distance_z1z2 cd z zs) in *. clearbody a e f.
  repeat first [apply Rdiv_lt_0_compat | apply Rmult_lt_0_compat]; lra.
Qed.
End Pair.

(** ** two images of a source on the axis of an SIE *)
Definition axis_deflection : R := 1 * sqrt (1 / 2) / sqrt (1 - (1 / 2) ^ 2) * atan (sqrt (1 - (1 / 2) ^ 2) * 2).
Lemma sie_axis x : x <> 0 -> reduced_deflection_angle_sie 0 0 (1 / 2) 0 1 0 x 0 = (if Rlt_dec 0 x then axis_deflection else - axis_deflection, 0).
Proof.
  intros N. assert (S := sqrt_lt_R0 (1 - (1 / 2) ^ 2) ltac:(lra)). unfold reduced_deflection_angle_sie, axis_deflection. destruct (Req_EM_T (1 / 2) 1) as [E|_]; [lra|]. cbn [translate_rotate derotate]. cbv zeta. rewrite cos_0, sin_0. rewrite !Rplus_0_r.
  replace ((0 - 0) * 1 - (x - 0) * 0) with 0 by ring. replace ((x - 0) * 1 + (0 - 0) * 0) with x by ring. set (f := sqrt (1 - (1 / 2) ^ 2)) in *.
  replace (f * 0 / (sqrt ((1 / 2) ^ 2 * (x ^ 2 + 0 ^ 2) + 0 ^ 2) + (1 / 2) ^ 2 * 0)) with 0 by (unfold Rdiv; ring). replace (atanh 0) with 0 by (unfold atanh; rewrite Rplus_0_r, Rminus_0_r; replace (1 / 1) with 1 by field; rewrite ln_1; ring).
  replace (sqrt ((1 / 2) ^ 2 * (x ^ 2 + 0 ^ 2) + 0 ^ 2)) with (Rabs x / 2).
  2:{ replace ((1 / 2) ^ 2 * (x ^ 2 + 0 ^ 2) + 0 ^ 2) with ((x / 2) ^ 2) by field. rewrite <- Rsqr_pow2, sqrt_Rsqr_abs. unfold Rdiv. rewrite Rabs_mult, (Rabs_pos_eq (/ 2)) by lra. reflexivity. }
  apply (f_equal2 pair); [|ring]. destruct (Rlt_dec 0 x) as [P|P].
  - rewrite Rabs_pos_eq by lra. replace (f * x / (x / 2)) with (f * 2) by (field; lra). ring.
  - rewrite Rabs_left by lra. replace (f * x / (- x / 2)) with (- (f * 2)) by (field; lra). rewrite atan_opp. ring.
Qed.
Lemma axis_pos : 0 < axis_deflection.
Proof.
  assert (S := sqrt_lt_R0 (1 - (1 / 2) ^ 2) ltac:(lra)). assert (Q := sqrt_lt_R0 (1 / 2) ltac:(lra)). unfold axis_deflection. apply Rmult_lt_0_compat; [apply Rdiv_lt_0_compat; lra|]. rewrite <- atan_0. apply atan_increasing. lra.
Qed.
Lemma two_images : exists x x', x <> x' /\ raytrace (reduced_deflection_angle_sie 0 0 (1 / 2) 0 1 0) x 0 = raytrace (reduced_deflection_angle_sie 0 0 (1 / 2) 0 1 0) x' 0.
Proof.
  assert (A := axis_pos). exists (3 / 2 * axis_deflection), (- axis_deflection / 2). split; [lra|]. unfold raytrace. rewrite !sie_axis by lra.
  destruct (Rlt_dec 0 (3 / 2 * axis_deflection)); [|lra]. destruct (Rlt_dec 0 (- axis_deflection / 2)); [lra|]. apply (f_equal2 pair); lra.
Qed.
