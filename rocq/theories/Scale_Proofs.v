(** * Change of the unit of angle: closed-form lenses *)
From Coq Require Import Reals ZArith List Lra Psatz.
From Verif Require Import Py Const_Model RealFun Cosmo_Model Geo_Model LensBase_Model LensBasic_Model Multipole_Model Jaffe_Model Nfw_Model Tnfw_Model Light_Model Scale_Spec.
Import ListNotations.
Local Open Scope R_scope.

Lemma sq_scale l a : 0 < l -> 0 <= a -> sqrt (l ^ 2 * a) = l * sqrt a.
Proof. intros L A. rewrite sqrt_mult by (try apply pow2_ge_0; assumption). rewrite sqrt_pow2 by lra. reflexivity. Qed.
Lemma nonneg2 a b : 0 <= a ^ 2 + b ^ 2.
Proof. assert (A := pow2_ge_0 a). assert (B := pow2_ge_0 b). lra. Qed.
Lemma rad l x y : 0 < l -> sqrt ((l * x) ^ 2 + (l * y) ^ 2) = l * sqrt (x ^ 2 + y ^ 2).
Proof. intros L. replace ((l * x) ^ 2 + (l * y) ^ 2) with (l ^ 2 * (x ^ 2 + y ^ 2)) by ring. apply sq_scale; [exact L|apply nonneg2]. Qed.
Lemma ln_root a : 0 < a -> ln (sqrt a) = ln a / 2.
Proof. intros A. assert (Q := sqrt_lt_R0 _ A). rewrite <- (sqrt_sqrt a) at 2 by lra. rewrite ln_mult by exact Q. field. Qed.
Lemma sub_scale l a b : l * a - l * b = l * (a - b).
Proof. ring. Qed.
Lemma turn_x l X Y p : l * X * cos p + l * Y * sin p = l * (X * cos p + Y * sin p).
Proof. ring. Qed.
Lemma turn_y l X Y p : l * Y * cos p - l * X * sin p = l * (Y * cos p - X * sin p).
Proof. ring. Qed.
Lemma off x y x0 y0 : x <> x0 \/ y <> y0 -> x - x0 <> 0 \/ y - y0 <> 0.
Proof. intros [H|H]; [left|right]; lra. Qed.
Lemma soft_pos x y x0 y0 s : x <> x0 \/ y <> y0 -> 0 <= s -> 0 < sqrt ((x - x0) ^ 2 + (y - y0) ^ 2) + s.
Proof. intros H S. assert (N := norm_pos _ _ (off _ _ _ _ H)). lra. Qed.

Section Simple.
Variables (l x0 y0 x y : R).
Hypotheses (L : 0 < l) (Off : x <> x0 \/ y <> y0).
Lemma sheet_scales kappa : lens_scales l (potential_mass_sheet x0 y0 kappa) (potential_mass_sheet (l * x0) (l * y0) kappa)
  (reduced_deflection_angle_mass_sheet x0 y0 kappa) (reduced_deflection_angle_mass_sheet (l * x0) (l * y0) kappa)
  (fun u _ => convergence_mass_sheet kappa u) (fun u _ => convergence_mass_sheet kappa u) x y.
Proof.
  repeat split; unfold potential_scales, potential_mass_sheet, reduced_deflection_angle_mass_sheet, convergence_mass_sheet; cbn [translate_rotate]; cbv zeta; cbn [fst snd]; unfold Rdiv; ring.
Qed.
Lemma shear_scales g1 g2 : lens_scales l (potential_external_shear x0 y0 g1 g2) (potential_external_shear (l * x0) (l * y0) g1 g2)
  (reduced_deflection_angle_external_shear x0 y0 g1 g2) (reduced_deflection_angle_external_shear (l * x0) (l * y0) g1 g2)
  convergence_external_shear convergence_external_shear x y.
Proof.
  repeat split; unfold potential_scales, potential_external_shear, reduced_deflection_angle_external_shear, convergence_external_shear; cbn [translate_rotate]; cbv zeta; cbn [fst snd]; unfold Rdiv; ring.
Qed.
Lemma sis_scales Rein s : 0 <= s -> lens_scales l (potential_sis x0 y0 Rein s) (potential_sis (l * x0) (l * y0) (l * Rein) (l * s))
  (reduced_deflection_angle_sis x0 y0 Rein s) (reduced_deflection_angle_sis (l * x0) (l * y0) (l * Rein) (l * s))
  (convergence_sis x0 y0 Rein s) (convergence_sis (l * x0) (l * y0) (l * Rein) (l * s)) x y.
Proof.
  intros S. assert (P := soft_pos x y x0 y0 s Off S).
  repeat split; unfold potential_scales, convergence_scales, potential_sis, reduced_deflection_angle_sis, convergence_sis; cbn [translate_rotate]; cbv zeta; cbn [fst snd];
    rewrite !sub_scale, rad, <- Rmult_plus_distr_l by exact L; set (r := sqrt _ + s) in *; clearbody r; try ring; field; lra.
Qed.
Lemma point_deflection_scales Rein s : 0 <= s -> deflection_scales l (reduced_deflection_angle_point x0 y0 Rein s) (reduced_deflection_angle_point (l * x0) (l * y0) (l * Rein) (l * s)) x y.
Proof.
  intros S. assert (P := soft_pos x y x0 y0 s Off S).
  split; unfold reduced_deflection_angle_point; cbn [translate_rotate]; cbv zeta; cbn [fst snd];
    rewrite !sub_scale, rad, <- Rmult_plus_distr_l by exact L; set (r := sqrt _ + s) in *; clearbody r; field; lra.
Qed.
Lemma point_potential_scales Rein s : 0 <= s -> potential_scales_up_to ((l * Rein) ^ 2 * ln l) l (potential_point x0 y0 Rein s) (potential_point (l * x0) (l * y0) (l * Rein) (l * s)) x y.
Proof.
  intros S. assert (P := soft_pos x y x0 y0 s Off S). unfold potential_scales_up_to, potential_point. cbn [translate_rotate]. cbv zeta.
  rewrite !sub_scale, rad, <- Rmult_plus_distr_l, ln_mult by assumption. ring.
Qed.
Lemma point_convergence_scales : convergence_point (l * x0) (l * y0) (l * x) (l * y) = convergence_point x0 y0 x y.
Proof.
  unfold convergence_point. cbn [translate_rotate]. rewrite !sub_scale. assert (Z : forall a, l * a = 0 <-> a = 0) by (intros a; split; intros H; [destruct (Rmult_integral _ _ H); lra|subst a; ring]).
  destruct (Req_EM_T (l * (x - x0)) 0) as [A|A], (Req_EM_T (x - x0) 0) as [B|B]; [|exfalso; exact (B (proj1 (Z _) A))|exfalso; exact (A (proj2 (Z _) B))|reflexivity].
  destruct (Req_EM_T (l * (y - y0)) 0) as [C|C], (Req_EM_T (y - y0) 0) as [D|D]; [reflexivity|exfalso; exact (D (proj1 (Z _) C))|exfalso; exact (C (proj2 (Z _) D))|reflexivity].
Qed.

(** ** SIE *)
Lemma sie_deflection_scales q phi Rein s : 0 < q <= 1 -> 0 <= s ->
  deflection_scales l (reduced_deflection_angle_sie x0 y0 q phi Rein s) (reduced_deflection_angle_sie (l * x0) (l * y0) q phi (l * Rein) (l * s)) x y.
Proof.
  intros Hq S. unfold deflection_scales, reduced_deflection_angle_sie. set (q' := if Req_EM_T q 1 then q - 1 / 10 ^ 6 else q).
  assert (Q : 0 < q' < 1) by (unfold q'; destruct (Req_EM_T q 1); lra). clearbody q'. cbn [translate_rotate]. cbv zeta. rewrite !sub_scale, turn_x, turn_y.
  assert (O : (x - x0) * cos phi + (y - y0) * sin phi <> 0 \/ (y - y0) * cos phi - (x - x0) * sin phi <> 0).
  { destruct (Req_dec ((x - x0) * cos phi + (y - y0) * sin phi) 0) as [A|A]; [|left; exact A]. destruct (Req_dec ((y - y0) * cos phi - (x - x0) * sin phi) 0) as [B|B]; [|right; exact B]. exfalso.
    assert (T := sin2_cos2 phi). unfold Rsqr in T. assert (N := norm_pos _ _ (off _ _ _ _ Off)).
    assert (E : (x - x0) ^ 2 + (y - y0) ^ 2 = 0).
    { transitivity (((x - x0) ^ 2 + (y - y0) ^ 2) * (sin phi * sin phi + cos phi * cos phi)); [rewrite T; ring|].
      transitivity (((x - x0) * cos phi + (y - y0) * sin phi) ^ 2 + ((y - y0) * cos phi - (x - x0) * sin phi) ^ 2); [ring|]. rewrite A, B. ring. }
    rewrite E, sqrt_0 in N. lra. }
  set (X := _ * cos phi + _) in *. set (Y := _ * cos phi - _) in *. clearbody X Y.
  replace (q' ^ 2 * ((l * X) ^ 2 + (l * s) ^ 2) + (l * Y) ^ 2) with (l ^ 2 * (q' ^ 2 * (X ^ 2 + s ^ 2) + Y ^ 2)) by ring.
  assert (P : 0 < q' ^ 2 * (X ^ 2 + s ^ 2) + Y ^ 2).
  { assert (A := pow2_ge_0 s). assert (q2 : 0 < q' ^ 2) by (apply pow_lt; lra).
    destruct O as [O|O]; [assert (B : 0 < X ^ 2) by (rewrite <- Rsqr_pow2; apply Rsqr_pos_lt; exact O); assert (C := pow2_ge_0 Y)|
      assert (B : 0 < Y ^ 2) by (rewrite <- Rsqr_pow2; apply Rsqr_pos_lt; exact O); assert (C := pow2_ge_0 X)]; nra. }
  rewrite sq_scale by (try exact L; lra). assert (W := sqrt_lt_R0 _ P). set (psi := sqrt (q' ^ 2 * _ + _)) in *. clearbody psi. set (f := sqrt (1 - q' ^ 2)). clearbody f.
  assert (q2 : 0 <= q' ^ 2) by apply pow2_ge_0.
  replace (f * (l * X) / (l * psi + l * s)) with (f * X / (psi + s)) by (field; repeat split; nra).
  assert (V := Rmult_le_pos _ _ q2 S). replace (f * (l * Y) / (l * psi + q' ^ 2 * (l * s))) with (f * Y / (psi + q' ^ 2 * s)).
  2:{ replace (l * psi + q' ^ 2 * (l * s)) with (l * (psi + q' ^ 2 * s)) by ring. field. split; lra. }
  cbn [derotate]. cbv zeta. cbn [fst snd]. unfold Rdiv. split; ring.
Qed.
End Simple.

Section Sie.
Variables (l x0 y0 x y q phi Rein s : R).
Hypotheses (L : 0 < l) (Off : x <> x0 \/ y <> y0) (Hq : 0 < q <= 1) (S : 0 <= s).
Lemma rot_pos c : 0 <= c -> let X := (x - x0) * cos phi + (y - y0) * sin phi in let Y := (y - y0) * cos phi - (x - x0) * sin phi in 0 < q ^ 2 * (X ^ 2 + c ^ 2) + Y ^ 2.
Proof.
  intros C X Y. assert (T := sin2_cos2 phi). unfold Rsqr in T.
  assert (E : X ^ 2 + Y ^ 2 = (x - x0) ^ 2 + (y - y0) ^ 2) by (unfold X, Y; transitivity (((x - x0) ^ 2 + (y - y0) ^ 2) * (sin phi * sin phi + cos phi * cos phi)); [ring|rewrite T; ring]).
  assert (P : 0 < (x - x0) ^ 2 + (y - y0) ^ 2). { destruct Off as [H|H]; [assert (0 < (x - x0) ^ 2) by (rewrite <- Rsqr_pow2; apply Rsqr_pos_lt; lra)|assert (0 < (y - y0) ^ 2) by (rewrite <- Rsqr_pow2; apply Rsqr_pos_lt; lra)]; assert (A := pow2_ge_0 (x - x0)); assert (B := pow2_ge_0 (y - y0)); lra. }
  rewrite <- E in P. clearbody X Y. assert (A := pow2_ge_0 X). assert (B := pow2_ge_0 Y). assert (D := pow2_ge_0 c). assert (q2 : 0 < q ^ 2 <= 1) by (split; [apply pow_lt; lra|]; simpl; nra). nra.
Qed.
Lemma sie_convergence_scales : convergence_scales l (convergence_sie x0 y0 q phi Rein s) (convergence_sie (l * x0) (l * y0) q phi (l * Rein) (l * s)) x y.
Proof.
  unfold convergence_scales, convergence_sie. cbn [translate_rotate]. rewrite !sub_scale, turn_x, turn_y. assert (P := rot_pos s S). cbv zeta in P. set (X := _ * cos phi + _) in *. set (Y := _ * cos phi - _) in *. clearbody X Y. cbv zeta.
  replace (q ^ 2 * ((l * X) ^ 2 + (l * s) ^ 2) + (l * Y) ^ 2) with (l ^ 2 * (q ^ 2 * (X ^ 2 + s ^ 2) + Y ^ 2)) by ring. rewrite sq_scale by (try exact L; lra).
  assert (W := sqrt_lt_R0 _ P). set (psi := sqrt (q ^ 2 * _ + _)) in *. clearbody psi. field. lra.
Qed.
(** the potential with the constant of its logarithm left open *)
Definition core_term (m X Y : R) : R := - ln (sqrt ((sqrt (q ^ 2 * (X ^ 2 + s ^ 2) + Y ^ 2) + m) ^ 2 + (1 - q ^ 2) * X ^ 2)) + ln ((1 + q) * m).
Lemma core_scale m X Y : 0 < m -> 0 < q ^ 2 * (X ^ 2 + s ^ 2) + Y ^ 2 ->
  - ln (sqrt ((sqrt (q ^ 2 * ((l * X) ^ 2 + (l * s) ^ 2) + (l * Y) ^ 2) + l * m) ^ 2 + (1 - q ^ 2) * (l * X) ^ 2)) + ln ((1 + q) * (l * m)) = core_term m X Y.
Proof.
  intros M P. unfold core_term. replace (q ^ 2 * ((l * X) ^ 2 + (l * s) ^ 2) + (l * Y) ^ 2) with (l ^ 2 * (q ^ 2 * (X ^ 2 + s ^ 2) + Y ^ 2)) by ring. rewrite sq_scale by (try exact L; lra).
  assert (W := sqrt_lt_R0 _ P). set (psi := sqrt (q ^ 2 * _ + _)) in *. clearbody psi.
  replace ((l * psi + l * m) ^ 2 + (1 - q ^ 2) * (l * X) ^ 2) with (l ^ 2 * ((psi + m) ^ 2 + (1 - q ^ 2) * X ^ 2)) by ring.
  assert (q2 : 0 <= 1 - q ^ 2) by (simpl; nra). assert (B := Rmult_le_pos _ _ q2 (pow2_ge_0 X)). assert (K : 0 < (psi + m) ^ 2) by (apply pow_lt; lra).
  rewrite sq_scale by (try exact L; lra). rewrite ln_mult by (try exact L; apply sqrt_lt_R0; lra). replace ((1 + q) * (l * m)) with (l * ((1 + q) * m)) by ring. rewrite (ln_mult l) by (try exact L; apply Rmult_lt_0_compat; lra). ring.
Qed.
Lemma sie_potential_core : let X := (x - x0) * cos phi + (y - y0) * sin phi in let Y := (y - y0) * cos phi - (x - x0) * sin phi in
  potential_sie (l * x0) (l * y0) q phi (l * Rein) (l * s) (l * x) (l * y) = l ^ 2 * potential_sie x0 y0 q phi Rein s x y
    + l ^ 2 * (Rein * sqrt q * s) * (core_term (Rmax (l * s) (1 / 10 ^ 6) / l) X Y - core_term (Rmax s (1 / 10 ^ 6)) X Y).
Proof.
  intros X Y. assert (D := sie_deflection_scales l x0 y0 x y L Off q phi Rein s Hq S). destruct D as [D1 D2]. unfold potential_sie. 
  destruct (reduced_deflection_angle_sie (l * x0) (l * y0) q phi (l * Rein) (l * s) (l * x) (l * y)) as [bx by']. destruct (reduced_deflection_angle_sie x0 y0 q phi Rein s x y) as [ax ay]. cbn [fst snd] in D1, D2. subst bx by'.
  cbn [derotate translate_rotate]. cbv zeta. rewrite !sub_scale, !turn_x, !turn_y. fold X Y. assert (P := rot_pos s S). cbv zeta in P. fold X Y in P.
  assert (M : 0 < Rmax (l * s) (1 / 10 ^ 6) / l). { apply Rdiv_lt_0_compat; [|exact L]. apply Rlt_le_trans with (1 / 10 ^ 6); [lra|apply Rmax_r]. }
  assert (C := core_scale (Rmax (l * s) (1 / 10 ^ 6) / l) X Y M P). replace (l * (Rmax (l * s) (1 / 10 ^ 6) / l)) with (Rmax (l * s) (1 / 10 ^ 6)) in C by (field; lra). rewrite <- C. unfold core_term. ring.
Qed.
Lemma sie_potential_scales : s = 0 \/ 1 / 10 ^ 6 <= s /\ 1 / 10 ^ 6 <= l * s -> potential_scales l (potential_sie x0 y0 q phi Rein s) (potential_sie (l * x0) (l * y0) q phi (l * Rein) (l * s)) x y.
Proof.
  intros H. unfold potential_scales. rewrite sie_potential_core. destruct H as [H|[H1 H2]].
  - rewrite H. ring.
  - rewrite !Rmax_left by assumption. replace (l * s / l) with s by (field; lra). ring.
Qed.
Lemma core_increasing m m' X Y : 0 < m -> m < m' -> 0 < q ^ 2 * (X ^ 2 + s ^ 2) + Y ^ 2 -> core_term m X Y < core_term m' X Y.
Proof.
  intros M Lt P. unfold core_term. assert (W := sqrt_lt_R0 _ P). set (psi := sqrt (q ^ 2 * _ + _)) in *. clearbody psi.
  assert (q2 : 0 <= 1 - q ^ 2) by (simpl; nra). assert (B := Rmult_le_pos _ _ q2 (pow2_ge_0 X)). set (k := (1 - q ^ 2) * X ^ 2) in *. clearbody k.
  assert (K : 0 < (psi + m) ^ 2) by (apply pow_lt; lra). assert (K' : 0 < (psi + m') ^ 2) by (apply pow_lt; lra).
  rewrite !ln_root by lra. rewrite !ln_mult by lra.
  assert (E : ln ((psi + m') ^ 2 + k) + 2 * ln m < ln ((psi + m) ^ 2 + k) + 2 * ln m').
  { replace (2 * ln m) with (ln (m ^ 2)) by (rewrite ln_pow by lra; simpl; ring). replace (2 * ln m') with (ln (m' ^ 2)) by (rewrite ln_pow by lra; simpl; ring).
    assert (m2 : 0 < m ^ 2) by (apply pow_lt; lra). assert (m2' : 0 < m' ^ 2) by (apply pow_lt; lra). rewrite <- !ln_mult by lra. apply ln_increasing; [apply Rmult_lt_0_compat; lra|].
    assert (A : (psi + m') * m < (psi + m) * m') by nra. assert (A2 : ((psi + m') * m) ^ 2 < ((psi + m) * m') ^ 2). { assert (0 < (psi + m') * m) by (apply Rmult_lt_0_compat; lra). simpl. nra. }
    assert (A3 : k * m ^ 2 <= k * m' ^ 2). { apply Rmult_le_compat_l; [exact B|]. simpl. nra. }
    replace (((psi + m') ^ 2 + k) * m ^ 2) with (((psi + m') * m) ^ 2 + k * m ^ 2) by ring. replace (((psi + m) ^ 2 + k) * m' ^ 2) with (((psi + m) * m') ^ 2 + k * m' ^ 2) by ring. lra. }
  lra.
Qed.
Lemma sie_tiny_core : 0 < s < 1 / 10 ^ 6 -> 1 < l -> 0 < Rein -> ~ potential_scales l (potential_sie x0 y0 q phi Rein s) (potential_sie (l * x0) (l * y0) q phi (l * Rein) (l * s)) x y.
Proof.
  intros T L1 HR H. unfold potential_scales in H. rewrite sie_potential_core in H. set (X := _ * cos phi + _) in H. set (Y := _ * cos phi - _) in H.
  assert (P := rot_pos s S). cbv zeta in P. fold X Y in P. 
  assert (M : 0 < Rmax (l * s) (1 / 10 ^ 6) / l < Rmax s (1 / 10 ^ 6)).
  { rewrite (Rmax_right s) by lra. split.
    - apply Rdiv_lt_0_compat; [|exact L]. apply Rlt_le_trans with (1 / 10 ^ 6); [lra|apply Rmax_r].
    - apply Rmult_lt_reg_l with l; [exact L|]. replace (l * (Rmax (l * s) (1 / 10 ^ 6) / l)) with (Rmax (l * s) (1 / 10 ^ 6)) by (field; lra). apply Rmax_lub_lt; nra. }
  assert (C := core_increasing _ _ X Y (proj1 M) (proj2 M) P). assert (Q : 0 < sqrt q) by (apply sqrt_lt_R0; lra).
  assert (Z : 0 < l ^ 2 * (Rein * sqrt q * s)). { apply Rmult_lt_0_compat; [apply pow_lt; exact L|]. apply Rmult_lt_0_compat; [apply Rmult_lt_0_compat; lra|lra]. } nra.
Qed.
End Sie.
