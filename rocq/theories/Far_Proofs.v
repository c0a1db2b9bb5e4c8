(** * Lenses seen from outside *)
From Coq Require Import Reals Lra Psatz.
From Coquelicot Require Import Coquelicot.
From Verif Require Import Const_Model RealFun Derive1 Calc2 Cosmo_Model Geo_Model LensBase_Model Lens_Lib LensBasic_Model Nfw_Model Nfw_Proofs Jaffe_Model Jaffe_Proofs Tnfw_Model Tnfw_Proofs Tnfw2_Proofs Tnfw3_Proofs Tnfw4_Proofs Far_Spec.
From Verif Require Jaffe2_Proofs.
Local Open Scope R_scope.

Section Shell.
Variables (dc : R -> R) (z_s z_l x0 y0 : R).
Notation d_l := (angular_diameter_distance dc z_l). Notation d_s := (angular_diameter_distance dc z_s). Notation d_ls := (angular_diameter_distance_z1z2 dc z_l z_s).
Hypotheses (Hl : 0 < d_l) (Hs : 0 < d_s) (Hls : 0 < d_ls).
Definition kk : R := rad_to_arcsec ^ 2 * (4 * G_over_c2 * d_ls / (d_l * d_s)).
Lemma kk_pos : 0 < kk.
Proof.
  assert (G := G_over_c2_pos). assert (P := PI_RGT_0). assert (0 < rad_to_arcsec) by (unfold rad_to_arcsec, Rdiv; apply Rmult_lt_0_compat; [apply Rmult_lt_0_compat; [lra|apply Rinv_0_lt_compat, P]|nra]).
  unfold kk. apply Rmult_lt_0_compat; [apply pow_lt; assumption|]. apply Rdiv_lt_0_compat; [|apply Rmult_lt_0_compat; assumption]. apply Rmult_lt_0_compat; [lra|assumption].
Qed.
Lemma rein_sq M : 0 <= M -> mass_to_rein_point M d_ls d_l d_s ^ 2 = kk * M.
Proof.
  intros HM. assert (G := G_over_c2_pos). unfold mass_to_rein_point, kk. rewrite Rpow_mult_distr. rewrite pow2_sqrt.
  - field. split; lra.
  - apply Rmult_le_pos; [|apply Rlt_le, Rinv_0_lt_compat, Rmult_lt_0_compat; assumption]. apply Rmult_le_pos; [|lra]. apply Rmult_le_pos; [lra|exact HM].
Qed.
Lemma point_eq M x y : 0 <= M -> let r := dist_to x0 y0 x y in point_of_mass dc z_s z_l x0 y0 M x y = (kk * M / r ^ 2 * (x - x0), kk * M / r ^ 2 * (y - y0)).
Proof.
  intros HM r. unfold point_of_mass, reduced_deflection_angle_point. cbn [translate_rotate]. cbv zeta. rewrite rein_sq by exact HM. rewrite Rplus_0_r. fold (dist_to x0 y0 x y). fold r. apply (f_equal2 pair); unfold Rdiv; ring.
Qed.
Lemma dist_pos x y : x <> x0 \/ y <> y0 -> 0 < dist_to x0 y0 x y.
Proof. intros H. apply norm_pos. destruct H; [left|right]; lra. Qed.
Lemma dist_off x y : 0 < dist_to x0 y0 x y -> x <> x0 \/ y <> y0.
Proof.
  intros H. destruct (Req_dec x x0) as [->|]; [|left; assumption]. destruct (Req_dec y y0) as [->|]; [|right; assumption]. exfalso. unfold dist_to in H. replace ((x0 - x0) ^ 2 + (y0 - y0) ^ 2) with 0 in H by ring. rewrite sqrt_0 in H. lra.
Qed.
Lemma dist_sq x y : dist_to x0 y0 x y ^ 2 = (x - x0) ^ 2 + (y - y0) ^ 2.
Proof. unfold dist_to. apply pow2_sqrt. assert (A := pow2_ge_0 (x - x0)). assert (B := pow2_ge_0 (y - y0)). lra. Qed.
Lemma asr : arcsec_to_rad = / rad_to_arcsec. Proof. unfold arcsec_to_rad, Rdiv. ring. Qed.
Lemma rad_nz : rad_to_arcsec <> 0.
Proof. assert (P := PI_RGT_0). unfold rad_to_arcsec. apply Rgt_not_eq. unfold Rdiv. apply Rmult_lt_0_compat; [apply Rmult_lt_0_compat; [lra|apply Rinv_0_lt_compat, P]|nra]. Qed.
(** a lens whose deflection is that of the mass enclosed has the far field of its total mass *)
Lemma far_of_shell (alpha : R -> R -> R * R) (M : R -> R) mass : 0 <= mass -> is_lim M p_infty mass ->
  (forall x y, x <> x0 \/ y <> y0 -> let r := dist_to x0 y0 x y in alpha x y = (kk * M r / r ^ 2 * (x - x0), kk * M r / r ^ 2 * (y - y0))) ->
  same_far_deflection x0 y0 alpha (point_of_mass dc z_s z_l x0 y0 mass).
Proof.
  intros Hm L E eps He. assert (K := kk_pos). apply is_lim_spec in L. assert (Q : 0 < eps / kk) by (apply Rdiv_lt_0_compat; assumption). destruct (L (mkposreal _ Q)) as [b Hb]. cbn in Hb.
  exists (Rmax b 1). split; [apply Rlt_le_trans with 1; [lra|apply Rmax_r]|]. intros x y Hr. set (r := dist_to x0 y0 x y) in *. assert (B1 := Rmax_l b 1). assert (B2 := Rmax_r b 1).
  assert (O : x <> x0 \/ y <> y0) by (apply dist_off; fold r; lra). rewrite (E x y O), point_eq by exact Hm. fold r. cbv zeta. cbn [fst snd]. specialize (Hb r ltac:(lra)).
  replace ((kk * M r / r ^ 2 * (x - x0) - kk * mass / r ^ 2 * (x - x0)) ^ 2 + (kk * M r / r ^ 2 * (y - y0) - kk * mass / r ^ 2 * (y - y0)) ^ 2)
    with ((kk * (M r - mass) / r ^ 2) ^ 2 * ((x - x0) ^ 2 + (y - y0) ^ 2)) by (field; lra).
  rewrite <- dist_sq. fold r. replace ((kk * (M r - mass) / r ^ 2) ^ 2 * r ^ 2) with ((kk * (M r - mass) / r) ^ 2) by (field; lra).
  assert (X : 0 <= kk * Rabs (M r - mass) / r <= eps / r).
  { assert (I : 0 < / r) by (apply Rinv_0_lt_compat; lra). assert (A := Rabs_pos (M r - mass)). split; [apply Rmult_le_pos; [apply Rmult_le_pos|]; lra|]. unfold Rdiv. apply Rmult_le_compat_r; [lra|].
    apply Rlt_le in Hb. apply (Rmult_le_compat_l kk) in Hb; [|lra]. replace (kk * (eps / kk)) with eps in Hb by (field; lra). exact Hb. }
  replace ((kk * (M r - mass) / r) ^ 2) with ((kk * Rabs (M r - mass) / r) ^ 2); [apply pow_incr; exact X|].
  unfold Rdiv. rewrite !Rpow_mult_distr, pow2_abs. reflexivity.
Qed.

(** ** PseudoJaffe *)
Section Jaffe.
Variables (mass Rc Rs : R).
Hypotheses (H1 : 0 < Rc) (H2 : 0 < Rs) (H3 : Rc <> Rs).
Lemma jaffe_form x y : x <> x0 \/ y <> y0 -> let r := dist_to x0 y0 x y in
  jaffe_reduced_deflection_angle dc z_s z_l x0 y0 mass Rc Rs x y = (kk * jaffe_mass_enclosed_2d r mass Rc Rs / r ^ 2 * (x - x0), kk * jaffe_mass_enclosed_2d r mass Rc Rs / r ^ 2 * (y - y0)).
Proof.
  intros O r. assert (P := dist_pos x y O). fold r in P. assert (G := G_over_c2_pos). assert (PP := PI_RGT_0). assert (RN := rad_nz).
  rewrite Jaffe2_Proofs.class_deflection by assumption. cbv zeta. fold (dist_to x0 y0 x y). fold r. generalize (jaffe_mass_enclosed_2d r mass Rc Rs). intros m.
  unfold critical_surface_density. cbv zeta. rewrite asr. unfold kk. apply (f_equal2 pair); field; repeat split; lra.
Qed.
Lemma jaffe_nonneg r : 0 <= mass -> 0 <= r -> 0 <= jaffe_mass_enclosed_2d r mass Rc Rs.
Proof.
  intros Hm Hr. unfold jaffe_mass_enclosed_2d, mass_enclosed_2d_pseudo_jaffe. cbv zeta. rewrite Rplus_0_r.
  assert (A : forall a b, 0 < a -> a <= b -> sqrt (b ^ 2 + r ^ 2) - b <= sqrt (a ^ 2 + r ^ 2) - a).
  { intros a b Ha Hab. assert (SA := pow2_sqrt (a ^ 2 + r ^ 2) ltac:(nra)). assert (S0 := sqrt_pos (a ^ 2 + r ^ 2)). set (u := sqrt (a ^ 2 + r ^ 2)) in *.
    assert (AU : a <= u) by (apply Rnot_lt_le; intros C; nra). cut (sqrt (b ^ 2 + r ^ 2) <= u + (b - a)); [lra|].
    rewrite <- (sqrt_pow2 (u + (b - a))) by lra. apply sqrt_le_1_alt. nra. }
  destruct (Rlt_dec Rc Rs) as [C|C].
  - assert (B := A Rc Rs H1 ltac:(lra)). apply Rmult_le_pos; [apply Rmult_le_pos; lra|apply Rlt_le, Rinv_0_lt_compat; lra].
  - assert (B := A Rs Rc H2 ltac:(lra)). replace (mass * (sqrt (Rc ^ 2 + r ^ 2) - Rc - sqrt (Rs ^ 2 + r ^ 2) + Rs) / (Rs - Rc)) with (mass * (sqrt (Rs ^ 2 + r ^ 2) - Rs - (sqrt (Rc ^ 2 + r ^ 2) - Rc)) / (Rc - Rs)) by (field; lra).
    apply Rmult_le_pos; [apply Rmult_le_pos; lra|apply Rlt_le, Rinv_0_lt_compat; lra].
Qed.
Lemma jaffe_shell x y : 0 <= mass -> x <> x0 \/ y <> y0 ->
  jaffe_reduced_deflection_angle dc z_s z_l x0 y0 mass Rc Rs x y = point_of_mass dc z_s z_l x0 y0 (jaffe_mass_enclosed_2d (dist_to x0 y0 x y) mass Rc Rs) x y.
Proof. intros Hm O. rewrite jaffe_form by exact O. rewrite point_eq; [reflexivity|]. apply jaffe_nonneg; [exact Hm|apply Rlt_le, dist_pos, O]. Qed.
Lemma jaffe_far : 0 <= mass -> same_far_deflection x0 y0 (jaffe_reduced_deflection_angle dc z_s z_l x0 y0 mass Rc Rs) (point_of_mass dc z_s z_l x0 y0 mass).
Proof.
  intros Hm. apply far_of_shell with (M := fun r => jaffe_mass_enclosed_2d r mass Rc Rs); [exact Hm|apply mass_limit; assumption|]. intros x y O. apply jaffe_form, O.
Qed.
(** limits *)
Lemma hyp_ratio a : 0 < a -> is_lim (fun r => ln (a + sqrt (a ^ 2 + r ^ 2)) - ln r) p_infty 0.
Proof.
  intros Ha. apply is_lim_spec. intros eps. assert (E := cond_pos eps). exists (2 * a / eps). intros r Hr. assert (Q : 0 < 2 * a / eps) by (apply Rdiv_lt_0_compat; lra). assert (R0 : 0 < r) by lra.
  assert (S1 : r <= sqrt (a ^ 2 + r ^ 2)) by (rewrite <- (sqrt_pow2 r) at 1 by lra; apply sqrt_le_1_alt; nra). assert (S2 : sqrt (a ^ 2 + r ^ 2) <= r + a) by (rewrite <- (sqrt_pow2 (r + a)) by lra; apply sqrt_le_1_alt; nra).
  set (h := sqrt (a ^ 2 + r ^ 2)) in *. rewrite Rminus_0_r. rewrite <- ln_quot by lra.
  assert (B : 1 <= (a + h) / r) by (apply Rmult_le_reg_r with r; [lra|]; unfold Rdiv; rewrite Rmult_assoc, Rinv_l by lra; lra).
  assert (U := ln_upper ((a + h) / r) ltac:(lra)). assert (N : 0 <= ln ((a + h) / r)) by (rewrite <- ln_1; destruct (Req_dec 1 ((a + h) / r)) as [Z|Z]; [rewrite <- Z; lra|apply Rlt_le, ln_increasing; lra]).
  rewrite Rabs_pos_eq by exact N. apply Rle_lt_trans with (1 := U). assert (V : (a + h) / r - 1 <= 2 * a / r).
  { replace ((a + h) / r - 1) with ((a + h - r) / r) by (field; lra). unfold Rdiv. apply Rmult_le_compat_r; [apply Rlt_le, Rinv_0_lt_compat; lra|lra]. }
  apply Rle_lt_trans with (1 := V). apply Rmult_lt_reg_r with r; [lra|]. unfold Rdiv. rewrite Rmult_assoc, Rinv_l, Rmult_1_r by lra.
  apply (Rmult_lt_compat_l eps) in Hr; [|exact E]. replace (eps * (2 * a / eps)) with (2 * a) in Hr by (field; lra). lra.
Qed.
Lemma far_of_radial (psi chi : R -> R -> R) (D : R -> R) (c : R) : is_lim D p_infty c -> (forall x y, x <> x0 \/ y <> y0 -> psi x y - chi x y = D (dist_to x0 y0 x y)) ->
  far_potential_offset x0 y0 psi chi c.
Proof.
  intros L E eps He. apply is_lim_spec in L. destruct (L (mkposreal _ He)) as [b Hb]. cbn in Hb. exists (Rmax b 1). split; [apply Rlt_le_trans with 1; [lra|apply Rmax_r]|].
  intros x y Hr. assert (B1 := Rmax_l b 1). assert (B2 := Rmax_r b 1). rewrite E by (apply dist_off; lra). apply Hb. lra.
Qed.
Lemma jaffe_pot_far : 0 <= mass -> far_potential_offset x0 y0 (jaffe_potential dc z_s z_l x0 y0 mass Rc Rs) (point_potential_of_mass dc z_s z_l x0 y0 mass) 0.
Proof.
  intros Hm. assert (G := G_over_c2_pos). assert (PP := PI_RGT_0). assert (RN := rad_nz).
  apply far_of_radial with (D := fun r => kk * mass / (Rc - Rs) * (sqrt (Rs ^ 2 + r ^ 2) - sqrt (Rc ^ 2 + r ^ 2) + Rc * (ln (Rc + sqrt (Rc ^ 2 + r ^ 2)) - ln r) - Rs * (ln (Rs + sqrt (Rs ^ 2 + r ^ 2)) - ln r))).
  - replace 0 with (kk * mass / (Rc - Rs) * (0 + Rc * 0 - Rs * 0)) by ring.
    assert (L0 : is_lim (fun r => sqrt (Rs ^ 2 + r ^ 2) - sqrt (Rc ^ 2 + r ^ 2)) p_infty 0).
    { apply is_lim_spec. intros eps. exists (Rmax 1 (Rabs (Rs ^ 2 - Rc ^ 2) / eps)). intros r Hr. rewrite Rminus_0_r. assert (E := cond_pos eps).
      assert (B1 := Rmax_l 1 (Rabs (Rs ^ 2 - Rc ^ 2) / eps)). assert (B2 := Rmax_r 1 (Rabs (Rs ^ 2 - Rc ^ 2) / eps)).
      assert (SA := pow2_sqrt (Rs ^ 2 + r ^ 2) ltac:(nra)). assert (SB := pow2_sqrt (Rc ^ 2 + r ^ 2) ltac:(nra)).
      assert (S1 : r <= sqrt (Rs ^ 2 + r ^ 2)) by (rewrite <- (sqrt_pow2 r) at 1 by lra; apply sqrt_le_1_alt; nra). assert (S2 := sqrt_pos (Rc ^ 2 + r ^ 2)).
      set (a := sqrt (Rs ^ 2 + r ^ 2)) in *. set (b := sqrt (Rc ^ 2 + r ^ 2)) in *.
      replace (a - b) with ((Rs ^ 2 - Rc ^ 2) / (a + b)) by (replace (Rs ^ 2 - Rc ^ 2) with ((a - b) * (a + b)) by nra; field; lra).
      unfold Rdiv. rewrite Rabs_mult, (Rabs_pos_eq (/ (a + b))) by (apply Rlt_le, Rinv_0_lt_compat; lra). apply Rmult_lt_reg_r with (a + b); [lra|]. rewrite Rmult_assoc, Rinv_l, Rmult_1_r by lra.
      assert (Rabs (Rs ^ 2 - Rc ^ 2) < eps * r). { assert (X : Rabs (Rs ^ 2 - Rc ^ 2) / eps < r) by lra. apply (Rmult_lt_compat_l eps) in X; [|exact E]. replace (eps * (Rabs (Rs ^ 2 - Rc ^ 2) / eps)) with (Rabs (Rs ^ 2 - Rc ^ 2)) in X by (field; lra). exact X. }
      apply Rlt_le_trans with (1 := H). apply Rmult_le_compat_l; lra. }
    apply (is_lim_scal_l (fun r => sqrt (Rs ^ 2 + r ^ 2) - sqrt (Rc ^ 2 + r ^ 2) + Rc * (ln (Rc + sqrt (Rc ^ 2 + r ^ 2)) - ln r) - Rs * (ln (Rs + sqrt (Rs ^ 2 + r ^ 2)) - ln r)) _ p_infty (Finite (0 + Rc * 0 - Rs * 0))).
    apply (is_lim_minus' (fun r => sqrt (Rs ^ 2 + r ^ 2) - sqrt (Rc ^ 2 + r ^ 2) + Rc * (ln (Rc + sqrt (Rc ^ 2 + r ^ 2)) - ln r))).
    + apply (is_lim_plus' (fun r => sqrt (Rs ^ 2 + r ^ 2) - sqrt (Rc ^ 2 + r ^ 2))); [exact L0|]. apply (is_lim_scal_l (fun r => ln (Rc + sqrt (Rc ^ 2 + r ^ 2)) - ln r) Rc p_infty (Finite 0)), hyp_ratio, H1.
    + apply (is_lim_scal_l (fun r => ln (Rs + sqrt (Rs ^ 2 + r ^ 2)) - ln r) Rs p_infty (Finite 0)), hyp_ratio, H2.
  - intros x y O. assert (P := dist_pos x y O). unfold jaffe_potential, potential_pseudo_jaffe, point_potential_of_mass, potential_point. cbn [translate_rotate]. cbv zeta. rewrite rein_sq by exact Hm. rewrite !Rplus_0_r, <- dist_sq.
    rewrite (sqrt_pow2 (dist_to x0 y0 x y)) by lra. set (r := dist_to x0 y0 x y) in *. generalize (ln r) (sqrt (Rs ^ 2 + r ^ 2)) (sqrt (Rc ^ 2 + r ^ 2)). intros lr a b.
    generalize (ln (Rc + b)) (ln (Rs + a)). intros l1 l2. unfold convergence_0_pseudo_jaffe, kk. rewrite asr. field. repeat split; lra.
Qed.
End Jaffe.

(** ** TNFW *)
Section Tnfw.
Variables (cd : R -> R) (tot : bool) (mass Rs tau : R).
Hypotheses (HR : 0 < Rs) (Ht : 0 < tau).
Lemma tnfw_form x y : x <> x0 \/ y <> y0 -> let r := dist_to x0 y0 x y in let m := tnfw_mass_enclosed_2d dc cd tot z_l mass r Rs tau in
  tnfw_reduced_deflection_angle dc cd tot z_s z_l x0 y0 mass Rs tau 0 x y = (kk * m / r ^ 2 * (x - x0), kk * m / r ^ 2 * (y - y0)).
Proof.
  intros O r m. assert (P := dist_pos x y O). fold r in P. assert (RN := rad_nz).
  rewrite reduced_eq. rewrite (alpha_eq x0 y0 Rs tau _ _ _ _ 0 x y O). cbv zeta. fold (dist_to x0 y0 x y). fold r. rewrite Rplus_0_r. unfold m, tnfw_mass_enclosed_2d. rewrite mass_eq.
  generalize (mproj tau (r / Rs)). intros mm. rewrite asr. unfold kk. apply (f_equal2 pair); field; repeat split; lra.
Qed.
Lemma tnfw_shell x y : x <> x0 \/ y <> y0 -> let m := tnfw_mass_enclosed_2d dc cd tot z_l mass (dist_to x0 y0 x y) Rs tau in 0 <= m ->
  tnfw_reduced_deflection_angle dc cd tot z_s z_l x0 y0 mass Rs tau 0 x y = point_of_mass dc z_s z_l x0 y0 m x y.
Proof. intros O m Hm. rewrite tnfw_form by exact O. rewrite point_eq by exact Hm. reflexivity. Qed.
End Tnfw.
Section TnfwTotal.
Variables (cd : R -> R) (mass Rs tau : R).
Hypotheses (Hm : 0 <= mass) (HR : 0 < Rs) (Ht : 0 < tau).
Lemma tnfw_far : same_far_deflection x0 y0 (tnfw_reduced_deflection_angle dc cd true z_s z_l x0 y0 mass Rs tau 0) (point_of_mass dc z_s z_l x0 y0 mass).
Proof.
  apply far_of_shell with (M := fun r => tnfw_mass_enclosed_2d dc cd true z_l mass r Rs tau); [exact Hm|apply class_total; assumption|]. intros x y O. apply tnfw_form. exact O.
Qed.
Let u (g : R) := sqrt (g ^ 2 - 1).
(** the radial potential less its logarithm *)
Lemma vproj_split g : 1 + 1 / 100 < g -> vproj tau g - 2 * (tau ^ 2 / (tau ^ 2 + 1) ^ 2 * ktot tau) * ln g =
  tau ^ 2 / (tau ^ 2 + 1) ^ 2 * (2 * PI * tau + 2 * PI * tau * (ln (tau + sqrt (tau ^ 2 + g ^ 2)) - ln g) - 2 * PI * (tau ^ 2 + 1) * / (u g + hyp tau g) - 4 * (u g * atan (/ u g))
    - 2 * (tau ^ 2 - 1) * / tau * (hyp tau g * atanh (tau * / hyp tau g)) + (tau ^ 2 - 1) * (ln (tau + sqrt (tau ^ 2 + g ^ 2)) - ln g) ^ 2 + (tau ^ 2 - 1) * atan (u g) ^ 2
    - ((tau ^ 2 - 1) * ln tau * ln (4 * tau) + 2 * ln (tau / 2) - 2 * tau * (tau - PI) * ln (2 * tau))).
Proof.
  intros H. assert (P := root_pos g ltac:(lra)). assert (Q := root_sq g ltac:(lra)). assert (P1 := hyp_pos tau Ht g). assert (Q1 := hyp_sq tau g).
  assert (L1 := L_eq tau g Ht ltac:(lra)). assert (L2 : L_tnfw g tau = - (ln (tau + sqrt (tau ^ 2 + g ^ 2)) - ln g)). { unfold L_tnfw. rewrite ln_quot; [ring|lra|]. fold (hyp tau g). lra. }
  unfold vproj. rewrite F_outer, P_outer by lra. unfold wp. rewrite L2 at 2. rewrite L1. replace (ln (g ^ 2)) with (2 * ln g) by (replace (g ^ 2) with (g * g) by ring; rewrite ln_mult by lra; ring).
  fold (hyp tau g). fold (u g) in *. set (r := u g) in *. set (h := hyp tau g) in *. set (at1 := atanh _). set (ls := ln (tau + h)).
  replace (4 * tau ^ 2 * (g ^ 2 - 1) * (atan r / r)) with (4 * tau ^ 2 * (r * atan r)) by (rewrite <- Q; field; lra).
  assert (A := atan_recip r P). replace (r * atan r) with (r * (PI / 2) - r * atan (/ r)) by (rewrite A; ring). replace (2 * PI * (tau ^ 2 + 1) * / (r + h)) with (2 * PI * (h - r)).
  - unfold ktot. generalize (atan r) (atan (/ r)) (ln g) (ln tau) (ln (4 * tau)) (ln (tau / 2)) (ln (2 * tau)). intros. field. split; nra.
  - replace (tau ^ 2 + 1) with ((h - r) * (h + r)) by nra. field. lra.
Qed.
Lemma lim_vproj : exists c : R, is_lim (fun g => vproj tau g - 2 * (tau ^ 2 / (tau ^ 2 + 1) ^ 2 * ktot tau) * ln g) p_infty c.
Proof.
  assert (PP := PI_RGT_0).
  assert (U : is_lim u p_infty p_infty) by apply lim_root.
  assert (L0 := hyp_ratio tau Ht).
  assert (L1 : is_lim (fun g => atan (u g)) p_infty (PI / 2)).
  { apply (lim_comp_inf atan u); [|exact U]. eapply is_lim_ext; [|apply (Jaffe2_Proofs.atan_lim 1); lra]. intros z. cbv beta. unfold Rdiv. rewrite Rinv_1, Rmult_1_r. reflexivity. }
  assert (L2 : is_lim (fun g => u g * atan (/ u g)) p_infty 1).
  { apply (lim_comp_inf (fun x => x * atan (/ x)) u); [|exact U]. apply lim_quot; [|apply atan_0]. eapply dv_val; [apply is_derive_atan|]. unfold Rsqr. field. }
  assert (L3 : is_lim (fun g => / (u g + hyp tau g)) p_infty 0).
  { replace (Finite 0) with (Rbar_inv p_infty) by reflexivity. apply is_lim_inv; [|discriminate]. eapply is_lim_plus; [exact U|apply lim_hyp|reflexivity]. }
  assert (L4 : is_lim (fun g => hyp tau g * atanh (tau * / hyp tau g)) p_infty tau).
  { apply (lim_comp_inf (fun x => x * atanh (tau * / x)) (hyp tau)); [|apply lim_hyp]. apply (lim_quot (fun h => atanh (tau * h))).
    - unfold atanh. auto_derive; [rewrite Rmult_0_r; split; [lra|split; [|trivial]]; rewrite Ropp_0, !Rplus_0_r, Rinv_1; lra|]. rewrite !Rmult_0_r, Ropp_0, !Rplus_0_r, Rinv_1. field.
    - unfold atanh. rewrite Rmult_0_r, Rplus_0_r, Rminus_0_r. replace (1 / 1) with 1 by field. rewrite ln_1. ring. }
  assert (LC : forall c : R, is_lim (fun _ => c) p_infty c) by (intros; apply is_lim_const).
  assert (LS : forall (c : R) f (l : R), is_lim f p_infty l -> is_lim (fun g => c * f g) p_infty (c * l)) by (intros c f l H; exact (is_lim_scal_l f c p_infty l H)).
  assert (LP : forall f h (l k : R), is_lim f p_infty l -> is_lim h p_infty k -> is_lim (fun g => f g + h g) p_infty (l + k)) by (intros f h l k H H'; eapply is_lim_plus; [exact H|exact H'|reflexivity]).
  assert (LM : forall f h (l k : R), is_lim f p_infty l -> is_lim h p_infty k -> is_lim (fun g => f g - h g) p_infty (l - k)) by (intros f h l k H H'; eapply is_lim_minus; [exact H|exact H'|reflexivity]).
  assert (LQ : forall f (l : R), is_lim f p_infty l -> is_lim (fun g => f g ^ 2) p_infty (l ^ 2)).
  { intros f l H. replace (l ^ 2) with (l * l) by ring. apply is_lim_ext with (fun g => f g * f g); [intros; ring|]. apply (is_lim_mult f f p_infty l l); [exact H|exact H|exact I]. }
  eexists. eapply is_lim_ext_loc; [exists (1 + 1 / 100); intros g Hg; symmetry; apply vproj_split, Hg|].
  apply LS, LM; [apply LP; [apply LP; [apply LM; [apply LM; [apply LM; [apply LP|]|]|]|]|]|]; try apply LS; try apply LQ; eauto.
Qed.
Lemma tnfw_pot_far : exists c, far_potential_offset x0 y0 (tnfw_potential dc cd true z_s z_l x0 y0 mass Rs tau 0) (point_potential_of_mass dc z_s z_l x0 y0 mass) c.
Proof.
  destruct lim_vproj as [c L]. assert (K := ktot_pos tau Ht). assert (RN := rad_nz). assert (T1 : tau ^ 2 + 1 <> 0) by nra.
  set (S := kk * M0_totmass_tnfw mass tau / 2). exists (S * c - kk * mass * ln Rs).
  apply far_of_radial with (D := fun r => S * (vproj tau (r / Rs) - 2 * (tau ^ 2 / (tau ^ 2 + 1) ^ 2 * ktot tau) * ln (r / Rs)) - kk * mass * ln Rs).
  - apply (is_lim_minus' (fun r => S * (vproj tau (r / Rs) - 2 * (tau ^ 2 / (tau ^ 2 + 1) ^ 2 * ktot tau) * ln (r / Rs)))); [|apply is_lim_const].
    apply (is_lim_scal_l (fun r => vproj tau (r / Rs) - 2 * (tau ^ 2 / (tau ^ 2 + 1) ^ 2 * ktot tau) * ln (r / Rs)) S p_infty (Finite c)).
    apply (lim_comp_inf (fun g => vproj tau g - 2 * (tau ^ 2 / (tau ^ 2 + 1) ^ 2 * ktot tau) * ln g) (fun r => r / Rs)); [exact L|].
    apply is_lim_spec. intros M. exists (M * Rs). intros r Hr. apply Rmult_lt_reg_r with Rs; [exact HR|]. unfold Rdiv. rewrite Rmult_assoc, Rinv_l by lra. lra.
  - intros x y O. assert (P := dist_pos x y O). unfold tnfw_potential. rewrite pot_eq. fold (dist_to x0 y0 x y). unfold point_potential_of_mass, potential_point. cbn [translate_rotate]. cbv zeta. rewrite rein_sq by exact Hm. rewrite !Rplus_0_r, <- dist_sq.
    rewrite (sqrt_pow2 (dist_to x0 y0 x y)) by lra. set (r := dist_to x0 y0 x y) in *. rewrite ln_quot by assumption. generalize (vproj tau (r / Rs)). intros v. cbn [tnfw_M0].
    assert (E : M0_totmass_tnfw mass tau * (tau ^ 2 / (tau ^ 2 + 1) ^ 2 * ktot tau) = mass) by (unfold M0_totmass_tnfw; fold (ktot tau); field; repeat split; lra).
    replace (kk * mass) with (kk * (M0_totmass_tnfw mass tau * (tau ^ 2 / (tau ^ 2 + 1) ^ 2 * ktot tau))) by (rewrite E; reflexivity). unfold S, tnfw_M0. clear E S.
    generalize (M0_totmass_tnfw mass tau) (ln r) (ln Rs) (ktot tau). intros m l1 l2 k. rewrite asr. unfold kk. field. repeat split; lra.
Qed.
End TnfwTotal.
End Shell.
