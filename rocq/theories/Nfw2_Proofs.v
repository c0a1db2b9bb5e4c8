(** * The NFW lens *)
From Coq Require Import Reals Lra Psatz.
From Coquelicot Require Import Coquelicot.
From Verif Require Import Const_Model RealFun Calc2 Cosmo_Model Geo_Model LensBase_Model Lens_Spec Lens_Lib Nfw_Model Nfw_Spec Nfw_Proofs.
Local Open Scope R_scope.

Lemma ln_excess c : 0 < c -> 0 < ln (1 + c) - c / (1 + c).
Proof.
  intros H. assert (I : 0 < / (1 + c)) by (apply Rinv_0_lt_compat; lra).
  assert (L : ln (/ (1 + c)) < / (1 + c) - 1).
  { assert (N : / (1 + c) - 1 <> 0) by (intros E; assert (/ (1 + c) = 1) by lra; apply (f_equal Rinv) in H0; rewrite Rinv_inv, Rinv_1 in H0; lra).
    assert (X := exp_ineq1 (/ (1 + c) - 1) N). rewrite <- (ln_exp (/ (1 + c) - 1)). apply ln_increasing; lra. }
  rewrite ln_Rinv in L by lra. replace (c / (1 + c)) with (1 - / (1 + c)) by (field; lra). lra.
Qed.
Section Scales.
Variables (rho mass c D : R).
Hypotheses (Hrho : 0 < rho) (Hm : 0 < mass) (Hc : 0 < c) (HD : 0 < D).
Lemma scale_radius_pos : 0 < scale_radius_nfw rho mass c D.
Proof. unfold scale_radius_nfw. cbv zeta. apply Rdiv_lt_0_compat; [apply exp_pos|exact Hc]. Qed.
Lemma scale_density_pos : 0 < scale_density_nfw rho c D.
Proof.
  unfold scale_density_nfw. cbv zeta. apply Rdiv_lt_0_compat; [|apply ln_excess, Hc]. assert (0 < c ^ 3) by (apply pow_lt, Hc). repeat apply Rmult_lt_0_compat; lra.
Qed.
Lemma cube_root a : 0 < a -> Rpower a (1 / 3) ^ 3 = a.
Proof. intros H. rewrite <- Rpower_pow by apply exp_pos. rewrite Rpower_mult. replace (1 / 3 * INR 3) with 1 by (cbn; field). apply Rpower_1, H. Qed.
Lemma scale_radius_cube : scale_radius_nfw rho mass c D ^ 3 = 3 * mass / (4 * PI * D * rho) / c ^ 3.
Proof.
  assert (P := PI_RGT_0). unfold scale_radius_nfw. cbv zeta. unfold Rdiv at 1. rewrite Rpow_mult_distr, cube_root.
  - field. repeat split; lra.
  - apply Rdiv_lt_0_compat; [lra|]. revert P. generalize PI. intros p P. repeat apply Rmult_lt_0_compat; lra.
Qed.
(** mass of the sphere of radius c Rs *)
Lemma nfw_mass_scales : 4 * PI * scale_density_nfw rho c D * scale_radius_nfw rho mass c D ^ 3 * (ln (1 + c) - c / (1 + c)) = mass.
Proof.
  assert (P := PI_RGT_0). assert (L := ln_excess c Hc). rewrite scale_radius_cube. unfold scale_density_nfw. cbv zeta. set (l := ln (1 + c)) in *.
  assert (E : l * (1 + c) - c <> 0). { intros E. assert (l - c / (1 + c) = 0); [|lra]. apply Rmult_eq_reg_r with (1 + c); [|lra]. rewrite Rmult_0_l, <- E. field. lra. }
  field. repeat split; try lra; exact E.
Qed.
Lemma nfw_mean_density : let R := c * scale_radius_nfw rho mass c D in mass / (4 / 3 * PI * R ^ 3) = D * rho.
Proof. assert (P := PI_RGT_0). cbv zeta. rewrite Rpow_mult_distr, scale_radius_cube. field. repeat split; lra. Qed.
(** the mass as an integral over shells *)
Lemma shell Ds Rs r : 0 < Rs -> 0 <= r -> 4 * PI * r ^ 2 * nfw_density Ds Rs r = 4 * PI * Ds * Rs * (r / (1 + r / Rs) ^ 2).
Proof.
  intros H Hr. unfold nfw_density. destruct (Req_dec r 0) as [->|N]; [unfold Rdiv; ring|].
  assert (0 < 1 + r / Rs) by (assert (0 <= r / Rs) by (apply Rmult_le_pos; [lra|apply Rlt_le, Rinv_0_lt_compat, H]); lra).
  assert (r + Rs <> 0) by lra. field. repeat split; lra.
Qed.
Lemma nfw_mass_integral : let Rs := scale_radius_nfw rho mass c D in let Ds := scale_density_nfw rho c D in
  is_RInt (V := R_NormedModule) (fun r => 4 * PI * r ^ 2 * nfw_density Ds Rs r) 0 (c * Rs) mass.
Proof.
  cbv zeta. assert (HR := scale_radius_pos). assert (HM := nfw_mass_scales). set (Rs := scale_radius_nfw rho mass c D) in *. set (Ds := scale_density_nfw rho c D) in *.
  set (an := fun r => 4 * PI * Ds * Rs ^ 3 * (ln (1 + r / Rs) - (r / Rs) / (1 + r / Rs))).
  assert (PR : forall r, 0 <= r -> 0 < 1 + r / Rs). { intros r Hr. assert (0 <= r / Rs) by (apply Rmult_le_pos; [lra|apply Rlt_le, Rinv_0_lt_compat, HR]); lra. }
  assert (CR : 0 < c * Rs) by (apply Rmult_lt_0_compat; assumption).
  assert (I : is_RInt (V := R_NormedModule) (fun r => 4 * PI * Ds * Rs * (r / (1 + r / Rs) ^ 2)) 0 (c * Rs) (an (c * Rs) - an 0)).
  { apply (is_RInt_derive (V := R_CompleteNormedModule) an).
    - intros r. rewrite Rmin_left, Rmax_right by lra. intros [Hr _]. assert (P := PR r Hr). unfold an. auto_derive; [repeat split; lra|]. field. repeat split; try lra.
    - intros r. rewrite Rmin_left, Rmax_right by lra. intros [Hr _]. assert (P := PR r Hr). apply (ex_derive_continuous (K := R_AbsRing) (V := R_NormedModule)). auto_derive. unfold Rdiv in P. repeat split; nra. }
  assert (V0 : an (c * Rs) - an 0 = mass).
  { unfold an. replace (c * Rs / Rs) with c by (field; lra). replace (0 / Rs) with 0 by (field; lra). rewrite Rplus_0_r, ln_1. replace (0 / 1) with 0 by field. rewrite (Rminus_0_r 0), Rmult_0_r, Rminus_0_r. exact HM. }
  rewrite <- V0. eapply is_RInt_ext; [|exact I]. intros r. rewrite Rmin_left, Rmax_right by lra. intros [Hr _]. symmetry. apply shell; lra.
Qed.
End Scales.

Section Lens.
Variables (dc cd : R -> R) (z_s z_l x0 y0 mass c : R).
Notation d_l := (angular_diameter_distance dc z_l). Notation d_s := (angular_diameter_distance dc z_s). Notation d_ls := (angular_diameter_distance_z1z2 dc z_l z_s).
Hypotheses (Hrho : 0 < cd z_l) (Hm : 0 < mass) (Hc : 0 < c) (Hl : 0 < d_l) (Hs : 0 < d_s) (Hls : 0 < d_ls).
Let Rs := nfw_get_scale_radius cd z_l mass c.
Let Ds := nfw_get_scale_density cd z_l c.
Let ks := convergence_s_nfw (critical_surface_density dc z_l z_s) (cd z_l) mass c DELTA.
(** radius in units of the scale radius *)
Definition scaled_radius (th : R) : R := d_l * th * arcsec_to_rad / Rs.
Lemma D200 : 0 < DELTA. Proof. unfold DELTA. lra. Qed.
Lemma Rs_pos : 0 < Rs.
Proof. apply scale_radius_pos, Hc. Qed.
Lemma scaled_derive th : is_derive scaled_radius th (d_l * arcsec_to_rad / Rs).
Proof. assert (P := Rs_pos). unfold scaled_radius. auto_derive; [trivial|]. field. lra. Qed.
Lemma scaled_pos th : 0 < th -> 0 < scaled_radius th.
Proof. intros H. assert (A := arcsec_to_rad_pos). unfold scaled_radius. apply Rdiv_lt_0_compat; [|apply Rs_pos]. apply Rmult_lt_0_compat; [apply Rmult_lt_0_compat; assumption|assumption]. Qed.
Lemma sigma_pos : 0 < critical_surface_density dc z_l z_s.
Proof.
  assert (P := PI_RGT_0). assert (Q := G_over_c2_pos). unfold critical_surface_density. cbv zeta. revert P Q Hl Hs Hls. generalize d_l, d_s, d_ls, G_over_c2, PI.
  intros a b e g p P Q H1 H2 H3. apply Rdiv_lt_0_compat; [assumption|]. repeat apply Rmult_lt_0_compat; lra.
Qed.
Lemma ks_eq : 4 * PI * G_over_c2 * Ds * Rs * d_l * d_ls / d_s = ks.
Proof.
  assert (P := PI_RGT_0). assert (Q := G_over_c2_pos). unfold ks, convergence_s_nfw, critical_surface_density. cbv zeta. fold Rs. fold Ds.
  unfold Ds, Rs, nfw_get_scale_density, nfw_get_scale_radius. generalize (scale_radius_nfw (cd z_l) mass c DELTA), (scale_density_nfw (cd z_l) c DELTA). intros r d.
  field. repeat split; apply Rgt_not_eq; assumption.
Qed.
Variables (x y : R).
Hypothesis Hxy : x <> x0 \/ y <> y0.
Notation th := (sqrt ((x - x0) ^ 2 + (y - y0) ^ 2)).
Lemma th_pos : 0 < th.
Proof. apply norm_pos. destruct Hxy; [left|right]; lra. Qed.
Lemma nfw_kappa s : scaled_radius (th + s) ^ 2 - 1 <> 0 ->
  nfw_convergence dc cd z_s z_l x0 y0 mass c s x y = Some (2 * ks * f_nfw (scaled_radius (th + s)) / (scaled_radius (th + s) ^ 2 - 1)).
Proof.
  intros H. unfold nfw_convergence, convergence_nfw. cbn [translate_rotate]. cbv zeta. unfold fin_div.
  change (d_l * (th + s) * arcsec_to_rad / scale_radius_nfw (cd z_l) mass c DELTA) with (scaled_radius (th + s)).
  destruct (Req_EM_T _ 0); [contradiction|reflexivity].
Qed.
Lemma nfw_kappa_none s : scaled_radius (th + s) = 1 -> nfw_convergence dc cd z_s z_l x0 y0 mass c s x y = None.
Proof.
  intros H. unfold nfw_convergence, convergence_nfw. cbn [translate_rotate]. cbv zeta. unfold fin_div.
  change (d_l * (th + s) * arcsec_to_rad / scale_radius_nfw (cd z_l) mass c DELTA) with (scaled_radius (th + s)). rewrite H.
  destruct (Req_EM_T _ 0); [reflexivity|]. exfalso. lra.
Qed.
Lemma off_one r : eps_nfw < Rabs (r - 1) -> 0 < r -> r ^ 2 - 1 <> 0.
Proof. intros H Hr E. assert (r = 1) by nra. subst. rewrite Rminus_eq_0, Rabs_R0 in H. generalize eps_pos. lra. Qed.
Lemma nfw_consistent : eps_nfw < Rabs (scaled_radius th - 1) ->
  exists k, nfw_convergence dc cd z_s z_l x0 y0 mass c 0 x y = Some k /\
  lens_consistent (nfw_potential dc cd z_s z_l x0 y0 mass c 0) (nfw_reduced_deflection_angle dc cd z_s z_l x0 y0 mass c 0) (fun _ _ => k) x y.
Proof.
  intros W. assert (TP := th_pos). assert (RP := scaled_pos th TP). assert (NZ := off_one _ W RP). assert (RsP := Rs_pos). assert (A := arcsec_to_rad_pos).
  eexists. split; [apply nfw_kappa; rewrite Rplus_0_r; exact NZ|]. rewrite Rplus_0_r.
  set (F := fun t => 2 * ks * g_nfw (scaled_radius t) * Rs ^ 2 / (d_l ^ 2 * arcsec_to_rad ^ 2)).
  set (AA := fun t => d_ls / d_s * (16 * PI * G_over_c2 * Ds * Rs ^ 3 * h_nfw (scaled_radius t) * rad_to_arcsec / (d_l * t * arcsec_to_rad))).
  set (k := 2 * ks * f_nfw (scaled_radius th) / (scaled_radius th ^ 2 - 1)).
  assert (AE : forall t, 0 < t -> AA t = 4 * ks * (Rs / (d_l * arcsec_to_rad)) ^ 2 * h_nfw (scaled_radius t) / t).
  { intros t Ht. unfold AA. rewrite <- ks_eq. assert (RA : rad_to_arcsec = / arcsec_to_rad) by (unfold arcsec_to_rad; field; apply Rgt_not_eq, rad_to_arcsec_pos). rewrite RA. field. repeat split; apply Rgt_not_eq; assumption. }
  refine (lens_consistent_ext _ _ _ _ _ _ x y _ _ _ (lens_consistent_shifted (fun u v => F (sqrt (u ^ 2 + v ^ 2))) (fun u v => let r := sqrt (u ^ 2 + v ^ 2) in (AA r * u / r, AA r * v / r)) (fun _ _ => k) x0 y0 x y _)).
  - intros u v. unfold shifted, nfw_potential, potential_nfw, F. cbn [translate_rotate]. cbv zeta. rewrite Rplus_0_r. reflexivity.
  - intros u v. unfold shifted_alpha, nfw_reduced_deflection_angle, nfw_physical_deflection_angle, physical_deflection_angle_nfw, reduced_from_physical_deflection_angle, AA. cbn [translate_rotate]. cbv zeta. rewrite Rplus_0_r.
    set (r := sqrt _). unfold scaled_radius, Rs, Ds, nfw_get_scale_density, nfw_get_scale_radius, Rdiv. apply (f_equal2 pair); ring.
  - reflexivity.
  - assert (H : x - x0 <> 0 \/ y - y0 <> 0) by (destruct Hxy; [left|right]; lra). set (t := th) in *.
    assert (KS : scaled_radius t = t * (d_l * arcsec_to_rad / Rs)) by (unfold scaled_radius; field; lra). set (kk := d_l * arcsec_to_rad / Rs) in *.
    assert (KK : 0 < kk) by (apply Rdiv_lt_0_compat; [apply Rmult_lt_0_compat|]; assumption).
    assert (EK : Rs / (d_l * arcsec_to_rad) = / kk) by (unfold kk; field; repeat split; lra).
    apply (lens_consistent_radial F AA (4 * ks * (/ kk) ^ 2 * ((scaled_radius t * (f_nfw (scaled_radius t) / (scaled_radius t ^ 2 - 1))) * kk / t - h_nfw (scaled_radius t) / t ^ 2)) (fun _ _ => k) (x - x0) (y - y0) H); fold t.
    + rewrite AE, EK by exact TP. unfold F. assert (D := is_derive_comp g_nfw scaled_radius t _ _ (g_derive _ RP W) (scaled_derive t)). fold kk in D.
      assert (D2 := is_derive_scal _ t (2 * ks * (/ kk) ^ 2) _ D). eapply is_derive_ext; [|].
      2:{ match type of D2 with is_derive _ _ ?v => replace (4 * ks * (/ kk) ^ 2 * h_nfw (scaled_radius t) / t) with v; [exact D2|] end.
          unfold scal; cbn; unfold mult; cbn. change (/ kk * (/ kk * 1)) with ((/ kk) ^ 2). generalize (h_nfw (scaled_radius t)). intros hh. rewrite KS. field. repeat split; lra. }
      intros u. match goal with |- @eq _ ?a ?b => change (@eq R a b) end. rewrite <- EK. field. repeat split; lra.
    + eapply is_derive_ext_loc; [generalize (locally_gt 0 t TP); apply filter_imp; intros u Hu; symmetry; apply AE, Hu|]. rewrite EK.
      assert (D := is_derive_comp h_nfw scaled_radius t _ _ (h_derive _ RP W) (scaled_derive t)). fold kk in D.
      assert (DI : is_derive (fun u : R => u) t 1) by apply (is_derive_id (K := R_AbsRing)).
      assert (D1 := is_derive_div _ _ t _ _ D DI ltac:(lra)). assert (D2 := is_derive_scal _ t (4 * ks * (/ kk) ^ 2) _ D1).
      match type of D2 with is_derive _ _ ?v => match goal with |- is_derive _ _ ?w => replace w with v end end.
      * eapply is_derive_ext; [|exact D2]. intros u. unfold Rdiv. match goal with |- @eq _ ?a ?b => change (@eq R a b) end. ring.
      * unfold scal; cbn; unfold mult; cbn. field. repeat split; lra.
    + unfold k. rewrite AE, EK by exact TP. rewrite KS in *. generalize (h_nfw (t * kk)), (f_nfw (t * kk)). intros hh ff. field. repeat split; lra.
Qed.
End Lens.
