(** * The pseudo Jaffe class *)
From Coq Require Import Reals Lra Psatz.
From Coquelicot Require Import Coquelicot.
From Verif Require Import Const_Model Cosmo_Model Calc2 RealFun Geo_Model Lens_Spec Lens_Lib Jaffe_Model Jaffe_Proofs.
Local Open Scope R_scope.
Lemma class_consistent dc z_s z_l mass Rc Rs x0 y0 x y : 0 < Rc -> 0 < Rs -> Rc <> Rs ->
  0 < angular_diameter_distance dc z_l -> 0 < angular_diameter_distance dc z_s -> 0 < angular_diameter_distance_z1z2 dc z_l z_s -> x <> x0 \/ y <> y0 ->
  lens_consistent (jaffe_potential dc z_s z_l x0 y0 mass Rc Rs) (jaffe_reduced_deflection_angle dc z_s z_l x0 y0 mass Rc Rs) (jaffe_convergence dc z_s z_l x0 y0 mass Rc Rs) x y.
Proof. intros H1 H2 H3 H4 H5 H6. apply (jaffe_consistent mass Rc Rs (angular_diameter_distance dc z_l) (angular_diameter_distance dc z_s) (angular_diameter_distance_z1z2 dc z_l z_s)); assumption. Qed.
Lemma class_mass dc z_s z_l mass Rc Rs r : 0 < Rc -> 0 < Rs -> Rc <> Rs ->
  0 < angular_diameter_distance dc z_l -> 0 < angular_diameter_distance dc z_s -> 0 < angular_diameter_distance_z1z2 dc z_l z_s ->
  is_derive (fun r => jaffe_mass_enclosed_2d r mass Rc Rs) r
    (2 * PI * r * (jaffe_convergence dc z_s z_l 0 0 mass Rc Rs r 0 * critical_surface_density dc z_l z_s * (angular_diameter_distance dc z_l * arcsec_to_rad) ^ 2)) /\
  jaffe_mass_enclosed_2d 0 mass Rc Rs = 0 /\
  is_lim (fun r => jaffe_mass_enclosed_2d r mass Rc Rs) p_infty mass.
Proof.
  intros H1 H2 H3 H4 H5 H6. split; [|split].
  - apply (mass_derive mass Rc Rs (angular_diameter_distance dc z_l) (angular_diameter_distance dc z_s) (angular_diameter_distance_z1z2 dc z_l z_s)); assumption.
  - apply mass_zero; assumption.
  - apply mass_limit; assumption.
Qed.
Lemma class_deflection dc z_s z_l mass Rc Rs x0 y0 x y : 0 < Rc -> 0 < Rs -> Rc <> Rs ->
  0 < angular_diameter_distance dc z_l -> 0 < angular_diameter_distance dc z_s -> 0 < angular_diameter_distance_z1z2 dc z_l z_s -> x <> x0 \/ y <> y0 ->
  let r := sqrt ((x - x0) ^ 2 + (y - y0) ^ 2) in
  let a := jaffe_mass_enclosed_2d r mass Rc Rs / (PI * r * critical_surface_density dc z_l z_s * (angular_diameter_distance dc z_l * arcsec_to_rad) ^ 2) in
  jaffe_reduced_deflection_angle dc z_s z_l x0 y0 mass Rc Rs x y = (a * ((x - x0) / r), a * ((y - y0) / r)).
Proof. intros H1 H2 H3 H4 H5 H6 H7. apply (deflection_mass mass Rc Rs (angular_diameter_distance dc z_l) (angular_diameter_distance dc z_s) (angular_diameter_distance_z1z2 dc z_l z_s)); assumption. Qed.
Lemma class_central dc z_s z_l mass Rc Rs x0 y0 : 0 < Rc -> 0 < Rs -> Rc <> Rs ->
  jaffe_convergence dc z_s z_l x0 y0 mass Rc Rs x0 y0 = get_convergence_0 dc z_s z_l mass Rc Rs.
Proof.
  intros H1 H2 H3. assert (G := gap_nz Rc Rs H3). unfold jaffe_convergence, get_convergence_0, convergence_pseudo_jaffe. cbn [translate_rotate]. cbv zeta. replace ((x0 - x0) ^ 2 + (y0 - y0) ^ 2 + 0) with 0 by ring. rewrite !Rplus_0_r, !sqrt_pow2 by lra.
  unfold convergence_0_pseudo_jaffe. generalize (mass / (2 * PI * critical_surface_density dc z_l z_s * Rc * Rs * (angular_diameter_distance dc z_l * arcsec_to_rad) ^ 2)). intros k. field. repeat split; solve [assumption|lra].
Qed.
Section Projection.
Variables (rho a b : R).
Hypotheses (Ha : 0 < a) (Hb : 0 < b) (Hne : a <> b).
Definition anti (z : R) : R := rho * (a ^ 2 * b ^ 2 / (b ^ 2 - a ^ 2)) * (atan (z / a) / a - atan (z / b) / b).
Lemma sq_gap : b ^ 2 - a ^ 2 <> 0.
Proof. intros E. apply Hne. nra. Qed.
Lemma anti_derive z : is_derive anti z (rho / ((1 + z ^ 2 / a ^ 2) * (1 + z ^ 2 / b ^ 2))).
Proof.
  assert (G := sq_gap). unfold anti. auto_derive; [repeat split; lra|]. assert (0 < a ^ 2 + z ^ 2) by nra. assert (0 < b ^ 2 + z ^ 2) by nra.
  unfold Rsqr. field. repeat split; try nra; lra.
Qed.
Lemma anti_int Z : RInt (fun z => rho / ((1 + z ^ 2 / a ^ 2) * (1 + z ^ 2 / b ^ 2))) (- Z) Z = 2 * anti Z.
Proof.
  assert (I : is_RInt (V := R_NormedModule) (fun z => rho / ((1 + z ^ 2 / a ^ 2) * (1 + z ^ 2 / b ^ 2))) (- Z) Z (anti Z - anti (- Z))).
  { apply (is_RInt_derive (V := R_CompleteNormedModule) anti).
    - intros z _. apply anti_derive.
    - intros z _. apply (ex_derive_continuous (K := R_AbsRing) (V := R_NormedModule)). auto_derive. assert (0 <= z ^ 2) by nra.
      assert (0 < / a ^ 2) by (apply Rinv_0_lt_compat; nra). assert (0 < / b ^ 2) by (apply Rinv_0_lt_compat; nra).
      assert (0 < 1 + z ^ 2 / a ^ 2) by (unfold Rdiv; nra). assert (0 < 1 + z ^ 2 / b ^ 2) by (unfold Rdiv; nra).
      cbn [pow] in *. unfold Rdiv in *. repeat split; try nra. }
  assert (I2 : RInt (fun z => rho / ((1 + z ^ 2 / a ^ 2) * (1 + z ^ 2 / b ^ 2))) (- Z) Z = anti Z - anti (- Z)) by (apply (is_RInt_unique (V := R_CompleteNormedModule)); exact I). rewrite I2. match goal with |- @eq _ ?a ?b => change (@eq R a b) end. unfold anti. replace (- Z / a) with (- (Z / a)) by (field; lra). replace (- Z / b) with (- (Z / b)) by (field; lra). rewrite !atan_opp. assert (G := sq_gap). field. repeat split; try lra; exact G.
Qed.
Lemma atan_lim c : 0 < c -> is_lim (fun z => atan (z / c)) p_infty (PI / 2).
Proof.
  intros Hc. apply is_lim_spec. intros eps. assert (E := cond_pos eps). set (e := Rmin eps (PI / 4)). assert (P := PI_RGT_0). assert (0 < e) by (unfold e; apply Rmin_glb_lt; lra). assert (e <= eps) by apply Rmin_l. assert (e <= PI / 4) by apply Rmin_r.
  exists (c * tan (PI / 2 - e)). intros z Hz. assert (B := atan_bound (z / c)).
  assert (L : PI / 2 - e < atan (z / c)).
  { rewrite <- (atan_tan (PI / 2 - e)) by lra. apply atan_increasing. apply Rmult_lt_reg_r with c; [exact Hc|]. unfold Rdiv. rewrite Rmult_assoc, Rinv_l by lra. lra. }
  apply Rabs_lt_between'. lra.
Qed.
Lemma anti_lim : is_lim anti p_infty (rho * (a ^ 2 * b ^ 2 / (b ^ 2 - a ^ 2)) * (PI / 2 / a - PI / 2 / b)).
Proof.
  unfold anti. apply (is_lim_scal_l (fun z => atan (z / a) / a - atan (z / b) / b) _ p_infty (Finite (PI / 2 / a - PI / 2 / b))).
  apply (is_lim_minus' (fun z => atan (z / a) / a)); apply (is_lim_scal_r (fun z => atan (z / _)) _ p_infty (Finite (PI / 2))); apply atan_lim; assumption.
Qed.
End Projection.
Lemma central_projection rho_0 Rc Rs sigma_cr : 0 < Rc -> 0 < Rs -> Rc <> Rs -> 0 < sigma_cr ->
  is_lim (fun Z => RInt (fun z => rho_0 / ((1 + z ^ 2 / Rc ^ 2) * (1 + z ^ 2 / Rs ^ 2))) (- Z) Z) p_infty (central_convergence rho_0 Rc Rs sigma_cr * sigma_cr).
Proof.
  intros H1 H2 H3 H4. assert (G := sq_gap Rc Rs H1 H2 H3). eapply is_lim_ext; [intros Z; symmetry; apply anti_int; assumption|].
  replace (central_convergence rho_0 Rc Rs sigma_cr * sigma_cr) with (2 * (rho_0 * (Rc ^ 2 * Rs ^ 2 / (Rs ^ 2 - Rc ^ 2)) * (PI / 2 / Rc - PI / 2 / Rs))).
  - apply (is_lim_scal_l (anti rho_0 Rc Rs) 2 p_infty (Finite _)). apply anti_lim; assumption.
  - unfold central_convergence. assert (0 < PI) by apply PI_RGT_0. field. repeat split; solve [lra|exact G].
Qed.
