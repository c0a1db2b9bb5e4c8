(** * The truncated NFW lens of the class *)
From Coq Require Import Reals Lra Psatz.
From Coquelicot Require Import Coquelicot.
From Verif Require Import Const_Model RealFun Derive1 Calc2 Cosmo_Model Geo_Model LensBase_Model Lens_Spec Lens_Lib Nfw_Model Nfw_Proofs Tnfw_Model Tnfw_Proofs Tnfw2_Proofs Tnfw3_Proofs.
Local Open Scope R_scope.

Section Class.
Variables (dc cd : R -> R) (tot : bool) (z_s z_l x0 y0 mass Rs tau : R).
Notation d_l := (angular_diameter_distance dc z_l). Notation d_s := (angular_diameter_distance dc z_s). Notation d_ls := (angular_diameter_distance_z1z2 dc z_l z_s).
Hypotheses (HR : 0 < Rs) (Ht : 0 < tau) (Hl : 0 < d_l) (Hs : 0 < d_s) (Hls : 0 < d_ls).
Let M0 := tnfw_M0 dc cd tot z_l mass Rs tau.
Lemma sigma_eq : critical_surface_density dc z_l z_s = d_s / d_l / d_ls / (4 * PI * G_over_c2).
Proof. assert (P := PI_RGT_0). assert (Q := G_over_c2_pos). unfold critical_surface_density. cbv zeta. field. repeat split; apply Rgt_not_eq; assumption. Qed.
Lemma reduced_eq s u v : tnfw_reduced_deflection_angle dc cd tot z_s z_l x0 y0 mass Rs tau s u v =
  let al := physical_deflection_angle_tnfw x0 y0 Rs tau u v M0 d_l s in reduced_from_physical_deflection_angle (fst al) (snd al) d_s d_ls.
Proof. unfold tnfw_reduced_deflection_angle, tnfw_physical_deflection_angle. fold M0. cbv zeta. destruct (physical_deflection_angle_tnfw _ _ _ _ _ _ _ _ _). reflexivity. Qed.
Lemma class_gradient s x y : 0 <= s -> x <> x0 \/ y <> y0 -> 1 / 100 < Rabs ((sqrt ((x - x0) ^ 2 + (y - y0) ^ 2) + s) / Rs - 1) ->
  deflection_is_gradient (tnfw_potential dc cd tot z_s z_l x0 y0 mass Rs tau s) (tnfw_reduced_deflection_angle dc cd tot z_s z_l x0 y0 mass Rs tau s) x y.
Proof.
  intros H0 H W. unfold deflection_is_gradient. rewrite reduced_eq. unfold tnfw_potential. fold M0. apply tnfw_gradient; assumption.
Qed.
Lemma class_consistent x y : x <> x0 \/ y <> y0 -> 1 / 100 < Rabs (sqrt ((x - x0) ^ 2 + (y - y0) ^ 2) / Rs - 1) ->
  lens_consistent (tnfw_potential dc cd tot z_s z_l x0 y0 mass Rs tau 0) (tnfw_reduced_deflection_angle dc cd tot z_s z_l x0 y0 mass Rs tau 0)
    (tnfw_convergence dc cd tot z_s z_l x0 y0 mass Rs tau 0) x y.
Proof.
  intros H W. refine (lens_consistent_ext _ _ _ _ _ _ x y _ _ _ (tnfw_consistent_0 x0 y0 Rs tau M0 d_l d_s d_ls (critical_surface_density dc z_l z_s) HR Ht Hl Hs Hls sigma_eq 0 x y H eq_refl W)).
  - reflexivity.
  - intros u v. symmetry. apply reduced_eq.
  - reflexivity.
Qed.
(** mass in a cylinder of physical radius r: derivative 2 pi r times the surface density *)
Lemma class_mass x y : let r := d_l * arcsec_to_rad * sqrt ((x - x0) ^ 2 + (y - y0) ^ 2) in
  x <> x0 \/ y <> y0 -> 1 / 100 < Rabs (sqrt ((x - x0) ^ 2 + (y - y0) ^ 2) / Rs - 1) ->
  is_derive (fun R => tnfw_mass_enclosed_2d dc cd tot z_l mass (R / (d_l * arcsec_to_rad)) Rs tau) r
    (2 * PI * r * (critical_surface_density dc z_l z_s * tnfw_convergence dc cd tot z_s z_l x0 y0 mass Rs tau 0 x y)).
Proof.
  intros r H W. assert (A := arcsec_to_rad_pos). assert (P := PI_RGT_0). assert (GP := G_over_c2_pos). assert (T := th_pos x0 y0 x y H). set (th := sqrt _) in *.
  unfold tnfw_mass_enclosed_2d, tnfw_convergence. fold M0. rewrite kappa_eq. fold th. rewrite Rplus_0_r.
  assert (DA : 0 < d_l * arcsec_to_rad) by (apply Rmult_lt_0_compat; assumption).
  assert (RT : r / (d_l * arcsec_to_rad) = th) by (unfold r; field; split; lra).
  apply dv_ext with (fun R => M0 * mproj tau (R / (d_l * arcsec_to_rad) / Rs)); [intros t; symmetry; apply mass_eq|].
  assert (DI : is_derive (fun R : R => R / (d_l * arcsec_to_rad)) r (/ (d_l * arcsec_to_rad))) by (auto_derive; trivial; field; split; lra).
  assert (D := mass_derive Rs tau M0 HR Ht (r / (d_l * arcsec_to_rad))). rewrite RT in D. specialize (D T W). rewrite <- RT in D at 1.
  assert (SG : critical_surface_density dc z_l z_s <> 0). { rewrite sigma_eq. apply Rgt_not_eq. revert P GP Hl Hs Hls. generalize d_l, d_s, d_ls, G_over_c2, PI. intros a b e g p P Q H1 H2 H3. repeat apply Rdiv_lt_0_compat; try assumption. repeat apply Rmult_lt_0_compat; lra. }
  eapply dv_val; [exact (dv_comp _ _ r _ _ D DI)|]. unfold r. generalize (sproj tau (th / Rs)). intros ss. field. repeat split; lra.
Qed.
Lemma half_divergence_unique alpha k1 k2 x y : convergence_is_half_divergence alpha k1 x y -> convergence_is_half_divergence alpha k2 x y -> k1 x y = k2 x y.
Proof.
  intros (a & b & c & d & A1 & A2 & _ & A4) (a' & b' & c' & d' & B1 & B2 & _ & B4).
  destruct (D2_unique _ _ _ _ _ _ _ A1 B1) as [E1 _]. destruct (D2_unique _ _ _ _ _ _ _ A2 B2) as [_ E2]. rewrite A4, B4, E1, E2. reflexivity.
Qed.
End Class.
Lemma class_softened dc cd z_s z_l x0 y0 mass Rs tau : 0 < mass -> 0 < Rs -> 0 < tau ->
  0 < angular_diameter_distance dc z_l -> 0 < angular_diameter_distance dc z_s -> 0 < angular_diameter_distance_z1z2 dc z_l z_s ->
  forall s, 0 < s -> exists x y, (x <> x0 \/ y <> y0) /\ 1 / 100 < Rabs ((sqrt ((x - x0) ^ 2 + (y - y0) ^ 2) + s) / Rs - 1) /\
  ~ convergence_is_half_divergence (tnfw_reduced_deflection_angle dc cd true z_s z_l x0 y0 mass Rs tau s) (tnfw_convergence dc cd true z_s z_l x0 y0 mass Rs tau s) x y.
Proof.
  intros Hm HR Ht Hl Hs Hls s H0. assert (L := total_mass Rs tau mass HR Ht). apply is_lim_spec in L. destruct (L (mkposreal mass Hm)) as [M HM]. cbn in HM.
  set (a := Rmax M (2 * Rs)). assert (M1 := Rmax_l M (2 * Rs)). assert (M2 := Rmax_r M (2 * Rs)). fold a in M1, M2. exists (x0 + a), y0.
  assert (TH : sqrt ((x0 + a - x0) ^ 2 + (y0 - y0) ^ 2) = a) by (replace ((x0 + a - x0) ^ 2 + (y0 - y0) ^ 2) with (a ^ 2) by ring; apply sqrt_pow2; lra).
  assert (H : x0 + a <> x0 \/ y0 <> y0) by (left; lra). assert (AS : 2 < (a + s) / Rs) by (apply Rmult_lt_reg_r with Rs; [exact HR|]; unfold Rdiv; rewrite Rmult_assoc, Rinv_l by lra; lra).
  assert (W : 1 / 100 < Rabs ((sqrt ((x0 + a - x0) ^ 2 + (y0 - y0) ^ 2) + s) / Rs - 1)) by (rewrite TH, Rabs_pos_eq; lra).
  split; [exact H|]. split; [exact W|]. intros C.
  assert (D := tnfw_softened_divergence x0 y0 Rs tau (M0_totmass_tnfw mass tau) _ _ _ (critical_surface_density dc z_l z_s) HR Ht Hl Hs Hls (sigma_eq dc z_s z_l Hl Hls) s (x0 + a) y0 H ltac:(lra) W).
  assert (C' : convergence_is_half_divergence (fun u v => let al := physical_deflection_angle_tnfw x0 y0 Rs tau u v (M0_totmass_tnfw mass tau) (angular_diameter_distance dc z_l) s in
    reduced_from_physical_deflection_angle (fst al) (snd al) (angular_diameter_distance dc z_s) (angular_diameter_distance_z1z2 dc z_l z_s)) (tnfw_convergence dc cd true z_s z_l x0 y0 mass Rs tau s) (x0 + a) y0).
  { destruct C as (p & q & r & t & C1 & C2 & C3 & C4). exists p, q, r, t. repeat split; [| |exact C3|exact C4]; (eapply D2_ext; [|eassumption]); intros u v; cbv beta; rewrite (reduced_eq dc cd true z_s z_l x0 y0 mass Rs tau s u v); reflexivity. }
  assert (E := half_divergence_unique _ _ _ _ _ C' D). cbv beta in E. unfold tnfw_convergence in E. cbn [tnfw_M0] in E.
  match type of E with ?k = ?k + ?q => assert (Z : q = 0) by (apply (Rplus_eq_reg_l k); rewrite Rplus_0_r; symmetry; exact E) end. clear E. rewrite TH in Z.
  assert (MP : 0 < mass_enclosed_2d_tnfw (a + s) Rs tau (M0_totmass_tnfw mass tau)) by (specialize (HM (a + s) ltac:(lra)); apply Rabs_def2 in HM; lra). rewrite mass_eq in MP.
  assert (P := arcsec_to_rad_pos). assert (GP := G_over_c2_pos). assert (RP := rad_to_arcsec_pos). revert Z. apply Rgt_not_eq. unfold Rgt.
  revert MP P GP RP Hl Hs Hls. generalize (M0_totmass_tnfw mass tau * mproj tau ((a + s) / Rs)), (angular_diameter_distance dc z_l), (angular_diameter_distance dc z_s), (angular_diameter_distance_z1z2 dc z_l z_s), arcsec_to_rad, G_over_c2, rad_to_arcsec.
  intros m b c d e f g HM1 P GP RP Hb Hc Hd. clear - HM1 P GP RP Hb Hc Hd M2 HR H0. assert (AP : 0 < a) by lra. assert (AP2 : 0 < a + s) by lra. clearbody a.
  repeat apply Rdiv_lt_0_compat || apply Rmult_lt_0_compat; try lra. 
Qed.
Lemma class_total (dc cd : R -> R) z_l mass Rs tau : 0 < Rs -> 0 < tau ->
  is_lim (fun r => tnfw_mass_enclosed_2d dc cd true z_l mass r Rs tau) p_infty mass /\
  filterlim (fun r => tnfw_mass_enclosed_2d dc cd true z_l mass r Rs tau) (at_right 0) (locally 0).
Proof. intros HR Ht. split; [exact (total_mass Rs tau mass HR Ht)|exact (central_mass Rs tau HR Ht _)]. Qed.
