(** * The NFW convergence near the scale radius *)
From Coq Require Import Reals Lra Psatz.
From Coquelicot Require Import Coquelicot.
From Verif Require Import Const_Model RealFun Calc2 Cosmo_Model Geo_Model LensBase_Model Lens_Spec Lens_Lib Nfw_Model Nfw_Proofs Nfw2_Proofs.
Local Open Scope R_scope.

Lemma atan_lt_id u : 0 < u -> atan u < u.
Proof.
  intros H. destruct (MVT_cor2 atan (fun x => / (1 + x ^ 2)) 0 u H) as (z & E & Hz).
  - intros c _. replace (1 + c ^ 2) with (1 + c²) by (unfold Rsqr; ring). apply is_derive_Reals, is_derive_atan.
  - rewrite atan_0 in E. assert (I : / (1 + z ^ 2) < 1) by (rewrite <- Rinv_1; apply Rinv_lt_contravar; nra). nra.
Qed.
(** inside the window f keeps the value it has at its outer edge *)
Lemma f_edge r : 1 < r <= 1 + eps_nfw -> f_nfw r = 1 - wp (1 + eps_nfw) / sqrt ((1 + eps_nfw) ^ 2 - 1).
Proof.
  intros H. unfold f_nfw. cbv zeta. rewrite Rmax_right by lra. destruct (Rlt_dec 1 r); [|lra]. rewrite half_angle by lra. reflexivity.
Qed.
Lemma f_edge_pos : 0 < 1 - wp (1 + eps_nfw) / sqrt ((1 + eps_nfw) ^ 2 - 1).
Proof.
  assert (E := eps_pos). assert (P := root_pos (1 + eps_nfw) ltac:(lra)). assert (A := atan_lt_id _ P). unfold wp. set (u := sqrt _) in *.
  assert (atan u / u < 1); [|lra]. apply Rmult_lt_reg_r with u; [exact P|]. unfold Rdiv. rewrite Rmult_assoc, Rinv_l by lra. lra.
Qed.
Section Lens.
Variables (dc cd : R -> R) (z_s z_l x0 y0 mass c : R).
Notation d_l := (angular_diameter_distance dc z_l). Notation d_s := (angular_diameter_distance dc z_s). Notation d_ls := (angular_diameter_distance_z1z2 dc z_l z_s).
Hypotheses (Hrho : 0 < cd z_l) (Hm : 0 < mass) (Hc : 0 < c) (Hl : 0 < d_l) (Hs : 0 < d_s) (Hls : 0 < d_ls).
Notation Rs := (nfw_get_scale_radius cd z_l mass c).
Notation sr := (scaled_radius dc cd z_l mass c).
Notation ks := (convergence_s_nfw (critical_surface_density dc z_l z_s) (cd z_l) mass c DELTA).
Lemma ks_pos : 0 < ks.
Proof.
  unfold convergence_s_nfw. cbv zeta. assert (S := sigma_pos dc z_s z_l Hl Hs Hls). apply Rdiv_lt_0_compat; [|exact S]. apply Rmult_lt_0_compat; [apply scale_radius_pos, Hc|apply scale_density_pos; [exact Hrho|exact Hc|apply D200]].
Qed.
(** a point at scaled radius r *)
Lemma at_radius r : 0 < r -> exists x, x0 < x /\ sr (sqrt ((x - x0) ^ 2 + (y0 - y0) ^ 2)) = r.
Proof.
  intros Hr. assert (P := Rs_pos cd z_l mass c Hc). assert (A := arcsec_to_rad_pos). assert (T : 0 < r * Rs / (d_l * arcsec_to_rad)) by (apply Rdiv_lt_0_compat; apply Rmult_lt_0_compat; assumption).
  exists (x0 + r * Rs / (d_l * arcsec_to_rad)). split; [lra|]. 
  replace ((x0 + r * Rs / (d_l * arcsec_to_rad) - x0) ^ 2 + (y0 - y0) ^ 2) with ((r * Rs / (d_l * arcsec_to_rad)) ^ 2) by ring. rewrite sqrt_pow2 by lra.
  unfold scaled_radius. field. repeat split; lra.
Qed.
Lemma nfw_not_finite : exists x y, (x <> x0 \/ y <> y0) /\ sr (sqrt ((x - x0) ^ 2 + (y - y0) ^ 2)) = 1 /\ nfw_convergence dc cd z_s z_l x0 y0 mass c 0 x y = None.
Proof.
  destruct (at_radius 1 Rlt_0_1) as (x & Hx & E). exists x, y0. split; [left; lra|]. split; [exact E|]. apply nfw_kappa_none. rewrite Rplus_0_r. exact E.
Qed.
Lemma nfw_unbounded B : exists x y k, 1 < sr (sqrt ((x - x0) ^ 2 + (y - y0) ^ 2)) < 1 + eps_nfw /\
  nfw_convergence dc cd z_s z_l x0 y0 mass c 0 x y = Some k /\ B < k.
Proof.
  assert (E := eps_pos). assert (K := ks_pos). assert (F := f_edge_pos). set (f0 := 1 - wp (1 + eps_nfw) / sqrt ((1 + eps_nfw) ^ 2 - 1)) in *.
  set (B1 := Rmax B 1). assert (HB : B <= B1) by apply Rmax_l. assert (HB1 : 1 <= B1) by apply Rmax_r.
  assert (KF : 0 < ks * f0) by (apply Rmult_lt_0_compat; assumption).
  set (d := Rmin (eps_nfw / 2) (ks * f0 / (2 * B1))).
  assert (Q : 0 < ks * f0 / (2 * B1)) by (apply Rdiv_lt_0_compat; lra).
  assert (D0 : 0 < d) by (unfold d; apply Rmin_glb_lt; lra). assert (D1 : d <= eps_nfw / 2) by apply Rmin_l. assert (D2 : d <= ks * f0 / (2 * B1)) by apply Rmin_r.
  destruct (at_radius (1 + d) ltac:(lra)) as (x & Hx & Er). exists x, y0. eexists. split; [rewrite Er; lra|]. split; [apply nfw_kappa; rewrite Rplus_0_r, Er; nra|].
  rewrite Rplus_0_r, Er, f_edge by lra. fold f0. replace ((1 + d) ^ 2 - 1) with (d * (2 + d)) by ring.
  assert (L : B1 * (d * (2 + d)) < 2 * ks * f0).
  { assert (M : B1 * d <= ks * f0 / 2). { apply Rle_trans with (B1 * (ks * f0 / (2 * B1))); [apply Rmult_le_compat_l; lra|]. right. field. lra. } nra. }
  apply Rle_lt_trans with B1; [exact HB|]. apply Rmult_lt_reg_r with (d * (2 + d)); [apply Rmult_lt_0_compat; lra|].
  unfold Rdiv. rewrite Rmult_assoc, Rinv_l by (apply Rgt_not_eq, Rmult_lt_0_compat; lra). lra.
Qed.
Lemma nfw_finite x y : (x <> x0 \/ y <> y0) -> sr (sqrt ((x - x0) ^ 2 + (y - y0) ^ 2)) <> 1 -> exists k, nfw_convergence dc cd z_s z_l x0 y0 mass c 0 x y = Some k.
Proof.
  intros H1 H2. assert (T := th_pos x0 y0 x y H1). assert (S := scaled_pos dc cd z_l mass c Hc Hl _ T). eexists. apply nfw_kappa. rewrite Rplus_0_r. intros E. apply H2. nra.
Qed.
Lemma f_quot_diff r : 0 < r -> eps_nfw < Rabs (r - 1) -> ex_derive (fun r => f_nfw r / (r ^ 2 - 1)) r.
Proof.
  intros Hr W. assert (E := eps_pos). destruct (Rlt_dec 1 r) as [H1|H1].
  - rewrite Rabs_pos_eq in W by lra. apply ex_derive_ext_loc with (fun x => (1 - wp x / sqrt (x ^ 2 - 1)) / (x ^ 2 - 1)).
    { generalize (locally_gt (1 + eps_nfw) r ltac:(lra)). apply filter_imp. intros t Ht. rewrite f_outer by exact Ht. reflexivity. }
    assert (P := root_pos r H1). apply ex_derive_div; [|auto_derive; trivial|nra].
    apply (ex_derive_minus (fun _ => 1) (fun x => wp x / sqrt (x ^ 2 - 1))); [apply ex_derive_const|]. apply ex_derive_div; [eexists; apply d_wp, H1|eexists; apply d_root, H1|lra].
  - assert (H2 : r < 1). { destruct (Req_dec r 1) as [->|]; [|lra]. rewrite Rminus_eq_0, Rabs_R0 in W. lra. }
    rewrite Rabs_left in W by lra. apply ex_derive_ext_loc with (fun x => (1 - wn x / sqrt (1 - x ^ 2)) / (x ^ 2 - 1)).
    { assert (L1 := locally_gt 0 r Hr). assert (L2 := locally_lt (1 - eps_nfw) r ltac:(lra)). generalize (filter_and _ _ L1 L2). apply filter_imp. intros t Ht. rewrite f_inner by lra. reflexivity. }
    assert (P := lroot_pos r ltac:(lra)). apply ex_derive_div; [|auto_derive; trivial|nra].
    apply (ex_derive_minus (fun _ => 1) (fun x => wn x / sqrt (1 - x ^ 2))); [apply ex_derive_const|]. apply ex_derive_div; [eexists; apply d_wn; lra|eexists; apply d_lroot; lra|lra].
Qed.
Lemma nfw_continuous x y : (x <> x0 \/ y <> y0) -> eps_nfw < Rabs (sr (sqrt ((x - x0) ^ 2 + (y - y0) ^ 2)) - 1) ->
  exists kappa, locally_2d (fun u v => nfw_convergence dc cd z_s z_l x0 y0 mass c 0 u v = Some (kappa u v)) x y /\ continuity_2d_pt kappa x y.
Proof.
  intros H1 W. assert (T := th_pos x0 y0 x y H1). assert (S := scaled_pos dc cd z_l mass c Hc Hl _ T). assert (P := Rs_pos cd z_l mass c Hc).
  set (rr := fun u v => sr (sqrt ((u - x0) ^ 2 + (v - y0) ^ 2))). set (K := fun r => f_nfw r / (r ^ 2 - 1)).
  assert (H : x - x0 <> 0 \/ y - y0 <> 0) by (destruct H1; [left|right]; lra).
  assert (DN := D2_shift (fun u v => sqrt (u ^ 2 + v ^ 2)) x0 y0 x y _ _ (D2_norm _ _ H)). cbv beta in DN.
  assert (DR := D2_comp1 sr _ x y _ _ _ (scaled_derive dc cd z_l mass c Hc _) DN). change (D2 rr x y (d_l * arcsec_to_rad / Rs * ((x - x0) / sqrt ((x - x0) ^ 2 + (y - y0) ^ 2))) (d_l * arcsec_to_rad / Rs * ((y - y0) / sqrt ((x - x0) ^ 2 + (y - y0) ^ 2)))) in DR.
  destruct (f_quot_diff _ S W) as [l Dl]. assert (DK := D2_comp1 K rr x y _ _ _ Dl DR).
  exists (fun u v => 2 * ks * K (rr u v)). split.
  - assert (C := differentiable_continuity_pt rr x y ltac:(do 2 eexists; exact DR)).
    assert (NE : rr x y ^ 2 - 1 <> 0) by (apply off_one; assumption).
    assert (D2r := D2_minus _ _ x y _ _ _ _ (D2_mult _ _ x y _ _ _ _ DR DR) (D2_const 1 x y)). cbv beta in D2r.
    assert (C2 := differentiable_continuity_pt _ x y ltac:(do 2 eexists; exact D2r)).
    assert (L := continuity_2d_pt_neq_0 _ x y C2 ltac:(cbv beta; intros E; apply NE; rewrite <- E; ring)).
    eapply locally_2d_impl; [|exact L]. apply locally_2d_forall. intros u v N. cbv beta in N. rewrite nfw_kappa.
    + rewrite Rplus_0_r. unfold K, rr. f_equal. unfold Rdiv. ring.
    + rewrite Rplus_0_r. intros E. apply N. unfold rr in *. rewrite <- E. ring.
  - apply (differentiable_continuity_pt (fun u v => 2 * ks * K (rr u v)) x y). do 2 eexists. apply (D2_scal (2 * ks) (fun u v => K (rr u v))). exact DK.
Qed.
End Lens.
Lemma nfw_consistent_all : forall dc cd z_s z_l x0 y0 mass c, 0 < cd z_l -> 0 < mass -> 0 < c ->
  0 < angular_diameter_distance dc z_l -> 0 < angular_diameter_distance dc z_s -> 0 < angular_diameter_distance_z1z2 dc z_l z_s ->
  forall x y, x <> x0 \/ y <> y0 ->
  1 / 1000000 < Rabs (angular_diameter_distance dc z_l * sqrt ((x - x0) ^ 2 + (y - y0) ^ 2) * arcsec_to_rad / nfw_get_scale_radius cd z_l mass c - 1) ->
  exists k, nfw_convergence dc cd z_s z_l x0 y0 mass c 0 x y = Some k /\
  lens_consistent (nfw_potential dc cd z_s z_l x0 y0 mass c 0) (nfw_reduced_deflection_angle dc cd z_s z_l x0 y0 mass c 0) (fun _ _ => k) x y.
Proof. intros. apply nfw_consistent; assumption. Qed.
Lemma nfw_example : let dc := fun z : R => z in let cd := fun _ : R => 3 * 1 / (4 * PI * DELTA) in
  0 < cd (1 / 2) /\ 0 < 1 /\ 0 < angular_diameter_distance dc (1 / 2) /\ 0 < angular_diameter_distance dc 1 /\ 0 < angular_diameter_distance_z1z2 dc (1 / 2) 1 /\ (6 * rad_to_arcsec <> 0 \/ 0 <> 0) /\
  1 / 1000000 < Rabs (angular_diameter_distance dc (1 / 2) * sqrt ((6 * rad_to_arcsec - 0) ^ 2 + (0 - 0) ^ 2) * arcsec_to_rad / nfw_get_scale_radius cd (1 / 2) 1 1 - 1).
Proof.
  assert (P := PI_RGT_0). assert (D := D200). assert (RA := rad_to_arcsec_pos). cbv zeta.
  assert (DP : 0 < 4 * PI * DELTA) by (revert P; generalize PI; intros p P; apply Rmult_lt_0_compat; lra).
  unfold angular_diameter_distance_z1z2, angular_diameter_distance, comoving_distance_z1z2.
  split; [apply Rdiv_lt_0_compat; lra|]. split; [lra|]. split; [lra|]. split; [lra|]. split; [lra|]. split; [left; lra|].
  unfold nfw_get_scale_radius, scale_radius_nfw. cbv zeta. replace (3 * 1 / (4 * PI * DELTA * (3 * 1 / (4 * PI * DELTA)))) with 1 by (field; repeat split; lra).
  unfold Rpower. rewrite ln_1, Rmult_0_r, exp_0. replace ((6 * rad_to_arcsec - 0) ^ 2 + (0 - 0) ^ 2) with ((6 * rad_to_arcsec) ^ 2) by ring. rewrite sqrt_pow2 by lra.
  replace (1 / 2 / (1 + 1 / 2) * (6 * rad_to_arcsec) * arcsec_to_rad / (1 / 1) - 1) with (2 * (arcsec_to_rad * rad_to_arcsec) - 1) by field. rewrite arcsec_rad_inv.
  replace (2 * 1 - 1) with 1 by ring. rewrite Rabs_R1. lra.
Qed.
(** with a softening the deflection is not the gradient of the potential *)
Section Soft.
Variables (dc cd : R -> R) (z_s z_l x0 y0 mass c : R).
Notation d_l := (angular_diameter_distance dc z_l). Notation d_s := (angular_diameter_distance dc z_s). Notation d_ls := (angular_diameter_distance_z1z2 dc z_l z_s).
Hypotheses (Hrho : 0 < cd z_l) (Hm : 0 < mass) (Hc : 0 < c) (Hl : 0 < d_l) (Hs : 0 < d_s) (Hls : 0 < d_ls).
Notation sr := (scaled_radius dc cd z_l mass c).
Lemma axis_length a s : 0 < a -> sqrt ((x0 + a - x0) ^ 2 + (y0 - y0) ^ 2) + s = a + s.
Proof. intros H. replace ((x0 + a - x0) ^ 2 + (y0 - y0) ^ 2) with (a ^ 2) by ring. rewrite sqrt_pow2 by lra. reflexivity. Qed.
Lemma h_two : 0 < h_nfw 2.
Proof.
  assert (E := eps_pos). rewrite h_outer by lra. replace (2 / 2) with 1 by field. rewrite ln_1, Rplus_0_l. apply Rdiv_lt_0_compat; [|apply root_pos; lra].
  unfold wp. rewrite <- atan_0. apply atan_increasing. apply root_pos. lra.
Qed.
Lemma nfw_softened : exists s x y, 0 < s /\ (x <> x0 \/ y <> y0) /\
  ~ deflection_is_gradient (nfw_potential dc cd z_s z_l x0 y0 mass c s) (nfw_reduced_deflection_angle dc cd z_s z_l x0 y0 mass c s) x y.
Proof.
  assert (A := arcsec_to_rad_pos). assert (P := Rs_pos cd z_l mass c Hc). assert (RA := rad_to_arcsec_pos). assert (PP := PI_RGT_0). assert (GP := G_over_c2_pos).
  set (Rs := nfw_get_scale_radius cd z_l mass c) in *. set (T := 2 * Rs / (d_l * arcsec_to_rad)).
  assert (TP : 0 < T) by (unfold T; apply Rdiv_lt_0_compat; [lra|apply Rmult_lt_0_compat; assumption]).
  assert (ST : sr T = 2) by (unfold scaled_radius, T; fold Rs; field; repeat split; lra).
  set (s := T / 2). exists s, (x0 + T / 2), y0. split; [unfold s; lra|]. split; [left; lra|]. intros G.
  destruct (nfw_consistent dc cd z_s z_l x0 y0 mass c Hc Hl Hs Hls (x0 + T) y0 ltac:(left; lra)) as (k & _ & G0 & _).
  { rewrite <- (Rplus_0_r (sqrt _)), axis_length, Rplus_0_r, ST by exact TP. replace (2 - 1) with 1 by ring. rewrite Rabs_R1. generalize eps_pos. lra. }
  unfold deflection_is_gradient in G, G0. apply D2_is_derive_x in G. apply D2_is_derive_x in G0.
  assert (G1 : is_derive (fun u => nfw_potential dc cd z_s z_l x0 y0 mass c s u y0) (x0 + T / 2) (fst (nfw_reduced_deflection_angle dc cd z_s z_l x0 y0 mass c 0 (x0 + T) y0))).
  { apply is_derive_ext_loc with (fun u => nfw_potential dc cd z_s z_l x0 y0 mass c 0 (u + s) y0).
    - generalize (locally_gt x0 (x0 + T / 2) ltac:(lra)). apply filter_imp. intros u Hu. unfold nfw_potential, potential_nfw. cbn [translate_rotate]. cbv zeta.
      assert (L1 : sqrt ((u + s - x0) ^ 2 + (y0 - y0) ^ 2) + 0 = u - x0 + s) by (replace ((u + s - x0) ^ 2 + (y0 - y0) ^ 2) with ((u - x0 + s) ^ 2) by ring; rewrite sqrt_pow2 by (unfold s; lra); ring).
      assert (L2 : sqrt ((u - x0) ^ 2 + (y0 - y0) ^ 2) + s = u - x0 + s) by (replace ((u - x0) ^ 2 + (y0 - y0) ^ 2) with ((u - x0) ^ 2) by ring; rewrite sqrt_pow2 by lra; ring).
      rewrite L1, L2. reflexivity.
    - assert (DI : is_derive (fun u : R => u + s) (x0 + T / 2) 1) by (auto_derive; trivial; ring).
      replace (x0 + T) with (x0 + T / 2 + s) in G0 by (unfold s; field). assert (DD := is_derive_comp _ (fun u => u + s) (x0 + T / 2) _ _ G0 DI).
      replace (x0 + T) with (x0 + T / 2 + s) by (unfold s; field). match type of DD with is_derive _ _ ?v => match goal with |- is_derive _ _ ?w => replace w with v end end; [exact DD|]. apply Rmult_1_l. }
  assert (E := is_derive_unique _ _ _ G). rewrite (is_derive_unique _ _ _ G1) in E. revert E.
  unfold nfw_reduced_deflection_angle, nfw_physical_deflection_angle, physical_deflection_angle_nfw, reduced_from_physical_deflection_angle. cbn [translate_rotate fst]. cbv zeta.
  rewrite !axis_length by lra. unfold s. replace (T / 2 + T / 2) with T by field. rewrite Rplus_0_r.
  change (d_l * T * arcsec_to_rad / scale_radius_nfw (cd z_l) mass c DELTA) with (sr T). rewrite ST.
  assert (DP : 0 < scale_density_nfw (cd z_l) c DELTA) by (apply scale_density_pos; [exact Hrho|exact Hc|apply D200]). change (scale_radius_nfw (cd z_l) mass c DELTA) with Rs.
  assert (H2 := h_two). set (K := 16 * PI * G_over_c2 * scale_density_nfw (cd z_l) c DELTA * Rs ^ 3 * h_nfw 2 * rad_to_arcsec / (d_l * T * arcsec_to_rad)).
  assert (KP : 0 < K).
  { unfold K. apply Rdiv_lt_0_compat; [|apply Rmult_lt_0_compat; [apply Rmult_lt_0_compat|]; assumption]. assert (P3 : 0 < Rs ^ 3) by (apply pow_lt, P).
    revert PP GP DP H2 RA P3. generalize (Rs ^ 3), PI, G_over_c2, (scale_density_nfw (cd z_l) c DELTA), (h_nfw 2), rad_to_arcsec. intros. repeat apply Rmult_lt_0_compat; lra. }
  assert (Q : 0 < d_ls / d_s) by (apply Rdiv_lt_0_compat; assumption). intros E.
  replace (x0 + T - x0) with T in E by ring. replace (x0 + T / 2 - x0) with (T / 2) in E by ring.
  replace (d_ls / d_s * (K * T / T)) with (d_ls / d_s * K) in E by (field; split; lra). replace (d_ls / d_s * (K * (T / 2) / T)) with (d_ls / d_s * K / 2) in E by (field; split; lra).
  assert (0 < d_ls / d_s * K) by (apply Rmult_lt_0_compat; assumption). lra.
Qed.
End Soft.
Lemma nfw_softened_all : forall dc cd z_s z_l x0 y0 mass c, 0 < cd z_l -> 0 < mass -> 0 < c ->
  0 < angular_diameter_distance dc z_l -> 0 < angular_diameter_distance dc z_s -> 0 < angular_diameter_distance_z1z2 dc z_l z_s ->
  exists s x y, 0 < s /\ (x <> x0 \/ y <> y0) /\
  ~ deflection_is_gradient (nfw_potential dc cd z_s z_l x0 y0 mass c s) (nfw_reduced_deflection_angle dc cd z_s z_l x0 y0 mass c s) x y.
Proof. intros. apply nfw_softened; assumption. Qed.
