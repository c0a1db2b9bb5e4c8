(** * Halo models as limits of one another (for C113) *)
From Coq Require Import Reals Lra Psatz.
From Coquelicot Require Import Coquelicot.
From Verif Require Import Const_Model RealFun Derive1 Cosmo_Model Geo_Model LensBase_Model LensBasic_Model Lens_Spec Nfw_Model Nfw_Spec Nfw_Proofs Nfw2_Proofs Tnfw_Model Tnfw_Proofs Tnfw2_Proofs Tnfw3_Proofs Jaffe_Model Project_Spec Project_Proofs Project2_Proofs.
Local Open Scope R_scope.

Notation lim f l := (is_lim f p_infty (Finite l)) (only parsing).
Lemma lc c : lim (fun _ => c) c. Proof. apply is_lim_const. Qed.
Lemma la f g a b : lim f a -> lim g b -> lim (fun t => f t + g t) (a + b). Proof. apply is_lim_plus'. Qed.
Lemma ls f g a b : lim f a -> lim g b -> lim (fun t => f t - g t) (a - b). Proof. apply is_lim_minus'. Qed.
Lemma lm f g a b : lim f a -> lim g b -> lim (fun t => f t * g t) (a * b). Proof. intros H K. apply (is_lim_mult f g p_infty a b H K). exact Logic.I. Qed.
Lemma li f a : lim f a -> a <> 0 -> lim (fun t => / f t) (/ a).
Proof. intros H N. apply (is_lim_inv f p_infty a H). intros E. injection E. exact N. Qed.
Lemma leq f g a b : (forall t, 1 < t -> g t = f t) -> a = b -> lim g a -> lim f b.
Proof. intros E -> H. eapply is_lim_ext_loc; [|exact H]. exists 1. exact E. Qed.
Lemma lsq f g : lim g 0 -> (forall t, 1 < t -> Rabs (f t) <= g t) -> lim f 0.
Proof.
  intros H B. apply is_lim_spec in H. apply is_lim_spec. intros eps. destruct (H eps) as [M HM]. exists (Rmax M 1). intros t Ht.
  specialize (HM t ltac:(eapply Rle_lt_trans; [apply Rmax_l|exact Ht])). specialize (B t ltac:(eapply Rle_lt_trans; [apply Rmax_r|exact Ht])).
  cbv beta in *. rewrite Rminus_0_r in *. eapply Rle_lt_trans; [exact B|]. eapply Rle_lt_trans; [apply Rle_abs|exact HM].
Qed.


(** the small quantities *)
Definition w (t : R) : R := / t.
Definition A (t : R) : R := w t * ln t.
Definition sg (u t : R) : R := sqrt (1 + u * w t ^ 2) - 1.
Definition dl (u t : R) : R := ln (2 + sg u t) - ln 2.
Ltac lims := cbv beta; lazymatch goal with
  | |- is_lim (fun t => @?f t + @?g t) _ _ => apply (la f g); lims
  | |- is_lim (fun t => @?f t - @?g t) _ _ => apply (ls f g); lims
  | |- is_lim (fun t => sg ?u t * ln t) _ _ => eassumption
  | |- is_lim (fun t => dl ?u t * ln t) _ _ => eassumption
  | |- is_lim (fun t => @?f t * @?g t) _ _ => apply (lm f g); lims
  | |- _ => first [eassumption | apply lc] end.
Lemma lw : lim w 0. Proof. apply (is_lim_inv (fun t => t) p_infty p_infty); [apply is_lim_id|discriminate]. Qed.
Lemma lA : lim A 0. Proof. eapply leq; [|reflexivity|exact is_lim_div_ln_p]. intros t Ht. unfold A, w, Rdiv. ring. Qed.
Lemma sg_bound u t : 0 <= u -> 1 < t -> 0 <= sg u t <= u * w t ^ 2.
Proof.
  intros Hu Ht. unfold sg. assert (0 <= u * w t ^ 2) by (apply Rmult_le_pos; [lra|apply pow2_ge_0]). set (v := u * w t ^ 2) in *.
  assert (S := sqrt_pos (1 + v)). assert (Q : sqrt (1 + v) * sqrt (1 + v) = 1 + v) by (apply sqrt_sqrt; lra). split; nra.
Qed.
Lemma dl_bound u t : 0 <= u -> 1 < t -> 0 <= dl u t <= sg u t.
Proof.
  intros Hu Ht. destruct (sg_bound u t Hu Ht) as [S1 _]. unfold dl. rewrite <- ln_div by lra. replace ((2 + sg u t) / 2) with (1 + sg u t / 2) by field. split.
  - rewrite <- ln_1 at 1. destruct (Req_dec (sg u t) 0) as [->|N]; [right; f_equal; field|left; apply ln_increasing; lra].
  - apply Rle_trans with (sg u t / 2); [|lra]. assert (L := ln_upper (1 + sg u t / 2) ltac:(lra)). lra.
Qed.
Lemma lsg u : 0 <= u -> lim (sg u) 0.
Proof.
  intros Hu. apply lsq with (fun t => u * (w t * w t)).
  - assert (W := lw). eapply leq; [intros; reflexivity| |lims]. ring.
  - intros t Ht. destruct (sg_bound u t Hu Ht). rewrite Rabs_pos_eq by lra. lra.
Qed.
Lemma ldl u : 0 <= u -> lim (dl u) 0.
Proof. intros Hu. apply lsq with (sg u); [apply lsg, Hu|]. intros t Ht. destruct (dl_bound u t Hu Ht). rewrite Rabs_pos_eq; lra. Qed.
Lemma lB u : 0 <= u -> lim (fun t => sg u t * ln t) 0.
Proof.
  intros Hu. apply lsq with (fun t => u * (w t * A t)).
  - assert (W := lw). assert (X := lA). eapply leq; [intros; reflexivity| |lims]. ring.
  - intros t Ht. destruct (sg_bound u t Hu Ht). assert (0 < ln t) by (rewrite <- ln_1; apply ln_increasing; lra). rewrite Rabs_pos_eq by nra. unfold A. nra.
Qed.
Lemma lC u : 0 <= u -> lim (fun t => dl u t * ln t) 0.
Proof.
  intros Hu. apply lsq with (fun t => sg u t * ln t); [apply lB, Hu|]. intros t Ht. destruct (dl_bound u t Hu Ht). assert (0 < ln t) by (rewrite <- ln_1; apply ln_increasing; lra). rewrite Rabs_pos_eq by nra. nra.
Qed.
(** the square root and the logarithm of the profile *)
Lemma hyp_w g t : 1 < t -> sqrt (t ^ 2 + g ^ 2) = t * (1 + sg (g ^ 2) t).
Proof.
  intros Ht. unfold sg. replace (1 + (sqrt (1 + g ^ 2 * w t ^ 2) - 1)) with (sqrt (1 + g ^ 2 * w t ^ 2)) by ring. rewrite <- (sqrt_pow2 t) at 2 by lra. rewrite <- sqrt_mult; [f_equal; unfold w; field; lra|nra|].
  assert (0 <= g ^ 2 * w t ^ 2) by (apply Rmult_le_pos; apply pow2_ge_0). lra.
Qed.
Lemma log_sum g t : 1 < t -> ln (t + sqrt (t ^ 2 + g ^ 2)) = ln t + ln 2 + dl (g ^ 2) t.
Proof.
  intros Ht. rewrite hyp_w by exact Ht. destruct (sg_bound (g ^ 2) t ltac:(apply pow2_ge_0) Ht). unfold dl. replace (t + t * (1 + sg (g ^ 2) t)) with (t * (2 + sg (g ^ 2) t)) by ring. rewrite ln_mult by lra. ring.
Qed.
Lemma L_w g t : 0 < g -> 1 < t -> L_tnfw g t = ln g - ln 2 - ln t - dl (g ^ 2) t.
Proof.
  intros Hg Ht. unfold L_tnfw. assert (S := sqrt_pos (t ^ 2 + g ^ 2)). rewrite ln_div by lra. rewrite log_sum by exact Ht. ring.
Qed.
(** projected mass *)
Lemma mass_lim r Rs M0 : 0 < r -> 0 < Rs -> lim (fun t => mass_enclosed_2d_tnfw r Rs t M0) (M0 * (ln (r / Rs / 2) + F_tnfw (r / Rs))).
Proof.
  intros Hr HR. assert (G : 0 < r / Rs) by (apply Rdiv_lt_0_compat; assumption). unfold mass_enclosed_2d_tnfw. cbv zeta. set (g := r / Rs) in *. set (F := F_tnfw g).
  assert (U : 0 <= g ^ 2) by apply pow2_ge_0. assert (W := lw). assert (X := lA). assert (S := lsg _ U). assert (D := ldl _ U). assert (B := lB _ U).
  assert (I : lim (fun t => / ((1 + w t * w t) * (1 + w t * w t))) (/ ((1 + 0 * 0) * (1 + 0 * 0)))) by (apply li; [lims|lra]).
  apply leq with (fun t => M0 * (/ ((1 + w t * w t) * (1 + w t * w t)) * ((1 + w t * w t + 2 * (w t * w t) * (g ^ 2 - 1)) * F - PI * w t * sg (g ^ 2) t +
     (1 - w t * w t) * ((1 + sg (g ^ 2) t) * (ln g - ln 2 - dl (g ^ 2) t) - sg (g ^ 2) t * ln t)))) (M0 * (/ ((1 + 0 * 0) * (1 + 0 * 0)) * ((1 + 0 * 0 + 2 * (0 * 0) * (g ^ 2 - 1)) * F - PI * 0 * 0 +
     (1 - 0 * 0) * ((1 + 0) * (ln g - ln 2 - 0) - 0)))).
  - intros t Ht. rewrite L_w, hyp_w by assumption. unfold w. set (s := sg (g ^ 2) t). set (d := dl (g ^ 2) t). field. split; nra.
  - rewrite ln_div by lra. field.
  - lims.
Qed.
(** potential *)
Lemma pot_lim S g : 0 < g -> lim (fun t => S * (1 / (t ^ 2 + 1) ^ 2) * (2 * PI * t ^ 2 * (t - sqrt (t ^ 2 + g ^ 2) + t * ln (t + sqrt (t ^ 2 + g ^ 2))) + 2 * (t ^ 2 - 1) * t * sqrt (t ^ 2 + g ^ 2) * L_tnfw g t + t ^ 2 * (t ^ 2 - 1) * L_tnfw g t ^ 2
   + 4 * t ^ 2 * (g ^ 2 - 1) * F_tnfw g + t ^ 2 * (t ^ 2 - 1) * P_tnfw g + t ^ 2 * ((t ^ 2 - 1) * ln t - t ^ 2 - 1) * ln (g ^ 2)
   - t ^ 2 * ((t ^ 2 - 1) * ln t * ln (4 * t) + 2 * ln (t / 2) - 2 * t * (t - PI) * ln (2 * t)))) (S * (ln (g / 2) ^ 2 + P_tnfw g)).
Proof.
  intros Hg. set (F := F_tnfw g). set (P := P_tnfw g).
  assert (U : 0 <= g ^ 2) by apply pow2_ge_0. assert (W := lw). assert (X := lA). assert (Sg := lsg _ U). assert (D := ldl _ U). assert (B := lB _ U). assert (Cc := lC _ U).
  assert (I : lim (fun t => / ((1 + w t * w t) * (1 + w t * w t))) (/ ((1 + 0 * 0) * (1 + 0 * 0)))) by (apply li; [lims|lra]).
  set (G := ln g - ln 2). set (l2 := ln 2).
  set (Q := fun w A B C s d => 2 * PI * (w * (0 - s) + A + w * (l2 + d)) + (2 * (1 - w * w) * (1 + s) * (G - d) - 2 * B + 2 * w * A + 2 * (w * w) * B)
    + ((1 - w * w) * ((G - d) * (G - d)) + 2 * C + 2 * (G - d) * w * A - A * A) + 4 * (w * w) * (g ^ 2 - 1) * F + (1 - w * w) * P
    + (0 - 2 * (G + l2) * w * A - 2 * (G + l2) * (1 + w * w)) + (2 * l2 * w * A + A * A - 2 * w * A + 2 * (w * w) * l2 + 2 * l2 - 2 * PI * w * l2 - 2 * PI * A)).
  apply leq with (fun t => S * (/ ((1 + w t * w t) * (1 + w t * w t)) * Q (w t) (A t) (sg (g ^ 2) t * ln t) (dl (g ^ 2) t * ln t) (sg (g ^ 2) t) (dl (g ^ 2) t))) (S * (/ ((1 + 0 * 0) * (1 + 0 * 0)) * Q 0 0 0 0 0 0)).
  - intros t Ht. rewrite log_sum, hyp_w, L_w by assumption. unfold Q, A. fold G. fold l2.
    replace (ln (g ^ 2)) with (2 * (G + l2)) by (unfold G, l2; replace (g ^ 2) with (g * g) by ring; rewrite ln_mult by lra; ring).
    replace (ln (4 * t)) with (2 * l2 + ln t) by (unfold l2; rewrite ln_mult by lra; replace 4 with (2 * 2) by ring; rewrite ln_mult by lra; ring).
    replace (ln (t / 2)) with (ln t - l2) by (unfold l2; rewrite ln_div by lra; reflexivity). replace (ln (2 * t)) with (l2 + ln t) by (unfold l2; rewrite ln_mult by lra; reflexivity).
    unfold w. set (s := sg (g ^ 2) t). set (d := dl (g ^ 2) t). set (l := ln t). field. split; nra.
  - unfold Q. rewrite ln_div by lra. unfold G, l2. field.
  - unfold Q. lims.
Qed.
Lemma h_F g : 0 < g -> 1 / 100 < Rabs (g - 1) -> h_nfw g = ln (g / 2) + F_tnfw g.
Proof.
  intros G Wi. assert (E := eps_pos). destruct (off_window g G Wi) as [O|O].
  - rewrite h_outer, F_outer by (try lra; unfold eps_nfw; lra). reflexivity.
  - rewrite h_inner, F_inner by (try lra; unfold eps_nfw; lra). reflexivity.
Qed.
Lemma g_P g : 0 < g -> 1 / 100 < Rabs (g - 1) -> g_nfw g = ln (g / 2) ^ 2 + P_tnfw g.
Proof.
  intros G Wi. assert (E := eps_pos). destruct (off_window g G Wi) as [O|O].
  - rewrite g_outer, P_outer by (try lra; unfold eps_nfw; lra). reflexivity.
  - rewrite g_inner, P_inner by (try lra; unfold eps_nfw; lra). ring.
Qed.
Section Class.
Variables (dc cd : R -> R) (z_s z_l x0 y0 mass Rs s x y : R).
Notation d_l := (angular_diameter_distance dc z_l). Notation d_s := (angular_diameter_distance dc z_s). Notation d_ls := (angular_diameter_distance_z1z2 dc z_l z_s).
Notation th := (sqrt ((x - x0) ^ 2 + (y - y0) ^ 2)).
Hypotheses (Hl : 0 < d_l) (Hs : 0 < d_s) (Hls : 0 < d_ls) (Hrho : 0 < cd z_l) (Hm : 0 < mass) (HR : 0 < Rs) (Hsoft : 0 <= s) (Hxy : x <> x0 \/ y <> y0).
Hypothesis Hw : 1 / 100 < Rabs ((th + s) / Rs - 1).
Let c := tnfw_get_concentration dc cd z_l mass Rs.
Let M0 := tnfw_M0 dc cd false z_l mass Rs 0.
Lemma thp : 0 < th. Proof. apply norm_pos. destruct Hxy; [left|right]; lra. Qed.
Lemma gp : 0 < (th + s) / Rs. Proof. assert (T := thp). apply Rdiv_lt_0_compat; lra. Qed.
Lemma cpos : 0 < c. Proof. apply tnfw_concentration_pos; assumption. Qed.
Lemma SR : scale_radius_nfw (cd z_l) mass c DELTA = Rs * (d_l * arcsec_to_rad). Proof. apply tnfw_scale_radius; assumption. Qed.
Lemma SD : scale_density_nfw (cd z_l) c DELTA = M0 / (4 * PI * (Rs * (d_l * arcsec_to_rad)) ^ 3).
Proof. symmetry. apply (tnfw_M0_scale dc cd z_l mass); assumption. Qed.
Lemma rr : d_l * (th + s) * arcsec_to_rad / (Rs * (d_l * arcsec_to_rad)) = (th + s) / Rs.
Proof. assert (AP := arcsec_to_rad_pos). field. repeat split; lra. Qed.
(** deflection: with a softening s the NFW class multiplies by th / (th + s) and the TNFW class does not *)
Lemma tnfw_to_nfw_deflection : let a := nfw_reduced_deflection_angle dc cd z_s z_l x0 y0 mass c s x y in
  lim (fun t => fst (tnfw_reduced_deflection_angle dc cd false z_s z_l x0 y0 mass Rs t s x y)) (fst a * ((th + s) / th)) /\
  lim (fun t => snd (tnfw_reduced_deflection_angle dc cd false z_s z_l x0 y0 mass Rs t s x y)) (snd a * ((th + s) / th)).
Proof.
  intros a. assert (T := thp). assert (G := gp). assert (AP := arcsec_to_rad_pos). assert (PP := PI_RGT_0). assert (GP := G_over_c2_pos).
  assert (RA : rad_to_arcsec = / arcsec_to_rad) by (unfold arcsec_to_rad; field; apply Rgt_not_eq, rad_to_arcsec_pos).
  assert (E : forall t, tnfw_reduced_deflection_angle dc cd false z_s z_l x0 y0 mass Rs t s x y =
    (d_ls / d_s * (4 * G_over_c2 * rad_to_arcsec / ((th + s) * d_l * arcsec_to_rad)) * mass_enclosed_2d_tnfw (th + s) Rs t M0 * ((x - x0) / th),
     d_ls / d_s * (4 * G_over_c2 * rad_to_arcsec / ((th + s) * d_l * arcsec_to_rad)) * mass_enclosed_2d_tnfw (th + s) Rs t M0 * ((y - y0) / th))).
  { intros t. unfold tnfw_reduced_deflection_angle. cbv zeta. rewrite (surjective_pairing (tnfw_physical_deflection_angle _ _ _ _ _ _ _ _ _ _ _ _)).
    unfold tnfw_physical_deflection_angle. assert (AE := alpha_eq x0 y0 Rs t M0 d_l d_s d_ls s x y Hxy). cbv zeta in AE. change (tnfw_M0 dc cd false z_l mass Rs t) with M0. rewrite AE, mass_eq. f_equal; field; repeat split; lra. }
  assert (V : a = (d_ls / d_s * (4 * G_over_c2 * rad_to_arcsec / ((th + s) * d_l * arcsec_to_rad)) * (M0 * h_nfw ((th + s) / Rs)) * ((x - x0) / (th + s)),
     d_ls / d_s * (4 * G_over_c2 * rad_to_arcsec / ((th + s) * d_l * arcsec_to_rad)) * (M0 * h_nfw ((th + s) / Rs)) * ((y - y0) / (th + s)))).
  { unfold a, nfw_reduced_deflection_angle, nfw_physical_deflection_angle, physical_deflection_angle_nfw, reduced_from_physical_deflection_angle. cbn [translate_rotate]. cbv zeta.
    rewrite SR, SD, rr, RA. set (hh := h_nfw _). f_equal; field; repeat split; lra. }
  rewrite V. cbn [fst snd]. assert (Lm := mass_lim (th + s) Rs M0 ltac:(lra) HR). rewrite <- (h_F _ G Hw) in Lm. split.
  - eapply leq; [intros t _; rewrite E; cbn [fst]; reflexivity| |lims]. set (hh := h_nfw _). field. repeat split; lra.
  - eapply leq; [intros t _; rewrite E; cbn [snd]; reflexivity| |lims]. set (hh := h_nfw _). field. repeat split; lra.
Qed.
Lemma tnfw_to_nfw_potential : lim (fun t => tnfw_potential dc cd false z_s z_l x0 y0 mass Rs t s x y) (nfw_potential dc cd z_s z_l x0 y0 mass c s x y).
Proof.
  assert (T := thp). assert (G := gp). assert (AP := arcsec_to_rad_pos). assert (PP := PI_RGT_0). assert (GP := G_over_c2_pos).
  eapply leq; [intros t _; unfold tnfw_potential; change (tnfw_M0 dc cd false z_l mass Rs t) with M0; unfold potential_tnfw; cbn [translate_rotate]; cbv zeta; reflexivity| |exact (pot_lim _ _ G)].
  rewrite <- (g_P _ G Hw). unfold nfw_potential, potential_nfw. cbn [translate_rotate]. cbv zeta. unfold convergence_s_nfw. cbv zeta. rewrite SR, SD, rr. unfold critical_surface_density. cbv zeta. set (gg := g_nfw _). field. repeat split; lra.
Qed.
Lemma tnfw_to_nfw_convergence k : nfw_convergence dc cd z_s z_l x0 y0 mass c s x y = Some k ->
  lim (fun t => tnfw_convergence dc cd false z_s z_l x0 y0 mass Rs t s x y) k.
Proof.
  intros K. assert (T := thp). assert (G := gp). assert (AP := arcsec_to_rad_pos). assert (PP := PI_RGT_0). assert (GP := G_over_c2_pos).
  assert (S := sigma_pos dc z_s z_l Hl Hs Hls). assert (NG : (th + s) / Rs <> 1) by (intros E; rewrite E, Rminus_eq_0, Rabs_R0 in Hw; lra).
  assert (G2 : ((th + s) / Rs) ^ 2 - 1 <> 0) by nra.
  unfold nfw_convergence, convergence_nfw in K. cbn [translate_rotate] in K. cbv zeta in K. rewrite SR, rr in K. unfold fin_div in K. destruct (Req_EM_T _ 0); [contradiction|]. apply (f_equal (fun o => match o with Some v => v | None => 0 end)) in K. cbv beta iota in K. rewrite <- K.
  unfold convergence_s_nfw. cbv zeta. rewrite SR, SD. rewrite (Fx_nfw _ G) by (unfold eps_nfw; lra). rewrite <- (Fx_tnfw _ G Hw).
  assert (Ls := lim_sproj _ G NG). eapply leq; [intros t _; unfold tnfw_convergence; change (tnfw_M0 dc cd false z_l mass Rs t) with M0; rewrite kappa_eq; unfold Rdiv; reflexivity| |exact (lm _ _ _ _ (lm _ _ _ _ Ls (lc _)) (lc _))].
  set (F := F_tnfw _). set (sc := critical_surface_density dc z_l z_s) in *. set (g := (th + s) / Rs) in *. unfold Rdiv. field. repeat split; lra.
Qed.
End Class.
(** pseudo-isothermal: a PseudoJaffe lens of small core and large cut-off is an SIS, with an error bound *)
Section Jaffe.
Variables (dc : R -> R) (z_s z_l x0 y0 Rein Rc Rs x y : R).
Notation d_l := (angular_diameter_distance dc z_l).
Notation sc := (critical_surface_density dc z_l z_s).
Notation th := (sqrt ((x - x0) ^ 2 + (y - y0) ^ 2)).
Hypotheses (Hl : d_l <> 0) (Hsc : sc <> 0) (HE : 0 < Rein) (HR : 0 < Rc < Rs) (Hxy : x <> x0 \/ y <> y0).
Let mass := PI * Rein * sc * Rs * (d_l * arcsec_to_rad) ^ 2.
Lemma jaffe_to_sis_kappa :
  Rabs (jaffe_convergence dc z_s z_l x0 y0 mass Rc Rs x y - convergence_sis x0 y0 Rein 0 x y) <= Rein / 2 * ((Rc * Rs / th ^ 2 + 1 + Rc / th) / (Rs - Rc)).
Proof.
  assert (T : 0 < th) by (apply norm_pos; destruct Hxy; [left|right]; lra). assert (AP := arcsec_to_rad_pos). assert (PP := PI_RGT_0).
  unfold jaffe_convergence, convergence_pseudo_jaffe, convergence_sis, convergence_0_pseudo_jaffe. cbn [translate_rotate]. cbv zeta. rewrite !Rplus_0_r.
  assert (T2 : (x - x0) ^ 2 + (y - y0) ^ 2 = th ^ 2) by (symmetry; apply pow2_sqrt; assert (H1 := pow2_ge_0 (x - x0)); assert (H2 := pow2_ge_0 (y - y0)); lra). set (r := th) in *. clearbody r. rewrite !T2.
  assert (B1 : r <= sqrt (Rc ^ 2 + r ^ 2) <= r + Rc).
  { split; [rewrite <- (sqrt_pow2 r) at 1 by lra; apply sqrt_le_1_alt; nra|rewrite <- (sqrt_pow2 (r + Rc)) by lra; apply sqrt_le_1_alt; nra]. }
  assert (B2 : Rs <= sqrt (Rs ^ 2 + r ^ 2)) by (rewrite <- (sqrt_pow2 Rs) at 1 by lra; apply sqrt_le_1_alt; nra).
  set (b := sqrt (Rc ^ 2 + r ^ 2)) in *. set (e := sqrt (Rs ^ 2 + r ^ 2)) in *.
  replace (mass / (2 * PI * sc * Rc * Rs * (d_l * arcsec_to_rad) ^ 2) * Rc * Rs / (Rs - Rc) * (1 / b - 1 / e) - / 2 * Rein / r) with
    (Rein / 2 * ((Rs * (/ b - / r) - Rs * / e + Rc / r) / (Rs - Rc))).
  2: { unfold mass. field. repeat split; try lra. }
  rewrite Rabs_mult, (Rabs_pos_eq (Rein / 2)) by lra. apply Rmult_le_compat_l; [lra|]. unfold Rdiv at 1 4. rewrite Rabs_mult, (Rabs_pos_eq (/ (Rs - Rc))) by (apply Rlt_le, Rinv_0_lt_compat; lra).
  apply Rmult_le_compat_r; [apply Rlt_le, Rinv_0_lt_compat; lra|].
  assert (I1 : 0 <= / r - / b <= Rc / r ^ 2).
  { split; [assert (/ b <= / r) by (apply Rinv_le_contravar; lra); lra|]. apply Rle_trans with (/ r - / (r + Rc)); [assert (/ (r + Rc) <= / b) by (apply Rinv_le_contravar; lra); lra|].
    replace (/ r - / (r + Rc)) with (Rc / (r * (r + Rc))) by (field; lra). apply Rmult_le_compat_l; [lra|]. apply Rinv_le_contravar; nra. }
  assert (I2 : 0 <= Rs * / e <= 1).
  { split; [apply Rmult_le_pos; [lra|apply Rlt_le, Rinv_0_lt_compat; lra]|]. apply Rmult_le_reg_r with e; [lra|]. rewrite Rmult_assoc, Rinv_l by lra. lra. }
  assert (I3 : 0 <= Rc / r) by (apply Rlt_le, Rdiv_lt_0_compat; lra).
  assert (I4 : 0 <= Rs * (/ r - / b) <= Rc * Rs / r ^ 2). { split; [nra|]. replace (Rc * Rs / r ^ 2) with (Rs * (Rc / r ^ 2)) by (unfold Rdiv; ring). apply Rmult_le_compat_l; lra. }
  apply Rabs_le. split; lra.
Qed.
Lemma jaffe_to_sis_alpha : let a := jaffe_reduced_deflection_angle dc z_s z_l x0 y0 mass Rc Rs x y in let b := reduced_deflection_angle_sis x0 y0 Rein 0 x y in
  let E := Rein * ((2 * Rc * Rs / th + th / 2 + Rc) / (Rs - Rc)) in Rabs (fst a - fst b) <= E /\ Rabs (snd a - snd b) <= E.
Proof.
  assert (T : 0 < th) by (apply norm_pos; destruct Hxy; [left|right]; lra). assert (AP := arcsec_to_rad_pos). assert (PP := PI_RGT_0).
  unfold jaffe_reduced_deflection_angle, reduced_deflection_angle_pseudo_jaffe, reduced_deflection_angle_sis, convergence_0_pseudo_jaffe. cbn [translate_rotate]. cbv zeta. cbn [fst snd]. rewrite !Rplus_0_r.
  assert (T2 : (x - x0) ^ 2 + (y - y0) ^ 2 = th ^ 2) by (symmetry; apply pow2_sqrt; assert (H1 := pow2_ge_0 (x - x0)); assert (H2 := pow2_ge_0 (y - y0)); lra).
  assert (C1 : Rabs ((x - x0) / th) <= 1 /\ Rabs ((y - y0) / th) <= 1).
  { assert (forall v, v ^ 2 <= th ^ 2 -> Rabs (v / th) <= 1).
    { intros v Hv. unfold Rdiv. rewrite Rabs_mult, (Rabs_pos_eq (/ th)) by (apply Rlt_le, Rinv_0_lt_compat, T). apply Rmult_le_reg_r with th; [exact T|]. rewrite Rmult_assoc, Rinv_l, Rmult_1_r, Rmult_1_l by lra.
      rewrite <- (Rabs_pos_eq th) by lra. apply Rsqr_le_abs_0. unfold Rsqr. lra. }
    split; apply H; rewrite <- T2; [assert (Q := pow2_ge_0 (y - y0))|assert (Q := pow2_ge_0 (x - x0))]; lra. }
  clear T2. set (r := th) in *. clearbody r. destruct C1 as [C1 C2].
  set (b := sqrt (1 + (r / Rc) ^ 2)). set (e := sqrt (1 + (r / Rs) ^ 2)).
  assert (Q1 : 0 < r / Rc) by (apply Rdiv_lt_0_compat; lra).
  assert (B1 : r / Rc <= b <= r / Rc + 1).
  { unfold b. set (u := r / Rc) in *. split; [rewrite <- (sqrt_pow2 u) at 1 by lra; apply sqrt_le_1_alt; lra|rewrite <- (sqrt_pow2 (u + 1)) by lra; apply sqrt_le_1_alt; nra]. }
  assert (B2 : 1 <= e) by (unfold e; rewrite <- sqrt_1 at 1; apply sqrt_le_1_alt; assert (Q := pow2_ge_0 (r / Rs)); lra).
  set (f := r / Rc / (1 + b) - r / (Rs * (1 + e))).
  assert (K : Rabs (Rs * f - (Rs - Rc)) <= 2 * Rc * Rs / r + r / 2 + Rc).
  { assert (I1 : 0 <= 1 - r / Rc / (1 + b) <= 2 * Rc / r).
    { replace (1 - r / Rc / (1 + b)) with ((1 + b - r / Rc) / (1 + b)) by (field; split; lra). split; [apply Rmult_le_pos; [lra|apply Rlt_le, Rinv_0_lt_compat; lra]|].
      apply Rmult_le_reg_r with (1 + b); [lra|]. replace ((1 + b - r / Rc) / (1 + b) * (1 + b)) with (1 + b - r / Rc) by (field; split; lra).
      replace (2 * Rc / r) with (2 * / (r / Rc)) by (field; lra). set (u := r / Rc) in *. apply Rle_trans with (2 * / u * u); [rewrite Rmult_assoc, Rinv_l by lra; lra|].
      apply Rmult_le_compat_l; [assert (J := Rinv_0_lt_compat u Q1); lra|lra]. }
    assert (I2 : 0 <= r / (1 + e) <= r / 2) by (split; [apply Rlt_le, Rdiv_lt_0_compat; lra|apply Rmult_le_compat_l; [lra|apply Rinv_le_contravar; lra]]).
    replace (Rs * f - (Rs - Rc)) with (Rc - Rs * (1 - r / Rc / (1 + b)) - r / (1 + e)) by (unfold f; field; repeat split; lra).
    assert (I3 : 0 <= Rs * (1 - r / Rc / (1 + b)) <= 2 * Rc * Rs / r). { split; [apply Rmult_le_pos; lra|]. replace (2 * Rc * Rs / r) with (Rs * (2 * Rc / r)) by (unfold Rdiv; ring). apply Rmult_le_compat_l; lra. }
    apply Rabs_le. split; lra. }
  assert (main : forall v, Rabs (v / r) <= 1 -> Rabs (2 * (mass / (2 * PI * sc * Rc * Rs * (d_l * arcsec_to_rad) ^ 2)) * Rc * Rs / (Rs - Rc) * f * v / r - Rein * v / r) <= Rein * ((2 * Rc * Rs / r + r / 2 + Rc) / (Rs - Rc))).
  { intros v Hv. replace (2 * (mass / (2 * PI * sc * Rc * Rs * (d_l * arcsec_to_rad) ^ 2)) * Rc * Rs / (Rs - Rc) * f * v / r - Rein * v / r) with (Rein * ((Rs * f - (Rs - Rc)) / (Rs - Rc) * (v / r))) by (unfold mass; field; repeat split; lra).
    rewrite Rabs_mult, (Rabs_pos_eq Rein) by lra. apply Rmult_le_compat_l; [lra|]. rewrite Rabs_mult. rewrite <- (Rmult_1_r ((2 * Rc * Rs / r + r / 2 + Rc) / (Rs - Rc))). apply Rmult_le_compat; try apply Rabs_pos; [|exact Hv].
    replace ((2 * Rc * Rs / r + r / 2 + Rc) / (Rs - Rc)) with ((2 * Rc * Rs / r + r / 2 + Rc) * / (Rs - Rc)) by reflexivity. unfold Rdiv at 1. rewrite Rabs_mult, (Rabs_pos_eq (/ (Rs - Rc))) by (apply Rlt_le, Rinv_0_lt_compat; lra). apply Rmult_le_compat_r; [apply Rlt_le, Rinv_0_lt_compat; lra|exact K]. }
  split; apply main; assumption.
Qed.
End Jaffe.
Lemma tnfw_to_nfw_deflection_0 dc cd z_s z_l x0 y0 mass Rs x y :
  0 < angular_diameter_distance dc z_l -> 0 < angular_diameter_distance dc z_s -> 0 < angular_diameter_distance_z1z2 dc z_l z_s ->
  0 < cd z_l -> 0 < mass -> 0 < Rs -> x <> x0 \/ y <> y0 -> 1 / 100 < Rabs (sqrt ((x - x0) ^ 2 + (y - y0) ^ 2) / Rs - 1) ->
  let a := nfw_reduced_deflection_angle dc cd z_s z_l x0 y0 mass (tnfw_get_concentration dc cd z_l mass Rs) 0 x y in
  lim (fun tau => fst (tnfw_reduced_deflection_angle dc cd false z_s z_l x0 y0 mass Rs tau 0 x y)) (fst a) /\
  lim (fun tau => snd (tnfw_reduced_deflection_angle dc cd false z_s z_l x0 y0 mass Rs tau 0 x y)) (snd a).
Proof.
  intros H1 H2 H3 H4 H5 H6 H7 H8 a. assert (T : 0 < sqrt ((x - x0) ^ 2 + (y - y0) ^ 2)) by (apply norm_pos; destruct H7; [left|right]; lra).
  destruct (tnfw_to_nfw_deflection dc cd z_s z_l x0 y0 mass Rs 0 x y H1 H2 H6 ltac:(lra) H7 ltac:(rewrite Rplus_0_r; exact H8)) as [A B]. fold a in A, B.
  rewrite Rplus_0_r in A, B. unfold Rdiv in A, B. rewrite Rinv_r, Rmult_1_r in A, B by lra. split; assumption.
Qed.
Lemma example_sigma : critical_surface_density (fun z => 1000 * z) 1 2 <> 0.
Proof. apply Rgt_not_eq, sigma_pos; unfold angular_diameter_distance, angular_diameter_distance_z1z2, comoving_distance_z1z2; lra. Qed.
