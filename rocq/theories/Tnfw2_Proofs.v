(** * The truncated NFW lens *)
From Coq Require Import Reals Lra Psatz.
From Coquelicot Require Import Coquelicot.
From Verif Require Import Const_Model RealFun Derive1 Calc2 Cosmo_Model Geo_Model LensBase_Model Lens_Spec Lens_Lib Nfw_Model Nfw_Proofs Tnfw_Model Tnfw_Proofs.
Local Open Scope R_scope.

Lemma mass_eq r Rs tau M0 : mass_enclosed_2d_tnfw r Rs tau M0 = M0 * mproj tau (r / Rs).
Proof. unfold mass_enclosed_2d_tnfw, mproj, hyp. cbv zeta. unfold Rdiv. ring. Qed.
Section Lens.
Variables (x0 y0 Rs tau M0 d_l d_s d_ls sigma : R).
Hypotheses (HR : 0 < Rs) (Ht : 0 < tau) (Hl : 0 < d_l) (Hs : 0 < d_s) (Hls : 0 < d_ls).
Hypothesis Hsig : sigma = d_s / d_l / d_ls / (4 * PI * G_over_c2).
Let ff := d_ls / d_s.
(** the radial deflection, reduced *)
Let A (r : R) : R := ff * (4 * G_over_c2 * rad_to_arcsec * (M0 * mproj tau (r / Rs) / (r * d_l * arcsec_to_rad))).
Let V (r : R) : R := 2 * M0 * G_over_c2 * ff / (d_l * arcsec_to_rad ^ 2) * vproj tau (r / Rs).
Lemma gdiv r : is_derive (fun r : R => r / Rs) r (/ Rs).
Proof. auto_derive; trivial. field. lra. Qed.
Lemma V_derive r : 0 < r -> 1 / 100 < Rabs (r / Rs - 1) -> is_derive V r (A r).
Proof.
  intros Hr W. assert (P := arcsec_to_rad_pos). assert (P2 := rad_to_arcsec_pos). assert (G : 0 < r / Rs) by (apply Rdiv_lt_0_compat; assumption).
  eapply dv_val; [exact (dv_scal _ _ r _ (dv_comp _ _ r _ _ (v_derive tau Ht _ G W) (gdiv r)))|].
  unfold A. assert (RA : rad_to_arcsec = / arcsec_to_rad) by (unfold arcsec_to_rad; field; apply Rgt_not_eq, rad_to_arcsec_pos). rewrite RA. field. repeat split; lra.
Qed.
Lemma A_derive r : 0 < r -> 1 / 100 < Rabs (r / Rs - 1) ->
  is_derive A r (ff * (4 * G_over_c2 * rad_to_arcsec * M0 / (d_l * arcsec_to_rad)) * (sproj tau (r / Rs) / Rs ^ 2 - mproj tau (r / Rs) / r ^ 2)).
Proof.
  intros Hr W. assert (P := arcsec_to_rad_pos). assert (G : 0 < r / Rs) by (apply Rdiv_lt_0_compat; assumption).
  assert (D := dv_scal _ (ff * (4 * G_over_c2 * rad_to_arcsec * M0 / (d_l * arcsec_to_rad))) r _ (dv_div _ _ r _ _ (dv_comp _ _ r _ _ (m_derive tau Ht _ G W) (gdiv r)) (dv_id r) ltac:(lra))).
  eapply is_derive_ext_loc; [|eapply dv_val; [exact D|]].
  - generalize (locally_gt 0 r Hr). apply filter_imp. intros t Ht0. unfold A. cbv beta. match goal with |- @eq _ ?a ?b => change (@eq R a b) end. field. repeat split; lra.
  - cbv beta. generalize (mproj tau (r / Rs)), (sproj tau (r / Rs)). intros mm ss. field. repeat split; lra.
Qed.
Lemma alpha_eq s u v : (u <> x0 \/ v <> y0) -> let r := sqrt ((u - x0) ^ 2 + (v - y0) ^ 2) in
  let al := physical_deflection_angle_tnfw x0 y0 Rs tau u v M0 d_l s in
  reduced_from_physical_deflection_angle (fst al) (snd al) d_s d_ls = (A (r + s) * (u - x0) / r, A (r + s) * (v - y0) / r).
Proof.
  intros H r. assert (HH : u - x0 <> 0 \/ v - y0 <> 0) by (destruct H; [left|right]; lra). assert (N := norm_pos _ _ HH). fold r in N.
  unfold physical_deflection_angle_tnfw, reduced_from_physical_deflection_angle. cbn [translate_rotate]. cbv zeta. cbn [fst snd]. fold r. rewrite atan2_cos, atan2_sin by exact HH. fold r. rewrite mass_eq.
  unfold A, ff, Rdiv. apply (f_equal2 pair); ring.
Qed.
Lemma pot_eq s u v : potential_tnfw x0 y0 Rs tau u v M0 d_l d_s d_ls s = V (sqrt ((u - x0) ^ 2 + (v - y0) ^ 2) + s).
Proof. unfold potential_tnfw, V, vproj, hyp, ff. cbn [translate_rotate]. cbv zeta. rewrite Rmult_assoc. reflexivity. Qed.
Variables (s x y : R).
Hypothesis Hxy : x <> x0 \/ y <> y0.
Notation th := (sqrt ((x - x0) ^ 2 + (y - y0) ^ 2)).
Lemma HH : x - x0 <> 0 \/ y - y0 <> 0. Proof. destruct Hxy; [left|right]; lra. Qed.
Lemma th_pos : 0 < th. Proof. apply norm_pos, HH. Qed.
Let alpha u v := let al := physical_deflection_angle_tnfw x0 y0 Rs tau u v M0 d_l s in reduced_from_physical_deflection_angle (fst al) (snd al) d_s d_ls.
(** the gradient, also with a softening *)
Lemma tnfw_gradient : 0 <= s -> 1 / 100 < Rabs ((th + s) / Rs - 1) ->
  deflection_is_gradient (fun u v => potential_tnfw x0 y0 Rs tau u v M0 d_l d_s d_ls s) alpha x y.
Proof.
  intros H0 W. assert (T := th_pos). unfold deflection_is_gradient, alpha. rewrite alpha_eq by exact Hxy. cbn [fst snd].
  apply D2_ext with (fun u v => V (sqrt ((u - x0) ^ 2 + (v - y0) ^ 2) + s)); [intros u v; symmetry; apply pot_eq|].
  assert (DN := D2_shift (fun u v => sqrt (u ^ 2 + v ^ 2)) x0 y0 x y _ _ (D2_norm (x - x0) (y - y0) HH)).
  assert (DS : is_derive (fun r => V (r + s)) th (A (th + s))).
  { eapply dv_val; [exact (dv_comp V (fun r => r + s) th _ _ (V_derive (th + s) ltac:(lra) W) (dv_plus _ _ th _ _ (dv_id th) (dv_const s th)))|]. ring. }
  assert (D := D2_comp1 (fun r => V (r + s)) (shifted (fun u v => sqrt (u ^ 2 + v ^ 2)) x0 y0) x y _ _ _ DS DN).
  eapply D2_eq; [exact D| |]; unfold Rdiv; ring.
Qed.
(** the projected mass *)
Lemma mass_derive R1 : 0 < R1 -> 1 / 100 < Rabs (R1 / Rs - 1) -> is_derive (fun R => M0 * mproj tau (R / Rs)) R1 (M0 * sproj tau (R1 / Rs) * R1 / Rs ^ 2).
Proof.
  intros H W. assert (G : 0 < R1 / Rs) by (apply Rdiv_lt_0_compat; assumption).
  eapply dv_val; [exact (dv_scal _ M0 R1 _ (dv_comp _ _ R1 _ _ (m_derive tau Ht _ G W) (gdiv R1)))|]. field. lra.
Qed.
Lemma kappa_eq : convergence_tnfw x0 y0 Rs tau x y sigma M0 d_l s = sproj tau ((th + s) / Rs) * (M0 / (2 * PI * (Rs * d_l * arcsec_to_rad) ^ 2)) / sigma.
Proof. reflexivity. Qed.
Lemma tnfw_consistent_0 : s = 0 -> 1 / 100 < Rabs (th / Rs - 1) ->
  lens_consistent (fun u v => potential_tnfw x0 y0 Rs tau u v M0 d_l d_s d_ls s) alpha (fun u v => convergence_tnfw x0 y0 Rs tau u v sigma M0 d_l s) x y.
Proof.
  intros S0 W. assert (T := th_pos). assert (P := arcsec_to_rad_pos). assert (GP := G_over_c2_pos). assert (PP := PI_RGT_0).
  apply lens_consistent_ext_loc with (psi := shifted (fun u v => V (sqrt (u ^ 2 + v ^ 2))) x0 y0)
    (alpha := shifted_alpha (fun u v => let r := sqrt (u ^ 2 + v ^ 2) in (A r * u / r, A r * v / r)) x0 y0)
    (kappa := fun u v => convergence_tnfw x0 y0 Rs tau x y sigma M0 d_l s).
  - apply locally_2d_forall. intros u v. rewrite pot_eq, S0, Rplus_0_r. reflexivity.
  - assert (N : forall a b : R, a <> b -> locally a (fun t : R => t <> b)).
    { intros a b Hab. assert (Q : 0 < Rabs (a - b)) by (apply Rabs_pos_lt; lra). exists (mkposreal _ Q). intros t Bt E. subst. change (Rabs (b - a) < Rabs (a - b)) in Bt. rewrite Rabs_minus_sym in Bt. lra. }
    destruct Hxy as [Hx|Hy].
    + destruct (N x x0 Hx) as [d Hd]. exists d. intros u v Bu Bv. unfold alpha. rewrite alpha_eq by (left; apply Hd, Bu). rewrite S0, Rplus_0_r. reflexivity.
    + destruct (N y y0 Hy) as [d Hd]. exists d. intros u v Bu Bv. unfold alpha. rewrite alpha_eq by (right; apply Hd, Bv). rewrite S0, Rplus_0_r. reflexivity.
  - reflexivity.
  - apply (lens_consistent_shifted _ _ (fun _ _ => convergence_tnfw x0 y0 Rs tau x y sigma M0 d_l s)).
    eapply (lens_consistent_radial V A _ (fun _ _ => convergence_tnfw x0 y0 Rs tau x y sigma M0 d_l s) (x - x0) (y - y0) HH); [apply V_derive; assumption|apply A_derive; assumption|].
    rewrite kappa_eq, S0, Rplus_0_r, Hsig. unfold A, ff. set (t := th) in *.
    assert (RA : rad_to_arcsec = / arcsec_to_rad) by (unfold arcsec_to_rad; field; apply Rgt_not_eq, rad_to_arcsec_pos). rewrite RA.
    generalize (mproj tau (t / Rs)), (sproj tau (t / Rs)). intros mm ss. field. repeat split; lra.
Qed.
(** with a softening the divergence is not the convergence *)
Lemma alpha_local : locally_2d (fun u v => shifted_alpha (fun u v => let r := sqrt (u ^ 2 + v ^ 2) in (A (r + s) * u / r, A (r + s) * v / r)) x0 y0 u v = alpha u v) x y.
Proof.
  assert (N : forall a b : R, a <> b -> locally a (fun t : R => t <> b)).
  { intros a b Hab. assert (Q : 0 < Rabs (a - b)) by (apply Rabs_pos_lt; lra). exists (mkposreal _ Q). intros t Bt E. subst. change (Rabs (b - a) < Rabs (a - b)) in Bt. rewrite Rabs_minus_sym in Bt. lra. }
  destruct Hxy as [Hx|Hy].
  - destruct (N x x0 Hx) as [d Hd]. exists d. intros u v Bu Bv. unfold alpha. rewrite alpha_eq by (left; apply Hd, Bu). reflexivity.
  - destruct (N y y0 Hy) as [d Hd]. exists d. intros u v Bu Bv. unfold alpha. rewrite alpha_eq by (right; apply Hd, Bv). reflexivity.
Qed.
Lemma tnfw_softened_divergence : 0 <= s -> 1 / 100 < Rabs ((th + s) / Rs - 1) ->
  convergence_is_half_divergence alpha (fun _ _ => convergence_tnfw x0 y0 Rs tau x y sigma M0 d_l s + A (th + s) * s / (th * (th + s)) / 2) x y.
Proof.
  intros H0 W. assert (T := th_pos). assert (P := arcsec_to_rad_pos). assert (GP := G_over_c2_pos). assert (PP := PI_RGT_0).
  set (k := convergence_tnfw x0 y0 Rs tau x y sigma M0 d_l s + A (th + s) * s / (th * (th + s)) / 2).
  assert (VD : is_derive (fun r => V (r + s)) th (A (th + s))).
  { eapply dv_val; [exact (dv_comp V (fun r => r + s) th _ _ (V_derive (th + s) ltac:(lra) W) (dv_plus _ _ th _ _ (dv_id th) (dv_const s th)))|]. ring. }
  assert (AD := dv_comp A (fun r => r + s) th _ _ (A_derive (th + s) ltac:(lra) W) (dv_plus _ _ th _ _ (dv_id th) (dv_const s th))).
  assert (C : lens_consistent (shifted (fun u v => V (sqrt (u ^ 2 + v ^ 2) + s)) x0 y0) (shifted_alpha (fun u v => let r := sqrt (u ^ 2 + v ^ 2) in (A (r + s) * u / r, A (r + s) * v / r)) x0 y0) (fun _ _ => k) x y).
  { apply (lens_consistent_shifted _ _ (fun _ _ => k)). eapply (lens_consistent_radial (fun r => V (r + s)) (fun r => A (r + s)) _ (fun _ _ => k) (x - x0) (y - y0) HH); [exact VD|exact AD|].
    unfold k. rewrite kappa_eq, Hsig. unfold A, ff. set (t := th) in *.
    assert (RA : rad_to_arcsec = / arcsec_to_rad) by (unfold arcsec_to_rad; field; apply Rgt_not_eq, rad_to_arcsec_pos). rewrite RA.
    generalize (mproj tau ((t + s) / Rs)), (sproj tau ((t + s) / Rs)). intros mm ss. field. repeat split; lra. }
  refine (proj2 (lens_consistent_ext_loc _ _ (fun _ _ => k) _ alpha (fun _ _ => k) x y _ alpha_local eq_refl C)). apply locally_2d_forall. intros u v. reflexivity.
Qed.
End Lens.
