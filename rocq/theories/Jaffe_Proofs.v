(** * The pseudo Jaffe lens is consistent *)
From Coq Require Import Reals Lra Psatz.
From Coquelicot Require Import Coquelicot.
From Verif Require Import Const_Model Cosmo_Model Calc2 RealFun Geo_Model Lens_Spec Lens_Lib Jaffe_Model.
Local Open Scope R_scope.

Lemma hyp_pos a r : 0 < a -> 0 < sqrt (a ^ 2 + r ^ 2).
Proof. intros H. apply sqrt_lt_R0. nra. Qed.
Lemma hyp_sq a r : sqrt (a ^ 2 + r ^ 2) ^ 2 = a ^ 2 + r ^ 2.
Proof. apply sqrt_sq2. nra. Qed.
Lemma d_hyp a r : 0 < a -> is_derive (fun r => sqrt (a ^ 2 + r ^ 2)) r (r / sqrt (a ^ 2 + r ^ 2)).
Proof. intros H. assert (P := hyp_pos a r H). auto_derive; [nra|]. replace (a * (a * 1)) with (a ^ 2) by ring. replace (r * (r * 1)) with (r ^ 2) by ring. field. lra. Qed.
Lemma d_log a r : 0 < a -> is_derive (fun r => a * ln (a + sqrt (a ^ 2 + r ^ 2))) r (a * r / (sqrt (a ^ 2 + r ^ 2) * (a + sqrt (a ^ 2 + r ^ 2)))).
Proof. intros H. assert (P := hyp_pos a r H). auto_derive; replace (a * (a * 1)) with (a ^ 2) by ring; replace (r * (r * 1)) with (r ^ 2) by ring; [repeat split; nra|]. field. split; lra. Qed.
(** R / (a + sqrt (a^2 + R^2)) *)
Definition pull (a r : R) : R := r / (a + sqrt (a ^ 2 + r ^ 2)).
Lemma pull_alt a r : 0 < a -> r / a / (1 + sqrt (1 + (r / a) ^ 2)) = pull a r.
Proof.
  intros H. assert (P := hyp_pos a r H). unfold pull. assert (E : sqrt (a ^ 2 + r ^ 2) = a * sqrt (1 + (r / a) ^ 2)).
  { replace (a ^ 2 + r ^ 2) with (a ^ 2 * (1 + (r / a) ^ 2)) by (field; lra). rewrite sqrt_mult by nra. rewrite sqrt_pow2 by lra. reflexivity. }
  rewrite E in *. assert (0 < sqrt (1 + (r / a) ^ 2)) by (apply sqrt_lt_R0; nra). field. split; nra.
Qed.
Lemma d_pull a r : 0 < a -> is_derive (pull a) r (a / (sqrt (a ^ 2 + r ^ 2) * (a + sqrt (a ^ 2 + r ^ 2)))).
Proof.
  intros H. assert (P := hyp_pos a r H). assert (Q := hyp_sq a r). unfold pull.
  auto_derive; replace (a * (a * 1)) with (a ^ 2) by ring; replace (r * (r * 1)) with (r ^ 2) by ring; [repeat split; nra|].
  set (w := sqrt (a ^ 2 + r ^ 2)) in *. transitivity ((w * a + w ^ 2 - r ^ 2) / (w * (a + w) ^ 2)); [field; split; lra|]. rewrite Q. replace (w * a + (a ^ 2 + r ^ 2) - r ^ 2) with (a * (a + w)) by ring. field. split; lra.
Qed.
(** the mass term *)
Lemma pull_mass a r : 0 < a -> r <> 0 -> pull a r = (sqrt (a ^ 2 + r ^ 2) - a) / r.
Proof. intros H Hr. assert (P := hyp_pos a r H). assert (Q := hyp_sq a r). unfold pull. set (w := sqrt _) in *. apply Rmult_eq_reg_r with (r * (a + w)); [|apply Rmult_integral_contrapositive_currified; lra].
  transitivity (r ^ 2); [field; lra|]. transitivity ((w - a) * (a + w)); [|field; exact Hr]. nra. Qed.
Lemma pull_curv a r : 0 < a -> r <> 0 -> a / (sqrt (a ^ 2 + r ^ 2) * (a + sqrt (a ^ 2 + r ^ 2))) + pull a r / r = 1 / sqrt (a ^ 2 + r ^ 2).
Proof. intros H Hr. assert (P := hyp_pos a r H). unfold pull. field. repeat split; lra. Qed.

Section Jaffe.
Variables (mass Rc Rs d_l d_s d_ls : R).
Hypotheses (HRc : 0 < Rc) (HRs : 0 < Rs) (Hne : Rc <> Rs) (Hl : 0 < d_l) (Hs : 0 < d_s) (Hls : 0 < d_ls).
Let sigma_cr := d_s / (4 * PI * G_over_c2 * d_l * d_ls).
Let k0 := convergence_0_pseudo_jaffe mass Rc Rs d_l sigma_cr.
Let co := 2 * k0 * Rc * Rs / (Rs - Rc).
Lemma gap_nz : Rs - Rc <> 0.
Proof. intros E. apply Hne. lra. Qed.
Lemma scr_pos : 0 < sigma_cr.
Proof. assert (P := PI_RGT_0). assert (Q := G_over_c2_pos). unfold sigma_cr. revert P Q. generalize G_over_c2, PI. intros g p P Q. apply Rdiv_lt_0_compat; [assumption|]. repeat apply Rmult_lt_0_compat; lra. Qed.
Lemma coeff_eq : - (8 * PI * G_over_c2 * convergence_0_pseudo_jaffe mass Rc Rs d_l 1 * (d_l * d_ls / d_s) * Rc * Rs / (Rs - Rc)) = - co.
Proof.
  assert (GN := gap_nz).
  assert (P := PI_RGT_0). assert (Q := G_over_c2_pos). assert (A := arcsec_to_rad_pos). unfold co, k0, convergence_0_pseudo_jaffe, sigma_cr. field. repeat split; solve [assumption|apply Rgt_not_eq; assumption].
Qed.
Lemma jaffe_consistent x0 y0 x y : x <> x0 \/ y <> y0 ->
  lens_consistent (fun u v => potential_pseudo_jaffe x0 y0 mass Rc Rs u v d_l d_s d_ls 0)
    (fun u v => reduced_deflection_angle_pseudo_jaffe x0 y0 mass Rc Rs u v d_l sigma_cr 0)
    (fun u v => convergence_pseudo_jaffe x0 y0 mass Rc Rs u v d_l sigma_cr 0) x y.
Proof.
  assert (GN := gap_nz).
  intros Hxy. assert (H : x - x0 <> 0 \/ y - y0 <> 0) by (destruct Hxy; [left|right]; lra).
  set (F := fun r => - co * (sqrt (Rs ^ 2 + r ^ 2) - sqrt (Rc ^ 2 + r ^ 2) + Rc * ln (Rc + sqrt (Rc ^ 2 + r ^ 2)) - Rs * ln (Rs + sqrt (Rs ^ 2 + r ^ 2)))).
  set (A := fun r => co * (pull Rc r - pull Rs r)).
  set (kap := fun u v => k0 * Rc * Rs / (Rs - Rc) * (1 / sqrt (Rc ^ 2 + (u ^ 2 + v ^ 2 + 0)) - 1 / sqrt (Rs ^ 2 + (u ^ 2 + v ^ 2 + 0)))).
  refine (lens_consistent_ext _ _ _ _ _ _ x y _ _ _ (lens_consistent_shifted (fun u v => F (sqrt (u ^ 2 + v ^ 2))) (fun u v => let r := sqrt (u ^ 2 + v ^ 2) in (A r * u / r, A r * v / r)) kap x0 y0 x y _)).
  - intros u v. unfold shifted, potential_pseudo_jaffe, F. cbn [translate_rotate]. cbv zeta. rewrite coeff_eq. assert (Q : 0 <= (u - x0) ^ 2 + (v - y0) ^ 2) by (apply Rplus_le_le_0_compat; apply pow2_ge_0). rewrite (sqrt_sq2 _ Q), Rplus_0_r. reflexivity.
  - intros u v. unfold shifted_alpha, reduced_deflection_angle_pseudo_jaffe, A. cbn [translate_rotate]. cbv zeta. fold k0. fold co. rewrite Rplus_0_r. set (r := sqrt (_ + _)).
    rewrite <- (pull_alt Rc r HRc), <- (pull_alt Rs r HRs). 
    replace (r / (Rs * (1 + sqrt (1 + (r / Rs) ^ 2)))) with (r / Rs / (1 + sqrt (1 + (r / Rs) ^ 2))); [reflexivity|].
    assert (0 <= sqrt (1 + (r / Rs) ^ 2)) by apply sqrt_pos. field. split; lra.
  - reflexivity.
  - revert H. generalize (x - x0), (y - y0). intros X Y H. assert (Rp := norm_pos X Y H).
    apply (lens_consistent_radial F A (co * (Rc / (sqrt (Rc ^ 2 + sqrt (X ^ 2 + Y ^ 2) ^ 2) * (Rc + sqrt (Rc ^ 2 + sqrt (X ^ 2 + Y ^ 2) ^ 2))) - Rs / (sqrt (Rs ^ 2 + sqrt (X ^ 2 + Y ^ 2) ^ 2) * (Rs + sqrt (Rs ^ 2 + sqrt (X ^ 2 + Y ^ 2) ^ 2))))) kap X Y H).
    + set (r := sqrt (X ^ 2 + Y ^ 2)) in *. unfold F.
      assert (D : is_derive (fun r => - co * (sqrt (Rs ^ 2 + r ^ 2) - sqrt (Rc ^ 2 + r ^ 2) + Rc * ln (Rc + sqrt (Rc ^ 2 + r ^ 2)) - Rs * ln (Rs + sqrt (Rs ^ 2 + r ^ 2)))) r
        (- co * (r / sqrt (Rs ^ 2 + r ^ 2) - r / sqrt (Rc ^ 2 + r ^ 2) + Rc * r / (sqrt (Rc ^ 2 + r ^ 2) * (Rc + sqrt (Rc ^ 2 + r ^ 2))) - Rs * r / (sqrt (Rs ^ 2 + r ^ 2) * (Rs + sqrt (Rs ^ 2 + r ^ 2)))))).
      { apply (is_derive_scal (fun r => sqrt (Rs ^ 2 + r ^ 2) - sqrt (Rc ^ 2 + r ^ 2) + Rc * ln (Rc + sqrt (Rc ^ 2 + r ^ 2)) - Rs * ln (Rs + sqrt (Rs ^ 2 + r ^ 2)))).
        apply (is_derive_minus (fun r => sqrt (Rs ^ 2 + r ^ 2) - sqrt (Rc ^ 2 + r ^ 2) + Rc * ln (Rc + sqrt (Rc ^ 2 + r ^ 2)))); [|apply d_log, HRs].
        apply (is_derive_plus (fun r => sqrt (Rs ^ 2 + r ^ 2) - sqrt (Rc ^ 2 + r ^ 2))); [|apply d_log, HRc].
        apply (is_derive_minus (fun r => sqrt (Rs ^ 2 + r ^ 2))); apply d_hyp; assumption. }
      assert (P1 := hyp_pos Rc r HRc). assert (P2 := hyp_pos Rs r HRs).
      match type of D with is_derive _ _ ?v => replace (A r) with v; [exact D|] end.
      unfold A, pull. field. repeat split; solve [assumption|lra].
    + set (r := sqrt (X ^ 2 + Y ^ 2)) in *. unfold A. apply (is_derive_scal (fun r => pull Rc r - pull Rs r)). apply (is_derive_minus (pull Rc) (pull Rs)); apply d_pull; assumption.
    + assert (Q : sqrt (X ^ 2 + Y ^ 2) ^ 2 = X ^ 2 + Y ^ 2) by (apply sqrt_sq2; apply Rplus_le_le_0_compat; apply pow2_ge_0). unfold kap. rewrite Rplus_0_r, <- Q. set (r := sqrt (X ^ 2 + Y ^ 2)) in *.
      assert (C1 := pull_curv Rc r HRc ltac:(lra)). assert (C2 := pull_curv Rs r HRs ltac:(lra)). rewrite <- C1, <- C2. unfold A, co. rewrite !(sqrt_pow2 r) by lra. generalize (pull Rc r), (pull Rs r). intros p1 p2. field.
      assert (P1 := hyp_pos Rc r HRc). assert (P2 := hyp_pos Rs r HRs). repeat split; solve [assumption|lra].
Qed.
(** the enclosed mass *)
Lemma mass_derive (r : R) : is_derive (fun r => mass_enclosed_2d_pseudo_jaffe r mass Rc Rs 0) r
   (2 * PI * r * (convergence_pseudo_jaffe 0 0 mass Rc Rs r 0 d_l sigma_cr 0 * sigma_cr * (d_l * arcsec_to_rad) ^ 2)).
Proof.
  assert (GN := gap_nz).
  assert (P1 := hyp_pos Rc r HRc). assert (P2 := hyp_pos Rs r HRs). assert (S := scr_pos). assert (P := PI_RGT_0). assert (AR := arcsec_to_rad_pos).
  unfold mass_enclosed_2d_pseudo_jaffe, convergence_pseudo_jaffe, convergence_0_pseudo_jaffe. cbn [translate_rotate]. cbv zeta.
  replace ((r - 0) ^ 2 + (0 - 0) ^ 2 + 0) with (r ^ 2) by ring.
  assert (D : is_derive (fun r => mass / (Rs - Rc) * (sqrt (Rc ^ 2 + r ^ 2) - sqrt (Rs ^ 2 + r ^ 2)) + mass) r (mass / (Rs - Rc) * (r / sqrt (Rc ^ 2 + r ^ 2) - r / sqrt (Rs ^ 2 + r ^ 2)))).
  { replace (mass / (Rs - Rc) * (r / sqrt (Rc ^ 2 + r ^ 2) - r / sqrt (Rs ^ 2 + r ^ 2))) with (mass / (Rs - Rc) * (r / sqrt (Rc ^ 2 + r ^ 2) - r / sqrt (Rs ^ 2 + r ^ 2)) + 0) by ring.
    apply (is_derive_plus (fun r => mass / (Rs - Rc) * (sqrt (Rc ^ 2 + r ^ 2) - sqrt (Rs ^ 2 + r ^ 2))) (fun _ => mass)); [|apply (is_derive_const (K := R_AbsRing) (V := R_NormedModule))].
    apply (is_derive_scal (fun r => sqrt (Rc ^ 2 + r ^ 2) - sqrt (Rs ^ 2 + r ^ 2))). apply (is_derive_minus (fun r => sqrt (Rc ^ 2 + r ^ 2))); apply d_hyp; assumption. }
  match goal with |- is_derive _ _ ?v => replace v with (mass / (Rs - Rc) * (r / sqrt (Rc ^ 2 + r ^ 2) - r / sqrt (Rs ^ 2 + r ^ 2))) end.
  - eapply is_derive_ext; [|exact D]. intros t. match goal with |- @eq _ ?a ?b => change (@eq R a b) end. cbv beta. rewrite Rplus_0_r. field. solve [assumption|lra].
  - field. repeat split; solve [assumption|lra].
Qed.
Lemma mass_zero : mass_enclosed_2d_pseudo_jaffe 0 mass Rc Rs 0 = 0.
Proof.
  assert (GN := gap_nz).
  unfold mass_enclosed_2d_pseudo_jaffe. cbv zeta. replace (Rc ^ 2 + (0 + 0) ^ 2) with (Rc ^ 2) by ring. replace (Rs ^ 2 + (0 + 0) ^ 2) with (Rs ^ 2) by ring.
  rewrite !sqrt_pow2 by lra. field. solve [assumption|lra].
Qed.
Lemma hyp_gap r : 0 < r -> Rabs (sqrt (Rc ^ 2 + r ^ 2) - sqrt (Rs ^ 2 + r ^ 2)) <= Rabs (Rc ^ 2 - Rs ^ 2) / r.
Proof.
  assert (GN := gap_nz).
  intros Hr. assert (P1 := hyp_pos Rc r HRc). assert (P2 := hyp_pos Rs r HRs). assert (Q1 := hyp_sq Rc r). assert (Q2 := hyp_sq Rs r).
  assert (L : r <= sqrt (Rc ^ 2 + r ^ 2)) by (apply Rsqr_incr_0_var; unfold Rsqr; nra).
  set (a := sqrt (Rc ^ 2 + r ^ 2)) in *. set (b := sqrt (Rs ^ 2 + r ^ 2)) in *.
  replace (Rc ^ 2 - Rs ^ 2) with ((a - b) * (a + b)) by nra. rewrite Rabs_mult, (Rabs_pos_eq (a + b)) by lra.
  apply Rmult_le_reg_r with r; [exact Hr|]. unfold Rdiv. rewrite Rmult_assoc, Rinv_l, Rmult_1_r by lra. apply Rmult_le_compat_l; [apply Rabs_pos|lra].
Qed.
Lemma mass_limit : is_lim (fun r => mass_enclosed_2d_pseudo_jaffe r mass Rc Rs 0) p_infty mass.
Proof.
  assert (GN := gap_nz).
  assert (L0 : is_lim (fun r => sqrt (Rc ^ 2 + r ^ 2) - sqrt (Rs ^ 2 + r ^ 2)) p_infty 0).
  { apply is_lim_spec. intros eps. exists (Rmax 1 (Rabs (Rc ^ 2 - Rs ^ 2) / eps)). intros r Hr. rewrite Rminus_0_r.
    assert (H1 : 1 < r) by (eapply Rle_lt_trans; [apply Rmax_l|exact Hr]). assert (H2 : Rabs (Rc ^ 2 - Rs ^ 2) / eps < r) by (eapply Rle_lt_trans; [apply Rmax_r|exact Hr]).
    eapply Rle_lt_trans; [apply hyp_gap; lra|]. assert (E := cond_pos eps). apply Rmult_lt_reg_r with r; [lra|]. unfold Rdiv. rewrite Rmult_assoc, Rinv_l, Rmult_1_r by lra.
    apply Rmult_lt_compat_r with (r := eps) in H2; [|exact E]. unfold Rdiv in H2. rewrite Rmult_assoc, Rinv_l, Rmult_1_r in H2 by lra. lra. }
  assert (L1 : is_lim (fun r => (sqrt (Rc ^ 2 + r ^ 2) - sqrt (Rs ^ 2 + r ^ 2)) * (mass / (Rs - Rc)) + mass) p_infty (0 * (mass / (Rs - Rc)) + mass)).
  { apply (is_lim_plus' (fun r => (sqrt (Rc ^ 2 + r ^ 2) - sqrt (Rs ^ 2 + r ^ 2)) * (mass / (Rs - Rc))) (fun _ => mass)); [|apply is_lim_const].
    apply (is_lim_scal_r (fun r => sqrt (Rc ^ 2 + r ^ 2) - sqrt (Rs ^ 2 + r ^ 2)) (mass / (Rs - Rc)) p_infty 0), L0. }
  replace (Finite mass) with (Finite (0 * (mass / (Rs - Rc)) + mass)) by (f_equal; ring). eapply is_lim_ext; [|exact L1]. intros r. unfold mass_enclosed_2d_pseudo_jaffe. cbv zeta beta. rewrite Rplus_0_r. field. solve [assumption|lra].
Qed.
(** the deflection is that of the enclosed mass *)
Lemma deflection_mass x0 y0 x y : x <> x0 \/ y <> y0 -> let r := sqrt ((x - x0) ^ 2 + (y - y0) ^ 2) in
  let a := mass_enclosed_2d_pseudo_jaffe r mass Rc Rs 0 / (PI * r * sigma_cr * (d_l * arcsec_to_rad) ^ 2) in
  reduced_deflection_angle_pseudo_jaffe x0 y0 mass Rc Rs x y d_l sigma_cr 0 = (a * ((x - x0) / r), a * ((y - y0) / r)).
Proof.
  assert (GN := gap_nz).
  intros Hxy. assert (H : x - x0 <> 0 \/ y - y0 <> 0) by (destruct Hxy; [left|right]; lra). assert (Rp := norm_pos _ _ H). cbv zeta.
  unfold reduced_deflection_angle_pseudo_jaffe. cbn [translate_rotate]. cbv zeta. rewrite Rplus_0_r. set (r := sqrt (_ + _)) in *.
  replace (r / (Rs * (1 + sqrt (1 + (r / Rs) ^ 2)))) with (r / Rs / (1 + sqrt (1 + (r / Rs) ^ 2))) by (assert (0 <= sqrt (1 + (r / Rs) ^ 2)) by apply sqrt_pos; field; split; lra).
  rewrite !pull_alt, !pull_mass by lra. unfold mass_enclosed_2d_pseudo_jaffe, convergence_0_pseudo_jaffe. cbv zeta. rewrite Rplus_0_r.
  assert (P1 := hyp_pos Rc r HRc). assert (P2 := hyp_pos Rs r HRs). assert (S := scr_pos). assert (P := PI_RGT_0). assert (AR := arcsec_to_rad_pos).
  apply (f_equal2 pair); field; repeat split; solve [assumption|lra].
Qed.
Lemma central x0 y0 : convergence_pseudo_jaffe x0 y0 mass Rc Rs x0 y0 d_l sigma_cr 0 = k0.
Proof.
  assert (GN := gap_nz).
  unfold convergence_pseudo_jaffe. cbn [translate_rotate]. cbv zeta. replace ((x0 - x0) ^ 2 + (y0 - y0) ^ 2 + 0) with 0 by ring. rewrite !Rplus_0_r, !sqrt_pow2 by lra.
  fold k0. field. repeat split; solve [assumption|lra].
Qed.
End Jaffe.
