From Coq Require Import Reals Lra.
From Coquelicot Require Import Coquelicot.
From Verif Require Import Calc2 RealFun Geo_Model Const_Model Lens_Spec Lens_Lib LensBasic_Model.
Open Scope R_scope.

(** ** frames *)
Lemma derotate_inverse vx vy p :
  (let '(a, b) := derotate vx vy (Some p) in derotate a b (Some (- p))) = (vx, vy).
Proof.
  simpl. rewrite cos_neg, sin_neg.
  assert (H : cos p * cos p + sin p * sin p = 1) by (generalize (sin2_cos2 p); unfold Rsqr; lra).
  f_equal.
  - transitivity (vx * (cos p * cos p + sin p * sin p)); [ring|rewrite H; ring].
  - transitivity (vy * (cos p * cos p + sin p * sin p)); [ring|rewrite H; ring].
Qed.

(** ** mass sheet *)
Lemma mass_sheet_consistent x0 y0 kappa x y :
  lens_consistent (potential_mass_sheet x0 y0 kappa)
    (reduced_deflection_angle_mass_sheet x0 y0 kappa) (fun u _ => convergence_mass_sheet kappa u) x y.
Proof.
  apply (lens_consistent_shifted (fun x y => kappa / 2 * (x ^ 2 + y ^ 2))
           (fun x y => (x * kappa, y * kappa)) (fun _ _ => kappa * 1)).
  split.
  - unfold deflection_is_gradient; cbn [fst snd]. d2; field.
  - do 4 eexists. cbn [fst snd]. split; [d2; reflexivity|split; [d2; reflexivity|split]]; cbv beta; field.
Qed.

(** ** external shear *)
Lemma external_shear_consistent x0 y0 g1 g2 x y :
  lens_consistent (potential_external_shear x0 y0 g1 g2)
    (reduced_deflection_angle_external_shear x0 y0 g1 g2) convergence_external_shear x y.
Proof.
  apply (lens_consistent_shifted (fun x y => / 2 * g1 * (x ^ 2 - y ^ 2) + g2 * x * y)
           (fun x y => (g1 * x + g2 * y, g2 * x - g1 * y)) (fun _ _ => 0)).
  split.
  - unfold deflection_is_gradient; cbn [fst snd]. d2; field.
  - do 4 eexists. cbn [fst snd]. split; [d2; reflexivity|split; [d2; reflexivity|split]]; cbv beta; field.
Qed.

Lemma external_shear_rotation x0 y0 g p x y :
  reduced_deflection_angle_external_shear x0 y0 (gamma_phi_to_gamma1 g p) (gamma_phi_to_gamma2 g p) x y
  = (let '(a, b) := translate_rotate x y x0 y0 (Some p) in derotate (g * a) (- g * b) (Some p)).
Proof.
  unfold reduced_deflection_angle_external_shear, gamma_phi_to_gamma1, gamma_phi_to_gamma2,
    translate_rotate, derotate.
  rewrite cos_2a, sin_2a. f_equal; ring.
Qed.

(** ** SIS *)
Lemma sis_consistent x0 y0 Rein x y : (x <> x0 \/ y <> y0) ->
  lens_consistent (potential_sis x0 y0 Rein 0) (reduced_deflection_angle_sis x0 y0 Rein 0)
    (convergence_sis x0 y0 Rein 0) x y.
Proof.
  intros H.
  assert (H' : x - x0 <> 0 \/ y - y0 <> 0) by (destruct H; [left|right]; lra).
  assert (Hr := norm_pos _ _ H').
  eapply lens_consistent_ext; [ | | |
    apply (lens_consistent_shifted (fun x y => Rein * sqrt (x ^ 2 + y ^ 2))
           (fun x y => let r := sqrt (x ^ 2 + y ^ 2) in (Rein * x / r, Rein * y / r))
           (fun x y => / 2 * Rein / sqrt (x ^ 2 + y ^ 2)))].
  - intros u v; unfold shifted, potential_sis, translate_rotate. rewrite Rplus_0_r; reflexivity.
  - intros u v; unfold shifted_alpha, reduced_deflection_angle_sis, translate_rotate.
    rewrite Rplus_0_r; reflexivity.
  - unfold shifted, convergence_sis, translate_rotate. rewrite Rplus_0_r; reflexivity.
  - apply (lens_consistent_radial (fun r => Rein * r) (fun _ => Rein) 0); [exact H'| | |].
    + auto_derive; trivial; ring.
    + auto_derive; trivial; ring.
    + field; lra.
Qed.

Lemma sis_deflection_norm x0 y0 Rein x y : (x <> x0 \/ y <> y0) -> 0 <= Rein ->
  let a := reduced_deflection_angle_sis x0 y0 Rein 0 x y in
  sqrt (fst a ^ 2 + snd a ^ 2) = Rein.
Proof.
  intros H HR a.
  assert (H' : x - x0 <> 0 \/ y - y0 <> 0) by (destruct H; [left|right]; lra).
  assert (Hr := norm_pos _ _ H'). assert (H2 := norm2_pos _ _ H').
  assert (E := sqrt_sq2 _ (Rlt_le _ _ H2)).
  unfold a, reduced_deflection_angle_sis, translate_rotate; cbn [fst snd].
  rewrite Rplus_0_r. set (r := sqrt _) in *.
  replace ((Rein * (x - x0) / r) ^ 2 + (Rein * (y - y0) / r) ^ 2)
    with (Rein ^ 2 * (((x - x0) ^ 2 + (y - y0) ^ 2) / r ^ 2)) by (field; lra).
  rewrite <- E. replace (r ^ 2 / r ^ 2) with 1 by (field; lra).
  rewrite Rmult_1_r. apply sqrt_pow2, HR.
Qed.

(** ** Point *)
Lemma point_consistent x0 y0 Rein x y k : convergence_point x0 y0 x y = Some k ->
  lens_consistent (potential_point x0 y0 Rein 0) (reduced_deflection_angle_point x0 y0 Rein 0)
    (fun _ _ => k) x y.
Proof.
  unfold convergence_point, translate_rotate. intros Hk.
  assert (H' : (x - x0 <> 0 \/ y - y0 <> 0) /\ k = 0).
  { destruct (Req_EM_T (x - x0) 0); [destruct (Req_EM_T (y - y0) 0)|]; try discriminate;
      injection Hk as <-; auto. }
  clear Hk; destruct H' as [H' ->].
  assert (Hr := norm_pos _ _ H').
  eapply (lens_consistent_ext_loc (shifted (fun x y => Rein ^ 2 * ln (sqrt (x ^ 2 + y ^ 2))) x0 y0)
           (shifted_alpha (fun x y => let r := sqrt (x ^ 2 + y ^ 2) in (Rein ^ 2 / r * x / r, Rein ^ 2 / r * y / r)) x0 y0)
           (shifted (fun _ _ => 0) x0 y0)).
  - apply locally_2d_forall; intros u v; unfold shifted, potential_point, translate_rotate.
    rewrite Rplus_0_r; reflexivity.
  - eapply locally_2d_impl.
    2:{ eapply (D2_locally_gt (fun u v => sqrt ((u - x0) ^ 2 + (v - y0) ^ 2)) x y).
        - apply (D2_shift (fun u v => sqrt (u ^ 2 + v ^ 2))), D2_norm, H'.
        - exact Hr. }
    apply locally_2d_forall; intros u v Hp.
    unfold shifted_alpha, reduced_deflection_angle_point, translate_rotate.
    rewrite Rplus_0_r. cbv zeta. f_equal; field; lra.
  - reflexivity.
  - apply lens_consistent_shifted.
    apply (lens_consistent_radial (fun r => Rein ^ 2 * ln r) (fun r => Rein ^ 2 / r)
             (- Rein ^ 2 / (sqrt ((x - x0) ^ 2 + (y - y0) ^ 2)) ^ 2)); [exact H'| | |].
    + auto_derive; [exact Hr | field; lra].
    + auto_derive; [lra | field; lra].
    + field; lra.
Qed.

Lemma convergence_point_centre x0 y0 x y :
  convergence_point x0 y0 x y = None <-> (x = x0 /\ y = y0).
Proof.
  unfold convergence_point, translate_rotate.
  destruct (Req_EM_T (x - x0) 0); [destruct (Req_EM_T (y - y0) 0)|]; split; intros H;
    try discriminate; try reflexivity; try split; lra.
Qed.

Lemma point_ring x0 y0 Rein x y : 0 < Rein -> sqrt ((x - x0) ^ 2 + (y - y0) ^ 2) = Rein ->
  let a := reduced_deflection_angle_point x0 y0 Rein 0 x y in
  (x - fst a, y - snd a) = (x0, y0).
Proof.
  intros HR Hr a. unfold a, reduced_deflection_angle_point, translate_rotate; cbn [fst snd].
  rewrite Rplus_0_r, Hr. f_equal; field; lra.
Qed.

Lemma mass_rein_point M dls dl ds : 0 <= M -> 0 < dls -> 0 < dl -> 0 < ds ->
  rein_to_mass_point (mass_to_rein_point M dls dl ds) dls dl ds = M.
Proof.
  intros HM H1 H2 H3. unfold rein_to_mass_point, mass_to_rein_point.
  assert (Ha := rad_to_arcsec_pos). assert (HG := G_over_c2_pos).
  replace (rad_to_arcsec * sqrt (4 * G_over_c2 * M * dls / (dl * ds)) / rad_to_arcsec)
    with (sqrt (4 * G_over_c2 * M * dls / (dl * ds))) by (field; lra).
  rewrite sqrt_sq2.
  - field; lra.
  - unfold Rdiv; apply Rmult_le_pos.
    + apply Rmult_le_pos; [apply Rmult_le_pos; [lra|exact HM]|lra].
    + left; apply Rinv_0_lt_compat, Rmult_lt_0_compat; assumption.
Qed.

Lemma rein_mass_point r dls dl ds : 0 <= r -> 0 < dls -> 0 < dl -> 0 < ds ->
  mass_to_rein_point (rein_to_mass_point r dls dl ds) dls dl ds = r.
Proof.
  intros Hr H1 H2 H3. unfold rein_to_mass_point, mass_to_rein_point.
  assert (Ha := rad_to_arcsec_pos). assert (HG := G_over_c2_pos).
  replace (4 * G_over_c2 * ((r / rad_to_arcsec) ^ 2 * dl * ds / (4 * G_over_c2 * dls)) * dls / (dl * ds))
    with ((r / rad_to_arcsec) ^ 2) by (field; lra).
  rewrite sqrt_pow2.
  - field; lra.
  - unfold Rdiv; apply Rmult_le_pos; [exact Hr | left; apply Rinv_0_lt_compat, Ha].
Qed.

(** ** SIE *)
Section SIE.
Variables (q Rein s : R).
Hypothesis Hq : 0 < q < 1.
Hypothesis Hs : 0 <= s.

Let f := sqrt (1 - q ^ 2).
Let K := Rein * sqrt q / f.
Let psi (x y : R) := sqrt (q ^ 2 * (x ^ 2 + s ^ 2) + y ^ 2).
Let D (x y : R) := (psi x y + s) ^ 2 + (1 - q ^ 2) * x ^ 2.
Let ax (x y : R) := K * atan (f * x / (psi x y + s)).
Let ay (x y : R) := K * atanh (f * y / (psi x y + q ^ 2 * s)).

Lemma sie_f_pos : 0 < f.
Proof. apply sqrt_lt_R0; nra. Qed.
Lemma sie_f2 : f ^ 2 = 1 - q ^ 2.
Proof. apply sqrt_sq2; nra. Qed.

Variables (x y : R).
Hypothesis H0 : x <> 0 \/ y <> 0 \/ 0 < s.

Lemma sie_psi2_pos : 0 < q ^ 2 * (x ^ 2 + s ^ 2) + y ^ 2.
Proof.
  assert (0 < q ^ 2) by nra. pose proof (sq_ge0 x). pose proof (sq_ge0 y). pose proof (sq_ge0 s).
  destruct H0 as [Hn|[Hn|Hn]].
  - assert (0 < x ^ 2) by (rewrite <- Rsqr_pow2; apply Rsqr_pos_lt, Hn). nra.
  - assert (0 < y ^ 2) by (rewrite <- Rsqr_pow2; apply Rsqr_pos_lt, Hn). nra.
  - assert (0 < s ^ 2) by nra. nra.
Qed.
Lemma sie_psi_pos : 0 < psi x y.
Proof. apply sqrt_lt_R0, sie_psi2_pos. Qed.
Lemma sie_psi_sq : psi x y ^ 2 = q ^ 2 * (x ^ 2 + s ^ 2) + y ^ 2.
Proof. apply sqrt_sq2; left; apply sie_psi2_pos. Qed.
Lemma sie_D_pos : 0 < D x y.
Proof.
  unfold D. pose proof sie_psi_pos. pose proof (sq_ge0 x). 
  assert (0 < 1 - q ^ 2) by nra. assert (0 < (psi x y + s) ^ 2) by (apply pow_lt; lra). nra.
Qed.
Lemma sie_E : (psi x y + q ^ 2 * s) ^ 2 - f ^ 2 * y ^ 2 = q ^ 2 * D x y.
Proof.
  unfold D. rewrite sie_f2.
  assert (H := sie_psi_sq).
  replace (y ^ 2) with (psi x y ^ 2 - q ^ 2 * (x ^ 2 + s ^ 2)) by lra. ring.
Qed.

Lemma sie_D2_psi : D2 psi x y (q ^ 2 * x / psi x y) (y / psi x y).
Proof.
  assert (Hp := sie_psi_pos). unfold psi. 
  pose proof sie_psi2_pos.
  d2; fold (psi x y); field; lra.
Qed.

Lemma sie_D2_ax : D2 ax x y (K * f * (psi x y + s - q ^ 2 * x ^ 2 / psi x y) / D x y)
                          (- K * f * x * y / psi x y / D x y).
Proof.
  assert (Hp := sie_psi_pos). assert (HD := sie_D_pos). assert (HP := sie_D2_psi).
  assert (Hf2 := sie_f2). assert (Hf := sie_f_pos).
  assert (HDe : D x y = (psi x y + s) ^ 2 + f ^ 2 * x ^ 2) by (rewrite Hf2; reflexivity).
  unfold ax. eapply D2_eq.
  - apply D2_scal. apply (D2_atan (fun u v => f * u / (psi u v + s))).
    apply (D2_div (fun u _ => f * u) (fun u v => psi u v + s)); [lra| |].
    + apply D2_scal, D2_fst.
    + apply D2_plus; [exact HP | apply D2_const].
  - cbv beta. rewrite HDe. field. rewrite HDe in HD. repeat split; nra.
  - cbv beta. rewrite HDe. field. rewrite HDe in HD. repeat split; nra.
Qed.

Lemma sie_w_bound : -1 < f * y / (psi x y + q ^ 2 * s) < 1.
Proof.
  assert (Hp := sie_psi_pos). assert (HD := sie_D_pos). assert (HE := sie_E).
  set (P := psi x y + q ^ 2 * s) in *.
  assert (HP : 0 < P) by (unfold P; nra).
  assert (Hlt : (f * y) ^ 2 < P ^ 2).
  { rewrite Rpow_mult_distr. assert (0 < q ^ 2 * D x y) by (apply Rmult_lt_0_compat; [nra|exact HD]). lra. }
  set (z := f * y) in *.
  assert (Hab : - P < z < P) by (split; apply Rnot_le_lt; intro; nra).
  split; apply Rmult_lt_reg_r with P; try exact HP; unfold Rdiv; rewrite ?Rmult_assoc, ?Rinv_l by lra; lra.
Qed.

Lemma sie_D2_ay : D2 ay x y (- K * f * x * y / psi x y / D x y)
                          (K * f * (psi x y + q ^ 2 * s - y ^ 2 / psi x y) / (q ^ 2 * D x y)).
Proof.
  assert (Hp := sie_psi_pos). assert (HD := sie_D_pos). assert (HP := sie_D2_psi).
  assert (Hf2 := sie_f2). assert (Hf := sie_f_pos). assert (HE := sie_E).
  assert (Hq2 : 0 < q ^ 2) by nra.
  assert (HN : 0 < (psi x y + q ^ 2 * s) ^ 2 - f ^ 2 * y ^ 2) by (rewrite HE; nra).
  assert (HDe : D x y = ((psi x y + q ^ 2 * s) ^ 2 - f ^ 2 * y ^ 2) / q ^ 2) by (rewrite HE; field; lra).
  unfold ay. eapply D2_eq.
  - apply D2_scal. apply (D2_comp1 atanh (fun u v => f * v / (psi u v + q ^ 2 * s))).
    + apply is_derive_atanh, sie_w_bound.
    + apply (D2_div (fun _ v => f * v) (fun u v => psi u v + q ^ 2 * s)); [nra| |].
      * apply D2_scal, D2_snd.
      * apply D2_plus; [exact HP | apply D2_const].
  - cbv beta. rewrite HDe. field. repeat split; nra.
  - cbv beta. rewrite HDe. field. repeat split; nra.
Qed.

Let mx := Rmax s (1 / 10 ^ 6).
Let Psi (x y : R) :=
  x * ax x y + y * ay x y
  - Rein * sqrt q * s * ln (sqrt ((psi x y + mx) ^ 2 + (1 - q ^ 2) * x ^ 2))
  + Rein * sqrt q * s * ln ((1 + q) * mx).

Lemma sie_centred : s = 0 \/ 1 / 10 ^ 6 <= s ->
  lens_consistent Psi (fun x y => (ax x y, ay x y)) (fun x y => / 2 * sqrt q * Rein / psi x y) x y.
Proof.
  intros Hs'.
  assert (Hp := sie_psi_pos). assert (HD := sie_D_pos). assert (HP := sie_D2_psi).
  assert (HX := sie_D2_ax). assert (HY := sie_D2_ay).
  assert (Hf2 := sie_f2). assert (Hf := sie_f_pos). assert (Hpp := sie_psi_sq).
  assert (Hq2 : 0 < q ^ 2) by nra.
  assert (HK : K * f = Rein * sqrt q) by (unfold K; field; lra).
  assert (Hy2 : y ^ 2 = psi x y ^ 2 - q ^ 2 * (x ^ 2 + s ^ 2)) by lra.
  split.
  - unfold deflection_is_gradient; cbn [fst snd].
    assert (HL : D2 (fun u v => Rein * sqrt q * s * ln (sqrt ((psi u v + mx) ^ 2 + (1 - q ^ 2) * u ^ 2))) x y
                  (Rein * sqrt q * s * ((psi x y + s) * (q ^ 2 * x / psi x y) + (1 - q ^ 2) * x) / D x y)
                  (Rein * sqrt q * s * ((psi x y + s) * (y / psi x y)) / D x y)).
    { destruct Hs' as [E|E].
      - apply (D2_ext (fun _ _ => 0)); [intros; rewrite E; ring|].
        eapply D2_eq; [apply D2_const | rewrite E; field; split; lra | rewrite E; field; split; lra].
      - assert (Em : mx = s) by (unfold mx; apply Rmax_left; exact E). rewrite Em.
        assert (HDs := sqrt_lt_R0 _ HD).
        assert (HDs2 : sqrt (D x y) ^ 2 = D x y) by (apply sqrt_sq2; lra).
        eapply D2_eq.
        + apply D2_scal, (D2_ln (fun u v => sqrt ((psi u v + s) ^ 2 + (1 - q ^ 2) * u ^ 2))); [exact HDs|].
          apply (D2_sqrt (fun u v => (psi u v + s) ^ 2 + (1 - q ^ 2) * u ^ 2)); [exact HD|].
          apply D2_plus.
          * apply (D2_sqr (fun u v => psi u v + s)). apply D2_plus; [exact HP | apply D2_const].
          * apply D2_scal. apply (D2_sqr (fun u v => u)), D2_fst.
        + cbv beta. fold (D x y). rewrite <- HDs2 at 3. field. split; lra.
        + cbv beta. fold (D x y). rewrite <- HDs2 at 3. field. split; lra. }
    unfold Psi. eapply D2_eq.
    + apply D2_plus; [|apply D2_const]. apply D2_minus; [|exact HL].
      apply D2_plus; [apply (D2_mult (fun u _ => u) ax) | apply (D2_mult (fun _ v => v) ay)];
        try eassumption; [apply D2_fst | apply D2_snd].
    + cbv beta. rewrite <- HK.
      transitivity (ax x y + (K * f * x / (psi x y * D x y)) *
        ((psi x y * (psi x y + s) - q ^ 2 * x ^ 2) - y ^ 2 - s * ((psi x y + s) * q ^ 2 + (1 - q ^ 2) * psi x y))); 
        [field; split; lra|].
      rewrite Hy2. field. split; lra.
    + cbv beta. rewrite <- HK.
      transitivity (ay x y + (K * f * y / (q ^ 2 * psi x y * D x y)) *
        (- q ^ 2 * x ^ 2 + psi x y * (psi x y + q ^ 2 * s) - y ^ 2 - q ^ 2 * s * (psi x y + s))); 
        [field; repeat split; lra|].
      rewrite Hy2. field. repeat split; lra.
  - do 4 eexists. cbn [fst snd]. split; [exact HX|split; [exact HY|split]].
    + reflexivity.
    + cbv beta.
      transitivity (K * f / (2 * psi x y)); [rewrite HK; field; lra|].
      transitivity (K * f / (2 * psi x y) * (D x y / D x y)); [field; lra|].
      unfold D at 1.
      transitivity (K * f / (2 * psi x y * (q ^ 2 * D x y)) * (q ^ 2 * (psi x y * (psi x y + s) - q ^ 2 * x ^ 2)
          + psi x y * (psi x y + q ^ 2 * s) - y ^ 2)); [|field; repeat split; lra].
      rewrite Hy2. field. repeat split; lra.
Qed.
End SIE.

Lemma sie_consistent x0 y0 q phi Rein s x y :
  0 < q < 1 -> (s = 0 \/ 1 / 10 ^ 6 <= s) -> (x <> x0 \/ y <> y0 \/ 0 < s) ->
  lens_consistent (potential_sie x0 y0 q phi Rein s) (reduced_deflection_angle_sie x0 y0 q phi Rein s)
    (convergence_sie x0 y0 q phi Rein s) x y.
Proof.
  intros Hq Hs H.
  assert (Hs0 : 0 <= s) by (destruct Hs as [->|Hs]; lra).
  assert (Eq : (if Req_EM_T q 1 then q - 1 / 10 ^ 6 else q) = q) by (destruct (Req_EM_T q 1); lra).
  assert (Hcs : cos phi * cos phi + sin phi * sin phi = 1)
    by (generalize (sin2_cos2 phi); unfold Rsqr; lra).
  eapply lens_consistent_ext; [ | | | eapply lens_consistent_framed with (p := phi) (x0 := x0) (y0 := y0)].
  4:{ unfold translate_rotate. apply (sie_centred q Rein s Hq Hs0); [|exact Hs].
      destruct H as [H|[H|H]]; [| |right; right; exact H].
      - destruct (Req_dec ((x - x0) * cos phi + (y - y0) * sin phi) 0) as [E|E]; [|left; exact E].
        destruct (Req_dec ((y - y0) * cos phi - (x - x0) * sin phi) 0) as [E'|E']; [|right; left; exact E'].
        exfalso; apply H.
        assert ((x - x0) * (cos phi * cos phi + sin phi * sin phi) = 0); [|rewrite Hcs in *; lra].
        replace ((x - x0) * (cos phi * cos phi + sin phi * sin phi)) with
          (((x - x0) * cos phi + (y - y0) * sin phi) * cos phi - ((y - y0) * cos phi - (x - x0) * sin phi) * sin phi) by ring.
        rewrite E, E'; ring.
      - destruct (Req_dec ((x - x0) * cos phi + (y - y0) * sin phi) 0) as [E|E]; [|left; exact E].
        destruct (Req_dec ((y - y0) * cos phi - (x - x0) * sin phi) 0) as [E'|E']; [|right; left; exact E'].
        exfalso; apply H.
        assert ((y - y0) * (cos phi * cos phi + sin phi * sin phi) = 0); [|rewrite Hcs in *; lra].
        replace ((y - y0) * (cos phi * cos phi + sin phi * sin phi)) with
          (((x - x0) * cos phi + (y - y0) * sin phi) * sin phi + ((y - y0) * cos phi - (x - x0) * sin phi) * cos phi) by ring.
        rewrite E, E'; ring. }
  - intros u v. unfold potential_sie, framed. 
    unfold reduced_deflection_angle_sie. rewrite Eq. cbv zeta.
    destruct (translate_rotate u v x0 y0 (Some phi)) as [a b].
    match goal with |- context [derotate ?m ?n (Some phi)] =>
      assert (Hd := derotate_inverse m n phi); destruct (derotate m n (Some phi)) as [m' n'] end.
    rewrite Hd. reflexivity.
  - intros u v. unfold framed_alpha, reduced_deflection_angle_sie. rewrite Eq. reflexivity.
  - reflexivity.
Qed.
