From Coq Require Import Reals Lra.
From Coquelicot Require Import Coquelicot.
From Verif Require Import Calc2 RealFun Geo_Model Const_Model Cosmo_Model Lens_Spec Lens_Lib
  LensBasic_Model LensBasic_Proofs.
Open Scope R_scope.

Lemma off_centre x y x0 y0 : (x <> x0 \/ y <> y0) -> x - x0 <> 0 \/ y - y0 <> 0.
Proof. intros [H|H]; [left|right]; lra. Qed.

Lemma sum_sq_zero a b : a ^ 2 + b ^ 2 = 0 -> a = 0 /\ b = 0.
Proof. intros H; apply Rplus_sqr_eq_0; unfold Rsqr; lra. Qed.

(** ** softened SIS and Point *)
Lemma D2_radial (F : R -> R) dF x0 y0 x y : (x <> x0 \/ y <> y0) ->
  let r := sqrt ((x - x0) ^ 2 + (y - y0) ^ 2) in
  is_derive F r dF ->
  D2 (fun u v => F (sqrt ((u - x0) ^ 2 + (v - y0) ^ 2))) x y (dF * ((x - x0) / r)) (dF * ((y - y0) / r)).
Proof.
  intros H r HF.
  apply (D2_shift (fun u v => F (sqrt (u ^ 2 + v ^ 2)))).
  apply (D2_comp1 F (fun u v => sqrt (u ^ 2 + v ^ 2))); [exact HF|].
  apply D2_norm, off_centre, H.
Qed.

Lemma softened_sis_not_gradient x0 y0 Rein s x y :
  0 < s -> Rein <> 0 -> (x <> x0 \/ y <> y0) ->
  ~ deflection_is_gradient (potential_sis x0 y0 Rein s) (reduced_deflection_angle_sis x0 y0 Rein s) x y.
Proof.
  intros Hs HR H Hg. assert (H' := off_centre _ _ _ _ H). assert (Hr := norm_pos _ _ H').
  set (r := sqrt ((x - x0) ^ 2 + (y - y0) ^ 2)) in *.
  assert (G : D2 (potential_sis x0 y0 Rein s) x y (Rein * ((x - x0) / r)) (Rein * ((y - y0) / r))).
  { apply (D2_radial (fun r => Rein * (r + s))); [exact H|]. auto_derive; trivial; ring. }
  destruct (D2_unique _ _ _ _ _ _ _ G Hg) as [A B].
  unfold reduced_deflection_angle_sis, translate_rotate in A, B; cbn [fst snd] in A, B; fold r in A, B.
  assert (Key : forall t, Rein * (t / r) = Rein * t / (r + s) -> t = 0).
  { intros t E. 
    assert (E2 : Rein * t * (r + s) = Rein * t * r).
    { replace (Rein * t * (r + s)) with (Rein * (t / r) * (r * (r + s))) by (field; lra).
      rewrite E. field; lra. }
    assert (Rein * t * s = 0) by lra.
    apply Rmult_integral in H0; destruct H0 as [H0|H0]; [|lra].
    apply Rmult_integral in H0; destruct H0; [contradiction|assumption]. }
  destruct H' as [H'|H']; apply H'; apply Key; assumption.
Qed.

Lemma softened_point_not_gradient x0 y0 Rein s x y :
  0 < s -> Rein <> 0 -> (x <> x0 \/ y <> y0) ->
  ~ deflection_is_gradient (potential_point x0 y0 Rein s) (reduced_deflection_angle_point x0 y0 Rein s) x y.
Proof.
  intros Hs HR H Hg. assert (H' := off_centre _ _ _ _ H). assert (Hr := norm_pos _ _ H').
  set (r := sqrt ((x - x0) ^ 2 + (y - y0) ^ 2)) in *.
  assert (G : D2 (potential_point x0 y0 Rein s) x y (Rein ^ 2 / (r + s) * ((x - x0) / r)) (Rein ^ 2 / (r + s) * ((y - y0) / r))).
  { apply (D2_radial (fun r => Rein ^ 2 * ln (r + s))); [exact H|]. fold r.
    auto_derive; [lra | field; lra]. }
  destruct (D2_unique _ _ _ _ _ _ _ G Hg) as [A B].
  unfold reduced_deflection_angle_point, translate_rotate in A, B; cbn [fst snd] in A, B; fold r in A, B.
  assert (HR2 : Rein ^ 2 <> 0) by (apply pow_nonzero, HR).
  assert (Key : forall t, Rein ^ 2 / (r + s) * (t / r) = t * Rein ^ 2 / (r + s) ^ 2 -> t = 0).
  { intros t E.
    assert (E2 : Rein ^ 2 * t * (r + s) = Rein ^ 2 * t * r).
    { replace (Rein ^ 2 * t * (r + s)) with (Rein ^ 2 / (r + s) * (t / r) * (r * (r + s) ^ 2)) by (field; lra).
      rewrite E. field; lra. }
    assert (H0 : Rein ^ 2 * t * s = 0) by lra.
    apply Rmult_integral in H0; destruct H0 as [H0|H0]; [|lra].
    apply Rmult_integral in H0; destruct H0; [contradiction|assumption]. }
  destruct H' as [H'|H']; apply H'; apply Key; assumption.
Qed.

(** half the divergence of A(r) (x,y)/r off the centre *)
Lemma radial_half_div (A : R -> R) dA (alpha : R -> R -> R * R) kappa x0 y0 x y :
  (x <> x0 \/ y <> y0) ->
  let r := sqrt ((x - x0) ^ 2 + (y - y0) ^ 2) in
  (forall u v, alpha u v = (let r := sqrt ((u - x0) ^ 2 + (v - y0) ^ 2) in
                            (A r * (u - x0) / r, A r * (v - y0) / r))) ->
  is_derive A r dA ->
  convergence_is_half_divergence alpha kappa x y -> kappa x y = (dA + A r / r) / 2.
Proof.
  intros H r Ha HA (axx & axy & ayx & ayy & Hx & Hy & Hc & Hk).
  rewrite Hk. assert (H' := off_centre _ _ _ _ H). assert (Hr := norm_pos _ _ H'). fold r in Hr.
  assert (Hr2 : r ^ 2 = (x - x0) ^ 2 + (y - y0) ^ 2) by (apply sqrt_sq2; pose proof (norm2_pos _ _ H'); lra).
  assert (HN := D2_radial (fun t => t) 1 x0 y0 x y H (is_derive_id _)).
  assert (HAr := D2_radial A dA x0 y0 x y H HA). fold r in HN, HAr. cbv beta in HN.
  assert (Gx : D2 (fun u v => fst (alpha u v)) x y
     (((dA * ((x - x0) / r) * (x - x0) + A r * 1) * r - A r * (x - x0) * (1 * ((x - x0) / r))) / r ^ 2)
     (((dA * ((y - y0) / r) * (x - x0) + A r * 0) * r - A r * (x - x0) * (1 * ((y - y0) / r))) / r ^ 2)).
  { eapply D2_ext; [intros u v; rewrite Ha; cbv zeta; cbn [fst]; reflexivity|].
    apply (D2_div (fun u v => A (sqrt ((u - x0) ^ 2 + (v - y0) ^ 2)) * (u - x0))
                  (fun u v => sqrt ((u - x0) ^ 2 + (v - y0) ^ 2))); [fold r; lra| |exact HN].
    apply (D2_mult (fun u v => A (sqrt ((u - x0) ^ 2 + (v - y0) ^ 2))) (fun u _ => u - x0)); [exact HAr|].
    d2; ring. }
  assert (Gy : D2 (fun u v => snd (alpha u v)) x y
     (((dA * ((x - x0) / r) * (y - y0) + A r * 0) * r - A r * (y - y0) * (1 * ((x - x0) / r))) / r ^ 2)
     (((dA * ((y - y0) / r) * (y - y0) + A r * 1) * r - A r * (y - y0) * (1 * ((y - y0) / r))) / r ^ 2)).
  { eapply D2_ext; [intros u v; rewrite Ha; cbv zeta; cbn [snd]; reflexivity|].
    apply (D2_div (fun u v => A (sqrt ((u - x0) ^ 2 + (v - y0) ^ 2)) * (v - y0))
                  (fun u v => sqrt ((u - x0) ^ 2 + (v - y0) ^ 2))); [fold r; lra| |exact HN].
    apply (D2_mult (fun u v => A (sqrt ((u - x0) ^ 2 + (v - y0) ^ 2))) (fun _ v => v - y0)); [exact HAr|].
    d2; ring. }
  destruct (D2_unique _ _ _ _ _ _ _ Hx Gx) as [-> _].
  destruct (D2_unique _ _ _ _ _ _ _ Hy Gy) as [_ ->].
  transitivity ((dA * r ^ 2 / r ^ 2 + A r / r * (2 - r ^ 2 / r ^ 2)) / 2); [|field; lra].
  rewrite Hr2 at 3 5. field. lra.
Qed.

Lemma softened_sis_wrong_convergence x0 y0 Rein s x y :
  0 < s -> Rein <> 0 -> (x <> x0 \/ y <> y0) ->
  ~ convergence_is_half_divergence (reduced_deflection_angle_sis x0 y0 Rein s) (convergence_sis x0 y0 Rein s) x y.
Proof.
  intros Hs HR H Hc. assert (H' := off_centre _ _ _ _ H). assert (Hr := norm_pos _ _ H').
  set (r := sqrt ((x - x0) ^ 2 + (y - y0) ^ 2)) in *.
  eapply (radial_half_div (fun r => Rein * r / (r + s)) (Rein * s / (r + s) ^ 2)) in Hc; [|exact H| |].
  - unfold convergence_sis, translate_rotate in Hc. fold r in Hc.
    assert (E : Rein * s / (r + s) ^ 2 = 0).
    { replace (Rein * r / (r + s) / r) with (Rein / (r + s)) in Hc by (field; lra).
      replace (/ 2 * Rein / (r + s)) with (Rein / (r + s) / 2) in Hc by (field; lra). lra. }
    assert (E2 : Rein * s = 0).
    { replace (Rein * s) with (Rein * s / (r + s) ^ 2 * (r + s) ^ 2) by (field; lra). rewrite E; ring. }
    apply Rmult_integral in E2; destruct E2; [contradiction|lra].
  - intros u v. unfold reduced_deflection_angle_sis, translate_rotate; cbv zeta.
    set (t := sqrt ((u - x0) ^ 2 + (v - y0) ^ 2)).
    destruct (Req_dec t 0) as [E|E].
    + assert (Huv : (u - x0) ^ 2 + (v - y0) ^ 2 = 0).
      { apply sqrt_eq_0 in E; [exact E|]. pose proof (sq_ge0 (u - x0)); pose proof (sq_ge0 (v - y0)); lra. }
      destruct (sum_sq_zero _ _ Huv) as [A1 A2]. rewrite A1, A2, E. unfold Rdiv. f_equal; ring.
    + assert (0 <= t) by apply sqrt_pos. f_equal; field; lra.
  - fold r. auto_derive; [lra | field; lra].
Qed.

Lemma softened_point_wrong_convergence x0 y0 Rein s x y k :
  0 < s -> Rein <> 0 -> convergence_point x0 y0 x y = Some k ->
  ~ convergence_is_half_divergence (reduced_deflection_angle_point x0 y0 Rein s) (fun _ _ => k) x y.
Proof.
  intros Hs HR Hk Hc.
  assert (H' : (x - x0 <> 0 \/ y - y0 <> 0) /\ k = 0).
  { unfold convergence_point, translate_rotate in Hk.
    destruct (Req_EM_T (x - x0) 0); [destruct (Req_EM_T (y - y0) 0)|]; try discriminate;
      injection Hk as <-; auto. }
  destruct H' as [H' ->].
  assert (H : x <> x0 \/ y <> y0) by (destruct H'; [left|right]; lra).
  assert (Hr := norm_pos _ _ H').
  set (r := sqrt ((x - x0) ^ 2 + (y - y0) ^ 2)) in *.
  eapply (radial_half_div (fun r => Rein ^ 2 * r / (r + s) ^ 2) (Rein ^ 2 * (s - r) / (r + s) ^ 3)) in Hc; [|exact H| |].
  - fold r in Hc.
    assert (HR2 : Rein ^ 2 <> 0) by (apply pow_nonzero, HR).
    assert (E : Rein ^ 2 * (2 * s) = 0).
    { replace (Rein ^ 2 * (2 * s)) with
       ((Rein ^ 2 * (s - r) / (r + s) ^ 3 + Rein ^ 2 * r / (r + s) ^ 2 / r) / 2 * (2 * (r + s) ^ 3)) by (field; lra).
      rewrite <- Hc; ring. }
    apply Rmult_integral in E; destruct E; [contradiction|lra].
  - intros u v. unfold reduced_deflection_angle_point, translate_rotate; cbv zeta.
    set (t := sqrt ((u - x0) ^ 2 + (v - y0) ^ 2)).
    destruct (Req_dec t 0) as [E|E].
    + assert (Huv : (u - x0) ^ 2 + (v - y0) ^ 2 = 0).
      { apply sqrt_eq_0 in E; [exact E|]. pose proof (sq_ge0 (u - x0)); pose proof (sq_ge0 (v - y0)); lra. }
      destruct (sum_sq_zero _ _ Huv) as [A1 A2]. rewrite A1, A2, E. unfold Rdiv. f_equal; ring.
    + assert (0 <= t) by apply sqrt_pos. f_equal; field; lra.
  - fold r. auto_derive; [nra | field; lra].
Qed.

(** ** point mass inside the Einstein radius *)
Lemma einstein_mass_point (cd : R -> R) Rein zl zs :
  0 < 1 + zl -> 0 < 1 + zs -> 0 < cd zl -> cd zl < cd zs ->
  let dl := angular_diameter_distance cd zl in
  let ds := angular_diameter_distance cd zs in
  let dls := angular_diameter_distance_z1z2 cd zl zs in
  rein_to_mass_point Rein dls dl ds = PI * (Rein * arcsec_to_rad * dl) ^ 2 * critical_surface_density cd zl zs.
Proof.
  intros H1 H2 H3 H4 dl ds dls.
  assert (P := PI_RGT_0). assert (HG := G_over_c2_pos). assert (Ha := rad_to_arcsec_pos).
  unfold rein_to_mass_point, critical_surface_density. fold dl ds dls.
  assert (0 < dl) by (apply Rdiv_lt_0_compat; lra).
  assert (0 < dls) by (apply Rdiv_lt_0_compat; unfold comoving_distance_z1z2; lra).
  unfold arcsec_to_rad. field. repeat split; lra.
Qed.

(** ** mass sheet scaling *)
Lemma mass_sheet_raytrace x0 y0 kappa x y :
  let a := reduced_deflection_angle_mass_sheet x0 y0 kappa x y in
  (x - fst a, y - snd a) = (x0 + (1 - kappa) * (x - x0), y0 + (1 - kappa) * (y - y0)).
Proof. simpl. f_equal; ring. Qed.

(** ** SIE symmetries *)
Lemma rotate_pi x y x0 y0 p :
  translate_rotate x y x0 y0 (Some (p + PI)) =
  (let '(a, b) := translate_rotate x y x0 y0 (Some p) in (- a, - b)).
Proof. unfold translate_rotate. rewrite neg_cos, neg_sin. f_equal; ring. Qed.

Lemma atanh_neg w : -1 < w < 1 -> atanh (- w) = - atanh w.
Proof.
  intros [H1 H2]. unfold atanh.
  replace ((1 + - w) / (1 - - w)) with (/ ((1 + w) / (1 - w))) by (field; lra).
  rewrite ln_Rinv; [ring|]. apply Rdiv_lt_0_compat; lra.
Qed.

Lemma rot_nonzero x y x0 y0 phi : (x <> x0 \/ y <> y0) ->
  let '(a, b) := translate_rotate x y x0 y0 (Some phi) in a <> 0 \/ b <> 0.
Proof.
  intros H. unfold translate_rotate.
  assert (Hcs : cos phi * cos phi + sin phi * sin phi = 1)
    by (generalize (sin2_cos2 phi); unfold Rsqr; lra).
  destruct (Req_dec ((x - x0) * cos phi + (y - y0) * sin phi) 0) as [E|E]; [|left; exact E].
  destruct (Req_dec ((y - y0) * cos phi - (x - x0) * sin phi) 0) as [E'|E']; [|right; exact E'].
  exfalso.
  assert (A : (x - x0) * (cos phi * cos phi + sin phi * sin phi) = 0).
  { replace ((x - x0) * (cos phi * cos phi + sin phi * sin phi)) with
      (((x - x0) * cos phi + (y - y0) * sin phi) * cos phi - ((y - y0) * cos phi - (x - x0) * sin phi) * sin phi) by ring.
    rewrite E, E'; ring. }
  assert (B : (y - y0) * (cos phi * cos phi + sin phi * sin phi) = 0).
  { replace ((y - y0) * (cos phi * cos phi + sin phi * sin phi)) with
      (((x - x0) * cos phi + (y - y0) * sin phi) * sin phi + ((y - y0) * cos phi - (x - x0) * sin phi) * cos phi) by ring.
    rewrite E, E'; ring. }
  rewrite Hcs in A, B. destruct H; lra.
Qed.

(** the effective axis ratio used by the deflection *)
Definition sie_q (q : R) : R := if Req_EM_T q 1 then q - 1 / 10 ^ 6 else q.
Lemma sie_q_range q : 0 < q <= 1 -> 0 < sie_q q < 1.
Proof. intros H; unfold sie_q; destruct (Req_EM_T q 1); lra. Qed.

Lemma sie_deflection_phi_pi x0 y0 q phi Rein s x y :
  0 < q <= 1 -> 0 <= s -> (x <> x0 \/ y <> y0 \/ 0 < s) ->
  reduced_deflection_angle_sie x0 y0 q (phi + PI) Rein s x y
  = reduced_deflection_angle_sie x0 y0 q phi Rein s x y.
Proof.
  intros Hq Hs H. unfold reduced_deflection_angle_sie. rewrite rotate_pi.
  fold (sie_q q). assert (Hq' := sie_q_range q Hq). set (q' := sie_q q) in *.
  assert (Hn : let '(a, b) := translate_rotate x y x0 y0 (Some phi) in a <> 0 \/ b <> 0 \/ 0 < s).
  { destruct H as [H|[H|H]].
    - assert (K := rot_nonzero x y x0 y0 phi (or_introl H)).
      destruct (translate_rotate x y x0 y0 (Some phi)); destruct K; auto.
    - assert (K := rot_nonzero x y x0 y0 phi (or_intror H)).
      destruct (translate_rotate x y x0 y0 (Some phi)); destruct K; auto.
    - destruct (translate_rotate x y x0 y0 (Some phi)); auto. }
  destruct (translate_rotate x y x0 y0 (Some phi)) as [a b].
  cbv zeta. replace ((- a) ^ 2) with (a ^ 2) by ring. replace ((- b) ^ 2) with (b ^ 2) by ring.
  assert (Hw := sie_w_bound q' s Hq' Hs a b Hn).
  set (P := sqrt (q' ^ 2 * (a ^ 2 + s ^ 2) + b ^ 2)) in *.
  set (f := sqrt (1 - q' ^ 2)) in *.
  replace (f * - a / (P + s)) with (- (f * a / (P + s))) by (unfold Rdiv; ring).
  replace (f * - b / (P + q' ^ 2 * s)) with (- (f * b / (P + q' ^ 2 * s))) by (unfold Rdiv; ring).
  rewrite atan_opp, atanh_neg by exact Hw.
  unfold derotate. rewrite neg_cos, neg_sin. f_equal; ring.
Qed.

Lemma derotate_neg_pi a b p :
  derotate a b (Some (- (p + PI))) = (let '(m, n) := derotate a b (Some (- p)) in (- m, - n)).
Proof.
  unfold derotate. rewrite !cos_neg, !sin_neg, neg_cos, neg_sin. f_equal; ring.
Qed.

Lemma sie_potential_phi_pi x0 y0 q phi Rein s x y :
  0 < q <= 1 -> 0 <= s -> (x <> x0 \/ y <> y0 \/ 0 < s) ->
  potential_sie x0 y0 q (phi + PI) Rein s x y = potential_sie x0 y0 q phi Rein s x y.
Proof.
  intros Hq Hs H. unfold potential_sie. rewrite sie_deflection_phi_pi by assumption.
  destruct (reduced_deflection_angle_sie x0 y0 q phi Rein s x y) as [ax ay].
  rewrite derotate_neg_pi, rotate_pi. destruct (derotate ax ay (Some (- phi))) as [m n].
  destruct (translate_rotate x y x0 y0 (Some phi)) as [a b]. cbv zeta.
  replace ((- a) ^ 2) with (a ^ 2) by ring. replace ((- b) ^ 2) with (b ^ 2) by ring. ring.
Qed.

Lemma sie_convergence_phi_pi x0 y0 q phi Rein s x y :
  convergence_sie x0 y0 q (phi + PI) Rein s x y = convergence_sie x0 y0 q phi Rein s x y.
Proof.
  unfold convergence_sie. rewrite rotate_pi.
  destruct (translate_rotate x y x0 y0 (Some phi)) as [a b]. cbv zeta.
  replace ((- a) ^ 2) with (a ^ 2) by ring. replace ((- b) ^ 2) with (b ^ 2) by ring. reflexivity.
Qed.

Lemma sie_isodensity x0 y0 q phi Rein s x y x' y' :
  0 < q -> 0 < Rein -> (x <> x0 \/ y <> y0) -> (x' <> x0 \/ y' <> y0) ->
  (convergence_sie x0 y0 q phi Rein s x y = convergence_sie x0 y0 q phi Rein s x' y' <->
   (let '(a, b) := translate_rotate x y x0 y0 (Some phi) in
    let '(a', b') := translate_rotate x' y' x0 y0 (Some phi) in
    a ^ 2 + (b / q) ^ 2 = a' ^ 2 + (b' / q) ^ 2)).
Proof.
  intros Hq HR H H'. unfold convergence_sie.
  assert (K := rot_nonzero x y x0 y0 phi H). assert (K' := rot_nonzero x' y' x0 y0 phi H').
  destruct (translate_rotate x y x0 y0 (Some phi)) as [a b].
  destruct (translate_rotate x' y' x0 y0 (Some phi)) as [a' b']. cbv zeta.
  assert (Pos : forall u v, u <> 0 \/ v <> 0 -> 0 < q ^ 2 * (u ^ 2 + s ^ 2) + v ^ 2).
  { intros u v Huv. assert (0 < q ^ 2) by (apply pow_lt, Hq).
    pose proof (sq_ge0 u). pose proof (sq_ge0 v). pose proof (sq_ge0 s).
    destruct Huv as [Hu|Hu].
    - assert (0 < u ^ 2) by (rewrite <- Rsqr_pow2; apply Rsqr_pos_lt, Hu). nra.
    - assert (0 < v ^ 2) by (rewrite <- Rsqr_pow2; apply Rsqr_pos_lt, Hu). nra. }
  assert (P1 := Pos _ _ K). assert (P2 := Pos _ _ K').
  assert (S1 := sqrt_lt_R0 _ P1). assert (S2 := sqrt_lt_R0 _ P2).
  assert (Eq : forall u v, u ^ 2 + (v / q) ^ 2 = (q ^ 2 * (u ^ 2 + s ^ 2) + v ^ 2) / q ^ 2 - s ^ 2)
    by (intros; field; lra).
  rewrite !Eq.
  assert (Hsq := sqrt_lt_R0 _ Hq).
  split; intros E.
  - assert (sqrt (q ^ 2 * (a ^ 2 + s ^ 2) + b ^ 2) = sqrt (q ^ 2 * (a' ^ 2 + s ^ 2) + b' ^ 2)) as E2.
    { set (p1 := sqrt _) in E, S1 |- *. set (p2 := sqrt (q ^ 2 * (a' ^ 2 + s ^ 2) + b' ^ 2)) in *.
      assert (0 < / 2 * sqrt q * Rein) by (apply Rmult_lt_0_compat; [lra|exact HR]).
      apply Rmult_eq_reg_l with (/ 2 * sqrt q * Rein); [|lra].
      replace (/ 2 * sqrt q * Rein * p1) with ((/ 2 * sqrt q * Rein / p2) * (p1 * p2)) by (field; lra).
      rewrite <- E. field. lra. }
    apply sqrt_inj in E2; [rewrite E2; reflexivity|lra|lra].
  - assert (E2 : q ^ 2 * (a ^ 2 + s ^ 2) + b ^ 2 = q ^ 2 * (a' ^ 2 + s ^ 2) + b' ^ 2).
    { set (m := q ^ 2 * (a ^ 2 + s ^ 2) + b ^ 2) in *. set (n := q ^ 2 * (a' ^ 2 + s ^ 2) + b' ^ 2) in *.
      assert (m / q ^ 2 = n / q ^ 2) by lra.
      replace m with (m / q ^ 2 * q ^ 2) by (field; lra). rewrite H0. field; lra. }
    rewrite E2; reflexivity.
Qed.

(** the convergence is 1/2 exactly on the ellipse of semi-axes Rein/sqrt q (along phi) and Rein sqrt q *)
Lemma sie_half_contour x0 y0 q phi Rein x y :
  0 < q -> 0 < Rein -> (x <> x0 \/ y <> y0) ->
  (convergence_sie x0 y0 q phi Rein 0 x y = 1 / 2 <->
   (let '(a, b) := translate_rotate x y x0 y0 (Some phi) in
    (a / (Rein / sqrt q)) ^ 2 + (b / (Rein * sqrt q)) ^ 2 = 1)).
Proof.
  intros Hq HR H. unfold convergence_sie.
  assert (K := rot_nonzero x y x0 y0 phi H).
  destruct (translate_rotate x y x0 y0 (Some phi)) as [a b]. cbv zeta.
  assert (Hsq := sqrt_lt_R0 _ Hq). assert (Hsq2 := sqrt_sq2 q (Rlt_le _ _ Hq)).
  replace (a ^ 2 + 0 ^ 2) with (a ^ 2) by ring.
  assert (P1 : 0 < q ^ 2 * a ^ 2 + b ^ 2).
  { replace (q ^ 2 * a ^ 2) with ((q * a) ^ 2) by ring. apply norm2_pos.
    destruct K as [K|K]; [left; apply Rmult_integral_contrapositive_currified; lra|right; exact K]. }
  assert (S1 := sqrt_lt_R0 _ P1). assert (S2 := sqrt_sq2 _ (Rlt_le _ _ P1)).
  set (t := sqrt q) in *. set (p := sqrt (q ^ 2 * a ^ 2 + b ^ 2)) in *.
  replace ((a / (Rein / t)) ^ 2 + (b / (Rein * t)) ^ 2) with (p ^ 2 / (t ^ 2 * Rein ^ 2)).
  2:{ rewrite S2, <- Hsq2. field. lra. }
  split; intros E.
  - assert (p = t * Rein).
    { replace p with (t * Rein / (2 * (/ 2 * t * Rein / p))) by (field; lra). rewrite E. field. }
    rewrite H0. field. lra.
  - assert (p ^ 2 = (t * Rein) ^ 2).
    { replace (p ^ 2) with (p ^ 2 / (t ^ 2 * Rein ^ 2) * (t * Rein) ^ 2) by (field; lra). rewrite E; ring. }
    assert (0 < t * Rein) by (apply Rmult_lt_0_compat; lra).
    assert (p = t * Rein) by nra. rewrite H2. field. lra.
Qed.

Lemma sie_homogeneous x0 y0 q phi Rein k x y :
  0 < q <= 1 -> 0 < k -> (x <> x0 \/ y <> y0) ->
  reduced_deflection_angle_sie x0 y0 q phi Rein 0 (x0 + k * (x - x0)) (y0 + k * (y - y0))
  = reduced_deflection_angle_sie x0 y0 q phi Rein 0 x y.
Proof.
  intros Hq Hk H. unfold reduced_deflection_angle_sie. fold (sie_q q).
  assert (Hq' := sie_q_range q Hq). set (q' := sie_q q) in *.
  assert (K := rot_nonzero x y x0 y0 phi H).
  replace (translate_rotate (x0 + k * (x - x0)) (y0 + k * (y - y0)) x0 y0 (Some phi)) with
    (let '(a, b) := translate_rotate x y x0 y0 (Some phi) in (k * a, k * b))
    by (unfold translate_rotate; f_equal; ring).
  destruct (translate_rotate x y x0 y0 (Some phi)) as [a b]. cbv zeta.
  replace (q' ^ 2 * ((k * a) ^ 2 + 0 ^ 2) + (k * b) ^ 2) with (k ^ 2 * (q' ^ 2 * (a ^ 2 + 0 ^ 2) + b ^ 2)) by ring.
  assert (P : 0 < q' ^ 2 * (a ^ 2 + 0 ^ 2) + b ^ 2).
  { replace (q' ^ 2 * (a ^ 2 + 0 ^ 2)) with ((q' * a) ^ 2) by ring. apply norm2_pos.
    destruct K as [K|K]; [left; apply Rmult_integral_contrapositive_currified; lra|right; exact K]. }
  rewrite sqrt_mult_alt by (apply pow2_ge_0). rewrite sqrt_pow2 by lra.
  assert (S := sqrt_lt_R0 _ P). set (p := sqrt (q' ^ 2 * (a ^ 2 + 0 ^ 2) + b ^ 2)) in *.
  set (f := sqrt (1 - q' ^ 2)).
  replace (f * (k * a) / (k * p + 0)) with (f * a / (p + 0)) by (field; lra).
  replace (f * (k * b) / (k * p + q' ^ 2 * 0)) with (f * b / (p + q' ^ 2 * 0)) by (field; lra).
  reflexivity.
Qed.

Lemma sie_potential_euler x0 y0 q phi Rein x y :
  let a := reduced_deflection_angle_sie x0 y0 q phi Rein 0 x y in
  potential_sie x0 y0 q phi Rein 0 x y = (x - x0) * fst a + (y - y0) * snd a.
Proof.
  intros a. unfold potential_sie. fold a. destruct a as [ax ay]. cbn [fst snd].
  unfold derotate, translate_rotate. rewrite cos_neg, sin_neg.
  assert (Hcs : cos phi * cos phi + sin phi * sin phi = 1)
    by (generalize (sin2_cos2 phi); unfold Rsqr; lra).
  rewrite !Rmult_0_r, !Rmult_0_l.
  transitivity (((x - x0) * ax + (y - y0) * ay) * (cos phi * cos phi + sin phi * sin phi)); [ring|rewrite Hcs; ring].
Qed.

Lemma sigma_v_law sigma k dls ds : ds <> 0 ->
  sigma_v_to_rein_sie (k * sigma) dls ds = k ^ 2 * sigma_v_to_rein_sie sigma dls ds /\
  arcsec_to_rad * sigma_v_to_rein_sie sigma dls ds = 4 * PI * (sigma / c_km_s) ^ 2 * (dls / ds).
Proof.
  intros Hd. unfold sigma_v_to_rein_sie, arcsec_to_rad.
  assert (Ha := rad_to_arcsec_pos). assert (Hc := c_km_s_pos).
  split; field; repeat split; lra.
Qed.
