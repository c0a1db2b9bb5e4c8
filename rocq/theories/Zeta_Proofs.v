(** * Proofs for C157: weighing a lens by its shear *)
From Coq Require Import Reals String Lra Psatz.
From Coquelicot Require Import Coquelicot.
From Verif Require Import Py Calc2 RealFun Geo_Model Cosmo_Model LensBase_Model Lens_Spec LensBasic_Model LensBasic_Proofs LensBasic2_Proofs Jaffe_Model Shear_Spec Shear_Proofs Zeta_Spec.
Local Open Scope R_scope.

Lemma reports_unique alpha x y g h : reports_shear alpha x y g -> reports_shear alpha x y h -> g = h.
Proof.
  intros A B. destruct (A (0, 0)%nat (fun _ _ => x) (fun _ _ => y) None 0%nat 0%nat eq_refl eq_refl) as (S & E & F). destruct (B (0, 0)%nat (fun _ _ => x) (fun _ _ => y) None 0%nat 0%nat eq_refl eq_refl) as (S' & E' & F').
  rewrite E in E'. inversion E'; subst S'. rewrite <- F, <- F'. reflexivity.
Qed.
Lemma sc t : sin t ^ 2 + cos t ^ 2 = 1. Proof. assert (H := sin2_cos2 t). unfold Rsqr in H. lra. Qed.
Lemma p_off x0 y0 t r : 0 < r -> px x0 t r <> x0 \/ py y0 t r <> y0.
Proof. intros H. unfold px, py. destruct (Req_dec (cos t) 0) as [C|C]; [right|left]; intros F. - assert (S := sc t). rewrite C in S. assert (sin t = 0) by nra. nra. - apply C. nra. Qed.
Section Ray.
Variables (psi : R -> R -> R) (alpha : R -> R -> R * R) (kappa : R -> R -> R) (x0 y0 t : R).
Hypothesis Rd : deflects_radially alpha x0 y0.
Let kb r := mean_convergence alpha x0 y0 (px x0 t r) (py y0 t r).
Let k r := kappa (px x0 t r) (py y0 t r).
Let F r := cos t * fst (alpha (px x0 t r) (py y0 t r)) + sin t * snd (alpha (px x0 t r) (py y0 t r)).
Lemma kb_F r : 0 < r -> kb r = F r / r.
Proof.
  intros H. unfold kb, mean_convergence, F. set (f := fst _). set (s := snd _). unfold px, py. replace (x0 + r * cos t - x0) with (r * cos t) by ring. replace (y0 + r * sin t - y0) with (r * sin t) by ring.
  replace ((r * cos t) ^ 2 + (r * sin t) ^ 2) with (r ^ 2) by (rewrite <- (Rmult_1_r (r ^ 2)), <- (sc t); ring). field. lra.
Qed.
Lemma tangential r : 0 < r -> lens_consistent psi alpha kappa (px x0 t r) (py y0 t r) -> reports_shear alpha (px x0 t r) (py y0 t r) (- (kb r - k r) * cos (2 * t), - (kb r - k r) * sin (2 * t)).
Proof.
  intros H C. assert (T := radial_shear _ _ _ _ _ _ _ C Rd (p_off x0 y0 t r H)). unfold tangential_shear in T. cbv zeta in T. fold (kb r) in T. fold (k r) in T.
  replace (((px x0 t r - x0) ^ 2 - (py y0 t r - y0) ^ 2) / ((px x0 t r - x0) ^ 2 + (py y0 t r - y0) ^ 2)) with (cos (2 * t)) in T; [replace (2 * (px x0 t r - x0) * (py y0 t r - y0) / ((px x0 t r - x0) ^ 2 + (py y0 t r - y0) ^ 2)) with (sin (2 * t)) in T; [exact T|]|];
    unfold px, py; replace (x0 + r * cos t - x0) with (r * cos t) by ring; replace (y0 + r * sin t - y0) with (r * sin t) by ring;
    replace ((r * cos t) ^ 2 + (r * sin t) ^ 2) with (r ^ 2) by (rewrite <- (Rmult_1_r (r ^ 2)), <- (sc t); ring).
  - rewrite sin_2a. field. lra.
  - rewrite cos_2a. field. lra.
Qed.
Lemma kb_derive r : 0 < r -> lens_consistent psi alpha kappa (px x0 t r) (py y0 t r) -> is_derive kb r (- (2 * (kb r - k r) / r)).
Proof.
  intros H C. assert (T := tangential r H C). destruct C as [_ (a & b & c & d & A & B & S & K)]. subst c. fold (k r) in K.
  assert (U := reports_unique _ _ _ _ _ T (shear_at _ _ _ _ _ _ _ A B)). assert (U1 := f_equal fst U). assert (U2 := f_equal snd U). cbn [fst snd] in U1, U2. clear U T.
  assert (Dx : is_derive (px x0 t) r (cos t)) by (unfold px; auto_derive; [exact I|ring]). assert (Dy : is_derive (py y0 t) r (sin t)) by (unfold py; auto_derive; [exact I|ring]).
  assert (DA := D2_curve _ _ _ _ _ _ _ _ A Dx Dy). assert (DB := D2_curve _ _ _ _ _ _ _ _ B Dx Dy). cbn beta in DA, DB.
  assert (DF : is_derive F r (cos t * (a * cos t + b * sin t) + sin t * (b * cos t + d * sin t))).
  { unfold F. apply (is_derive_plus (fun r => cos t * fst (alpha (px x0 t r) (py y0 t r))) (fun r => sin t * snd (alpha (px x0 t r) (py y0 t r)))); [apply (is_derive_scal (fun r => fst (alpha (px x0 t r) (py y0 t r)))); exact DA|apply (is_derive_scal (fun r => snd (alpha (px x0 t r) (py y0 t r)))); exact DB]. }
  assert (V : cos t * (a * cos t + b * sin t) + sin t * (b * cos t + d * sin t) = 2 * k r - kb r).
  { replace (cos t * (a * cos t + b * sin t) + sin t * (b * cos t + d * sin t)) with ((a + d) / 2 * (sin t ^ 2 + cos t ^ 2) + (a - d) / 2 * (cos t * cos t - sin t * sin t) + b * (2 * sin t * cos t)) by field.
    rewrite <- cos_2a, <- sin_2a, (sc t), <- K, <- U1, <- U2, Rmult_1_r. replace (2 * k r - kb r) with (k r - (kb r - k r) * 1) by ring. rewrite <- (sc (2 * t)). ring. }
  rewrite V in DF. apply (is_derive_ext_loc (fun r => F r / r)).
  - exists (mkposreal r H). intros u Hu. symmetry. apply kb_F. unfold ball in Hu. cbn in Hu. unfold AbsRing_ball, abs, minus, plus, opp in Hu. cbn in Hu. apply Rabs_def2 in Hu. lra.
  - replace (- (2 * (kb r - k r) / r)) with (((2 * k r - kb r) * r - F r * 1) / (r * r)) by (rewrite (kb_F r H); field; lra).
    evar_last; [apply (is_derive_div F (fun r => r)); [exact DF|apply is_derive_id|lra]|]. unfold one. cbn. field. lra.
Qed.
Lemma zeta r1 r2 : 0 < r1 <= r2 -> (forall r, r1 <= r <= r2 -> lens_consistent psi alpha kappa (px x0 t r) (py y0 t r)) -> (forall r, r1 <= r <= r2 -> continuous k r) ->
  is_RInt (fun r => 2 * (kb r - k r) / r) r1 r2 (kb r1 - kb r2).
Proof.
  intros H C K. assert (Q : is_RInt (fun r => - (2 * (kb r - k r) / r)) r1 r2 (kb r2 - kb r1)).
  { apply (is_RInt_derive kb (fun r => - (2 * (kb r - k r) / r))); rewrite Rmin_left, Rmax_right by lra; intros r Hr; [apply kb_derive; [lra|apply C; exact Hr]|].
    apply (continuous_opp (fun r => 2 * (kb r - k r) / r)). unfold Rdiv. apply (continuous_mult (fun r => 2 * (kb r - k r)) (fun r => / r)); [|apply continuous_Rinv; lra].
    apply (continuous_mult (fun _ => 2) (fun r => kb r - k r)); [apply continuous_const|]. apply (continuous_minus kb k); [|apply K; exact Hr]. apply ex_derive_continuous. eexists. apply kb_derive; [lra|apply C; exact Hr]. }
  apply is_RInt_opp in Q. replace (kb r1 - kb r2) with (opp (kb r2 - kb r1)) by (unfold opp; cbn; ring). apply (is_RInt_ext (fun r => opp (- (2 * (kb r - k r) / r)))); [|exact Q]. intros r _. unfold opp. cbn. ring.
Qed.
End Ray.
Lemma weighs psi alpha kappa x0 y0 : deflects_radially alpha x0 y0 -> (forall x y, x <> x0 \/ y <> y0 -> lens_consistent psi alpha kappa x y) ->
  (forall t r, 0 < r -> continuous (fun r => kappa (px x0 t r) (py y0 t r)) r) -> shear_weighs alpha x0 y0.
Proof.
  intros Rd C K t r1 r2 H. exists (fun r => mean_convergence alpha x0 y0 (px x0 t r) (py y0 t r) - kappa (px x0 t r) (py y0 t r)). split.
  - intros r Hr. apply (tangential psi alpha kappa x0 y0 t Rd r); [lra|]. apply C, p_off. lra.
  - apply (zeta psi alpha kappa x0 y0 t Rd r1 r2 H); intros r Hr; [apply C, p_off; lra|apply K; lra].
Qed.
Lemma mean_mean psi alpha kappa x0 y0 : deflects_radially alpha x0 y0 -> (forall x y, x <> x0 \/ y <> y0 -> lens_consistent psi alpha kappa x y) ->
  (forall t r, 0 < r -> continuous (fun r => kappa (px x0 t r) (py y0 t r)) r) -> mean_is_mean alpha kappa x0 y0.
Proof.
  intros Rd C K t r1 r2 H. set (kb := fun r => mean_convergence alpha x0 y0 (px x0 t r) (py y0 t r)).
  apply (is_RInt_derive (fun r => r ^ 2 * kb r) (fun r => 2 * r * kappa (px x0 t r) (py y0 t r))); rewrite Rmin_left, Rmax_right by lra; intros r Hr.
  - assert (D := kb_derive psi alpha kappa x0 y0 t Rd r ltac:(lra) (C _ _ (p_off x0 y0 t r ltac:(lra)))). fold kb in D.
    evar_last; [apply (is_derive_mult (fun r => r ^ 2) kb r (2 * r)); [auto_derive; [exact I|ring]|exact D|intros; apply Rmult_comm]|]. unfold plus, mult. cbn. fold kb. unfold kb. field. lra.
  - apply (continuous_mult (fun r => 2 * r) (fun r => kappa (px x0 t r) (py y0 t r))); [|apply K; lra]. apply (continuous_mult (fun _ : R => 2) (fun r : R => r)); [apply continuous_const|apply continuous_id].
Qed.
Lemma rad2 x0 y0 t r : (px x0 t r - x0) ^ 2 + (py y0 t r - y0) ^ 2 = r ^ 2.
Proof. unfold px, py. rewrite <- (Rmult_1_r (r ^ 2)), <- (sc t). ring. Qed.
Lemma sis_cont x0 y0 Rein t r : 0 < r -> continuous (fun r => convergence_sis x0 y0 Rein 0 (px x0 t r) (py y0 t r)) r.
Proof.
  intros H. apply (continuous_ext (fun r => / 2 * Rein / (sqrt (r ^ 2) + 0))); [intros u; unfold convergence_sis, translate_rotate; cbv zeta; rewrite rad2; reflexivity|].
  apply (ex_derive_continuous (V := R_NormedModule)). assert (P : 0 < r ^ 2) by nra. assert (Q := sqrt_lt_R0 _ P). auto_derive. repeat split; try assumption; cbn in *; lra.
Qed.
Lemma jaffe_cont dc z_s z_l x0 y0 mass Rc Rs t r : 0 < r -> continuous (fun r => jaffe_convergence dc z_s z_l x0 y0 mass Rc Rs (px x0 t r) (py y0 t r)) r.
Proof.
  intros H. unfold jaffe_convergence. set (d := angular_diameter_distance _ _). set (sg := critical_surface_density _ _ _).
  apply (continuous_ext (fun r => convergence_0_pseudo_jaffe mass Rc Rs d sg * Rc * Rs / (Rs - Rc) * (1 / sqrt (Rc ^ 2 + (r ^ 2 + 0)) - 1 / sqrt (Rs ^ 2 + (r ^ 2 + 0))))); [intros u; unfold convergence_pseudo_jaffe, translate_rotate; cbv zeta; rewrite rad2; reflexivity|].
  set (q := _ / (Rs - Rc)). apply (ex_derive_continuous (V := R_NormedModule)). assert (P1 : 0 < Rc ^ 2 + (r ^ 2 + 0)) by nra. assert (P2 : 0 < Rs ^ 2 + (r ^ 2 + 0)) by nra. assert (Q1 := sqrt_lt_R0 _ P1). assert (Q2 := sqrt_lt_R0 _ P2). auto_derive. repeat split; try assumption; cbn in *; lra.
Qed.
Lemma point_zero x0 y0 x y : x <> x0 \/ y <> y0 -> convergence_point x0 y0 x y = Some 0.
Proof. intros N. unfold convergence_point, translate_rotate. cbv zeta. destruct (Req_EM_T (x - x0) 0); [|reflexivity]. destruct (Req_EM_T (y - y0) 0); [|reflexivity]. exfalso. destruct N as [N|N]; apply N; lra. Qed.
Lemma point_weighs x0 y0 Rein : shear_weighs (reduced_deflection_angle_point x0 y0 Rein 0) x0 y0 /\ mean_is_mean (reduced_deflection_angle_point x0 y0 Rein 0) (fun _ _ => 0) x0 y0 /\
  forall x y, x <> x0 \/ y <> y0 -> convergence_point x0 y0 x y = Some 0.
Proof.
  assert (C : forall x y, x <> x0 \/ y <> y0 -> lens_consistent (potential_point x0 y0 Rein 0) (reduced_deflection_angle_point x0 y0 Rein 0) (fun _ _ => 0) x y).
  { intros x y N. exact (point_consistent x0 y0 Rein x y 0 (point_zero x0 y0 x y N)). }
  assert (K : forall t r : R, 0 < r -> continuous (fun _ : R => 0) r) by (intros; apply continuous_const).
  split; [exact (weighs _ _ _ x0 y0 (point_radial x0 y0 Rein 0) C K)|]. split; [exact (mean_mean _ _ _ x0 y0 (point_radial x0 y0 Rein 0) C K)|]. exact (point_zero x0 y0).
Qed.
Lemma case_r r : 0 < r -> mean_convergence (reduced_deflection_angle_sis 0 0 2 0) 0 0 (px 0 0 r) (py 0 0 r) = 2 / r.
Proof.
  intros H. unfold mean_convergence, reduced_deflection_angle_sis, translate_rotate. cbv zeta. cbn [fst snd]. rewrite rad2. rewrite <- Rsqr_pow2, sqrt_Rsqr by lra. unfold px, py, Rsqr. rewrite cos_0, sin_0. field. lra.
Qed.
