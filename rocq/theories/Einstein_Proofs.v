From Coq Require Import Reals Lra Psatz.
From Coquelicot Require Import Coquelicot.
From Verif Require Import Calc2 RealFun Geo_Model LensBasic_Model Epl_Model Epl5_Proofs Lens_Lib Einstein_Spec.
Local Open Scope R_scope.

Lemma cs1 u : cos u ^ 2 + sin u ^ 2 = 1.
Proof. generalize (sin2_cos2 u). unfold Rsqr. nra. Qed.
Lemma ell_pos q u : 0 < q -> 0 < q ^ 2 * cos u ^ 2 + sin u ^ 2.
Proof.
  intros H. assert (E := cs1 u). assert (A := pow2_ge_0 (cos u)). assert (B := pow2_ge_0 (sin u)). assert (0 < q ^ 2) by nra.
  destruct (Req_dec (cos u ^ 2) 0) as [Z|Z]; [rewrite Z in *; nra|]. assert (0 < q ^ 2 * cos u ^ 2) by (apply Rmult_lt_0_compat; lra). lra.
Qed.
Lemma ell_pos1 q u : 0 < q -> 0 < q * cos u ^ 2 + sin u ^ 2.
Proof.
  intros H. assert (E := cs1 u). assert (A := pow2_ge_0 (cos u)). assert (B := pow2_ge_0 (sin u)).
  destruct (Req_dec (cos u ^ 2) 0) as [Z|Z]; [rewrite Z in *; nra|]. assert (0 < q * cos u ^ 2) by (apply Rmult_lt_0_compat; lra). lra.
Qed.
(** the angle swept, measured on the ellipse *)
Definition swept (q u : R) : R := (u + atan ((1 - q) * sin u * cos u / (q * cos u ^ 2 + sin u ^ 2))) / q.
Lemma swept_derive q u : 0 < q -> is_derive (swept q) u (/ (q ^ 2 * cos u ^ 2 + sin u ^ 2)).
Proof.
  intros H. assert (A := ell_pos q u H). assert (B := ell_pos1 q u H). unfold swept.
  auto_derive; [repeat split; try lra; apply Rgt_not_eq; nra|].
  set (c := cos u) in *. set (s := sin u) in *. assert (E : c ^ 2 + s ^ 2 = 1) by apply cs1. clearbody c s.
  set (P := q * c ^ 2 + s ^ 2) in *. set (Q := q ^ 2 * c ^ 2 + s ^ 2) in *.
  assert (K : P ^ 2 + ((1 - q) * s * c) ^ 2 = Q).
  { transitivity ((q ^ 2 * c ^ 2 + s ^ 2) * (c ^ 2 + s ^ 2)); [unfold P; ring|rewrite E; unfold Q; ring]. }
  assert (KP : 0 < P ^ 2 + ((1 - q) * s * c) ^ 2) by (rewrite K; exact A).
  transitivity ((P ^ 2 + ((1 - q) * s * c) ^ 2 + (1 - q) * ((c ^ 2 - s ^ 2) * P - s * c * (2 * (1 - q) * s * c))) / (q * (P ^ 2 + ((1 - q) * s * c) ^ 2))).
  { replace (q * (c * (c * 1)) + s * (s * 1)) with P by (unfold P; ring). field. repeat split; lra. }
  rewrite K. apply Rmult_eq_reg_r with (q * Q); [|nra]. field_simplify; try lra.
  assert (E2 : (c ^ 2 + s ^ 2) ^ 2 = 1) by (rewrite E; ring).
  replace ((c ^ 2 - s ^ 2) * P) with (c ^ 2 * P - s ^ 2 * P) by ring.
  replace s with s by ring.
  transitivity (q * (c ^ 2 + s ^ 2) ^ 2); [|rewrite E2; ring].
  transitivity ((q ^ 2 * c ^ 2 + s ^ 2) * (c ^ 2 + s ^ 2) + (1 - q) * (c ^ 2 * P - s ^ 2 * P - 2 * (1 - q) * s ^ 2 * c ^ 2)); [rewrite E; unfold Q, P; ring|unfold P; ring].
Qed.
Lemma swept_cont q u : 0 < q -> continuous (fun u => / (q ^ 2 * cos u ^ 2 + sin u ^ 2)) u.
Proof. intros H. assert (A := ell_pos q u H). apply (ex_derive_continuous (V := R_NormedModule)). auto_derive. apply Rgt_not_eq. nra. Qed.
Lemma swept_period q u : swept q (u + 2 * PI) = swept q u + 2 * PI / q.
Proof. unfold swept. rewrite sin_plus, cos_plus, sin_2PI, cos_2PI. rewrite !Rmult_0_r, !Rmult_1_r, Rplus_0_r, Rminus_0_r. unfold Rdiv. ring. Qed.
Lemma full_turn q phi k : 0 < q -> is_RInt (V := R_NormedModule) (fun th => k / (q ^ 2 * cos (th - phi) ^ 2 + sin (th - phi) ^ 2)) 0 (2 * PI) (k * (2 * PI / q)).
Proof.
  intros H. replace (k * (2 * PI / q)) with (minus ((fun th => k * swept q (th - phi)) (2 * PI)) ((fun th => k * swept q (th - phi)) 0)).
  - apply (is_RInt_derive (V := R_CompleteNormedModule) (fun th => k * swept q (th - phi))); intros x _.
    + evar_last; [apply is_derive_scal; apply (is_derive_comp (swept q) (fun th => th - phi)); [apply swept_derive; exact H|auto_derive; [trivial|reflexivity]]|].
      unfold scal; simpl; unfold mult; simpl. unfold Rdiv. ring.
    + apply (continuous_scal_r (V := R_NormedModule) k (fun x => / (q ^ 2 * cos (x - phi) ^ 2 + sin (x - phi) ^ 2))).
      apply (continuous_comp (fun th => th - phi) (fun u => / (q ^ 2 * cos u ^ 2 + sin u ^ 2))); [|apply swept_cont; exact H].
      apply (ex_derive_continuous (V := R_NormedModule)). auto_derive. trivial.
  - unfold minus, plus, opp; simpl. replace (2 * PI - phi) with (0 - phi + 2 * PI) by ring. rewrite swept_period. ring.
Qed.

Lemma Rpower_vanish a : 0 < a -> filterlim (fun e => Rpower e a) (at_right 0) (locally 0).
Proof.
  intros H. apply filterlim_locally. intros eps. destruct eps as [e He]. simpl.
  assert (P : 0 < Rpower e (/ a)) by apply exp_pos.
  exists (mkposreal _ P). intros x Hx Hp. unfold ball in Hx; simpl in Hx. unfold AbsRing_ball, abs, minus, plus, opp in Hx. simpl in Hx.
  unfold ball; simpl. unfold AbsRing_ball, abs, minus, plus, opp. simpl.
  rewrite Ropp_0, Rplus_0_r in *. rewrite Rabs_pos_eq in Hx by lra. rewrite Rabs_pos_eq by (left; apply exp_pos).
  assert (E : Rpower (Rpower e (/ a)) a = e) by (rewrite Rpower_mult, Rinv_l by lra; apply Rpower_1; exact He).
  rewrite <- E. apply Rlt_Rpower_l; [exact H|]. lra.
Qed.

Section Epl.
Variables x0 y0 q phi Rein t : R.
Hypothesis Hq : 0 < q. Hypothesis HR : 0 < Rein. Hypothesis Ht : 0 < t < 2.
Let w (th : R) := sqrt (q ^ 2 * cos (th - phi) ^ 2 + sin (th - phi) ^ 2).
Let b := Rein * sqrt q.
Lemma w_pos th : 0 < w th.
Proof. apply sqrt_lt_R0, ell_pos, Hq. Qed.
Lemma b_pos : 0 < b.
Proof. apply Rmult_lt_0_compat; [exact HR|apply sqrt_lt_R0; exact Hq]. Qed.
Definition edge (l th : R) : R := l * (Rein * sqrt q) / sqrt (q ^ 2 * cos (th - phi) ^ 2 + sin (th - phi) ^ 2).
Lemma edge_pos l th : 0 < l -> 0 < edge l th.
Proof. intros H. unfold edge. fold b. fold (w th). apply Rdiv_lt_0_compat; [apply Rmult_lt_0_compat; [exact H|exact b_pos]|apply w_pos]. Qed.
Lemma ray_frame th r : translate_rotate (x0 + r * cos th) (y0 + r * sin th) x0 y0 (Some phi) = (r * cos (th - phi), r * sin (th - phi)).
Proof. unfold translate_rotate. rewrite cos_minus, sin_minus. f_equal; ring. Qed.
Lemma kappa_ray th r : 0 < r -> convergence_epl x0 y0 q phi Rein t 0 (x0 + r * cos th) (y0 + r * sin th) = (2 - t) / 2 * Rpower (b / w th / r) t.
Proof.
  intros H. unfold convergence_epl. rewrite ray_frame. cbv zeta.
  replace (q ^ 2 * (r * cos (th - phi)) ^ 2 + (r * sin (th - phi)) ^ 2 + 0 ^ 2) with (r ^ 2 * (q ^ 2 * cos (th - phi) ^ 2 + sin (th - phi) ^ 2)) by ring.
  rewrite sqrt_mult_alt by apply pow2_ge_0. rewrite sqrt_pow2 by lra. fold (w th). fold b. assert (W := w_pos th). assert (B := b_pos).
  replace (b / (r * w th)) with (b / w th / r) by (field; lra). unfold power. destruct (Req_EM_T (b / w th / r) 0) as [E|_]; [|reflexivity].
  exfalso. assert (0 < b / w th / r) by (repeat apply Rdiv_lt_0_compat; assumption). lra.
Qed.
Lemma kappa_ray' th r : 0 < r -> convergence_epl x0 y0 q phi Rein t 0 (x0 + r * cos th) (y0 + r * sin th) * r = Rpower (b / w th) t / 2 * ((2 - t) * Rpower r (1 - t)).
Proof.
  intros H. rewrite kappa_ray by exact H. assert (W := w_pos th). assert (B := b_pos).
  assert (V : 0 < b / w th) by (apply Rdiv_lt_0_compat; assumption).
  unfold Rdiv at 2. rewrite <- Rpower_mult_distr by (try apply Rinv_0_lt_compat; assumption).
  replace (Rpower (/ r) t) with (Rpower r (- t)).
  - unfold Rminus at 3. rewrite (Rplus_comm 1), Rpower_plus, Rpower_1 by exact H. field.
  - rewrite Rpower_Ropp. symmetry. apply Rpower_inv. exact H.
Qed.
Definition ring_mass (th r : R) : R := Rpower (b / w th) t / 2 * Rpower r (2 - t).
Lemma ray_int th eps rho : 0 < eps <= rho -> is_RInt (V := R_NormedModule) (fun r => convergence_epl x0 y0 q phi Rein t 0 (x0 + r * cos th) (y0 + r * sin th) * r) eps rho (ring_mass th rho - ring_mass th eps).
Proof.
  intros H. apply (is_RInt_ext (fun r => Rpower (b / w th) t / 2 * ((2 - t) * Rpower r (1 - t)))).
  - intros r. rewrite Rmin_left, Rmax_right by lra. intros Hr. symmetry. apply kappa_ray'. lra.
  - apply (is_RInt_derive (V := R_CompleteNormedModule) (ring_mass th)); intros r; rewrite Rmin_left, Rmax_right by lra; intros Hr.
    + unfold ring_mass. evar_last.
      * apply is_derive_scal. apply (is_derive_ext (fun r => exp ((2 - t) * ln r))); [reflexivity|].
        auto_derive; [lra|reflexivity].
      * unfold Rpower. replace ((1 - t) * ln r) with ((2 - t) * ln r + - ln r) by ring. rewrite exp_plus, exp_Ropp, exp_ln by lra. field. lra.
    + apply (ex_derive_continuous (V := R_NormedModule)). unfold Rpower. auto_derive. lra.
Qed.
Lemma edge_mass l th : 0 < l -> ring_mass th (edge l th) = Rpower l (2 - t) * (b / w th) ^ 2 / 2.
Proof.
  intros H. unfold ring_mass, edge. fold b. fold (w th). assert (W := w_pos th). assert (B := b_pos).
  assert (V : 0 < b / w th) by (apply Rdiv_lt_0_compat; assumption).
  replace (l * b / w th) with (l * (b / w th)) by (unfold Rdiv; ring). rewrite <- Rpower_mult_distr by assumption.
  rewrite <- (Rpower_pow 2) by exact V. replace (INR 2) with (t + (2 - t)) by (simpl; ring). rewrite Rpower_plus. field.
Qed.
Lemma epl_ray_mass l th : 0 < l -> ray_mass (convergence_epl x0 y0 q phi Rein t 0) x0 y0 th (edge l th) (Rpower l (2 - t) * (b / w th) ^ 2 / 2).
Proof.
  intros H. exists (fun eps => ring_mass th (edge l th) - ring_mass th eps). split.
  - intros eps He. apply ray_int. exact He.
  - rewrite <- edge_mass by exact H.
    assert (C : continuous (fun p => ring_mass th (edge l th) - Rpower (b / w th) t / 2 * p) 0) by (apply (ex_derive_continuous (V := R_NormedModule)); auto_derive; trivial).
    apply (filterlim_comp _ _ _ (fun e => Rpower e (2 - t)) (fun p => ring_mass th (edge l th) - Rpower (b / w th) t / 2 * p) (at_right 0) (locally 0)); [apply Rpower_vanish; lra|].
    evar_last; [exact C|]. cbv beta. f_equal. ring.
Qed.
Lemma wsq th : (b / w th) ^ 2 = Rein ^ 2 * q / (q ^ 2 * cos (th - phi) ^ 2 + sin (th - phi) ^ 2).
Proof.
  assert (E := ell_pos q (th - phi) Hq). assert (W := w_pos th). unfold b, Rdiv. rewrite !Rpow_mult_distr, pow_inv. unfold w. rewrite !pow2_sqrt by lra. reflexivity.
Qed.
Lemma epl_mass l : 0 < l -> mass_inside (convergence_epl x0 y0 q phi Rein t 0) x0 y0 (edge l) (PI * Rein ^ 2 * Rpower l (2 - t)).
Proof.
  intros H. exists (fun th => Rpower l (2 - t) * (b / w th) ^ 2 / 2). split; [intros th; apply epl_ray_mass; exact H|].
  replace (PI * Rein ^ 2 * Rpower l (2 - t)) with (Rpower l (2 - t) * Rein ^ 2 * q / 2 * (2 * PI / q)) by (field; lra).
  eapply is_RInt_ext; [|apply (full_turn q phi _ Hq)]. intros th _. rewrite wsq. match goal with |- ?a = ?b => change (@eq R a b) end. unfold Rdiv. ring.
Qed.
Lemma edge_area l : 0 < l -> area_inside (edge l) (PI * (l * Rein) ^ 2).
Proof.
  intros H. unfold area_inside. replace (PI * (l * Rein) ^ 2) with (l ^ 2 * Rein ^ 2 * q / 2 * (2 * PI / q)) by (field; lra).
  eapply is_RInt_ext; [|apply (full_turn q phi _ Hq)]. intros th _. unfold edge. fold b. fold (w th). 
  replace (l * b / w th) with (l * (b / w th)) by (unfold Rdiv; ring). rewrite Rpow_mult_distr, wsq. match goal with |- ?a = ?b => change (@eq R a b) end. unfold Rdiv. ring.
Qed.
Lemma edge_ellipse l th : 0 < l -> on_ellipse (l * Rein / sqrt q) (l * Rein * sqrt q) phi (edge l th * cos th) (edge l th * sin th).
Proof.
  intros H. unfold on_ellipse. assert (E := edge_pos l th H). set (r := edge l th) in *.
  assert (S := sqrt_lt_R0 _ Hq). assert (S2 : sqrt q ^ 2 = q) by (apply pow2_sqrt; lra).
  replace (r * cos th * cos phi + r * sin th * sin phi) with (r * cos (th - phi)) by (rewrite cos_minus; ring).
  replace (r * sin th * cos phi - r * cos th * sin phi) with (r * sin (th - phi)) by (rewrite sin_minus; ring).
  assert (V : r ^ 2 * (q ^ 2 * cos (th - phi) ^ 2 + sin (th - phi) ^ 2) = l ^ 2 * (Rein ^ 2 * q)).
  { unfold r, edge. fold b. fold (w th). replace (l * b / w th) with (l * (b / w th)) by (unfold Rdiv; ring). rewrite Rpow_mult_distr, wsq.
    field. rewrite Rpow_mult_distr. apply Rgt_not_eq, ell_pos, Hq. }
  transitivity (r ^ 2 * ((sqrt q ^ 2) ^ 2 * cos (th - phi) ^ 2 + sin (th - phi) ^ 2) / (l ^ 2 * (Rein ^ 2 * sqrt q ^ 2))); [field; repeat split; lra|].
  rewrite S2, V. field. repeat split; lra.
Qed.
Lemma epl_einstein l : 0 < l -> exists rho,
  (forall th, 0 < rho th /\ on_ellipse (l * Rein / sqrt q) (l * Rein * sqrt q) phi (rho th * cos th) (rho th * sin th)) /\
  area_inside rho (PI * (l * Rein) ^ 2) /\ mass_inside (convergence_epl x0 y0 q phi Rein t 0) x0 y0 rho (PI * Rein ^ 2 * Rpower l (2 - t)).
Proof.
  intros H. exists (edge l). split; [intros th; split; [apply edge_pos, H|apply edge_ellipse, H]|]. split; [apply edge_area, H|apply epl_mass, H].
Qed.
End Epl.

Lemma mass_inside_ext k k' x0 y0 rho M : (forall x y, x <> x0 \/ y <> y0 -> k x y = k' x y) -> mass_inside k x0 y0 rho M -> mass_inside k' x0 y0 rho M.
Proof.
  intros E (m & A & B). exists m. split; [|exact B]. intros th. destruct (A th) as (F & F1 & F2). exists F. split; [|exact F2].
  intros eps He. eapply is_RInt_ext; [|apply F1; exact He]. intros r. rewrite Rmin_left, Rmax_right by lra. intros Hr. cbv beta. rewrite E; [reflexivity|].
  assert (cs := cs1 th). destruct (Req_dec (cos th) 0) as [Z|Z]; [right|left]; intros Q.
  - assert (r * sin th = 0) by lra. apply Rmult_integral in H. destruct H; [lra|]. rewrite H, Z in cs. lra.
  - assert (r * cos th = 0) by lra. apply Rmult_integral in H. destruct H; [lra|contradiction].
Qed.
Lemma sie_einstein x0 y0 q phi Rein l : 0 < q -> 0 < Rein -> 0 < l -> exists rho,
  (forall th, 0 < rho th /\ on_ellipse (l * Rein / sqrt q) (l * Rein * sqrt q) phi (rho th * cos th) (rho th * sin th)) /\
  area_inside rho (PI * (l * Rein) ^ 2) /\ mass_inside (convergence_sie x0 y0 q phi Rein 0) x0 y0 rho (PI * Rein ^ 2 * l).
Proof.
  intros Hq HR Hl. destruct (epl_einstein x0 y0 q phi Rein 1 Hq HR ltac:(lra) l Hl) as (rho & A & B & M). exists rho. split; [exact A|]. split; [exact B|].
  replace (2 - 1) with 1 in M by ring. rewrite Rpower_1 in M by exact Hl. eapply mass_inside_ext; [|exact M]. intros x y Hxy. apply epl_is_sie; assumption.
Qed.
Lemma sis_is_sie x0 y0 Rein x y : convergence_sis x0 y0 Rein 0 x y = convergence_sie x0 y0 1 0 Rein 0 x y.
Proof.
  unfold convergence_sis, convergence_sie, translate_rotate. rewrite cos_0, sin_0, sqrt_1. cbv zeta. rewrite Rplus_0_r.
  replace (1 ^ 2 * (((x - x0) * 1 + (y - y0) * 0) ^ 2 + 0 ^ 2) + ((y - y0) * 1 - (x - x0) * 0) ^ 2) with ((x - x0) ^ 2 + (y - y0) ^ 2) by ring. unfold Rdiv. ring.
Qed.
Lemma sis_einstein x0 y0 Rein l : 0 < Rein -> 0 < l -> mass_inside (convergence_sis x0 y0 Rein 0) x0 y0 (fun _ => l * Rein) (PI * Rein ^ 2 * l).
Proof.
  intros HR Hl. assert (M := epl_mass x0 y0 1 0 Rein 1 ltac:(lra) HR ltac:(lra) l Hl).
  replace (2 - 1) with 1 in M by ring. rewrite Rpower_1 in M by exact Hl.
  destruct M as (m & A & B). exists m. split; [|exact B]. intros th. specialize (A th).
  assert (E : edge 1 0 Rein l th = l * Rein).
  { unfold edge. replace (1 ^ 2 * cos (th - 0) ^ 2 + sin (th - 0) ^ 2) with 1 by (generalize (cs1 (th - 0)); lra). rewrite sqrt_1. field. }
  rewrite E in A. 
  destruct A as (F & F1 & F2). exists F. split; [|exact F2]. intros eps He. eapply is_RInt_ext; [|apply F1; exact He].
  intros r. rewrite Rmin_left, Rmax_right by lra. intros Hr. cbv beta. f_equal.
  rewrite (sis_is_sie x0 y0 Rein). apply epl_is_sie; try lra.
  assert (cs := cs1 th). destruct (Req_dec (cos th) 0) as [Z|Z]; [right|left]; intros Q.
  - assert (H : r * sin th = 0) by lra. apply Rmult_integral in H. destruct H as [H|H]; [lra|]. rewrite H, Z in cs. lra.
  - assert (H : r * cos th = 0) by lra. apply Rmult_integral in H. destruct H as [H|H]; [lra|contradiction].
Qed.
