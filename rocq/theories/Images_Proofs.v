(** * Images and magnifications of SIS and point lenses *)
From Coq Require Import Reals List Lra Psatz.
From Coquelicot Require Import Coquelicot.
From Verif Require Import Calc2 RealFun Geo_Model LensBase_Model LensBase_Proofs Lens_Spec Lens_Lib LensBasic_Model LensBasic2_Proofs.
Open Scope R_scope.

Definition inv_abs (d : R) : option R := if Req_EM_T d 0 then None else Some (1 / Rabs d).
Lemma radial_mag (A : R -> R) dA (alpha : R -> R -> R * R) x0 y0 x y :
  (x <> x0 \/ y <> y0) ->
  let r := sqrt ((x - x0) ^ 2 + (y - y0) ^ 2) in
  (forall u v, alpha u v = (let r := sqrt ((u - x0) ^ 2 + (v - y0) ^ 2) in
                            (A r * (u - x0) / r, A r * (v - y0) / r))) ->
  is_derive A r dA ->
  magnification alpha x y = inv_abs ((1 - A r / r) * (1 - dA)).
Proof.
  intros H r Ha HA.
  assert (H' := off_centre _ _ _ _ H). assert (Hr := norm_pos _ _ H'). fold r in Hr.
  assert (Hr2 : r ^ 2 = (x - x0) ^ 2 + (y - y0) ^ 2) by (apply sqrt_sq2; pose proof (norm2_pos _ _ H'); lra).
  assert (HN := D2_radial (fun t => t) 1 x0 y0 x y H (is_derive_id _)).
  assert (HAr := D2_radial A dA x0 y0 x y H HA). fold r in HN, HAr. cbv beta in HN.
  assert (Gx : D2 (fun u v => fst (alpha u v)) x y
     (((dA * ((x - x0) / r) * (x - x0) + A r * 1) * r - A r * (x - x0) * (1 * ((x - x0) / r))) / r ^ 2)
     (((dA * ((y - y0) / r) * (x - x0) + A r * 0) * r - A r * (x - x0) * (1 * ((y - y0) / r))) / r ^ 2)).
  { eapply D2_ext; [intros u v; rewrite Ha; cbv zeta; cbn [fst]; reflexivity|].
    apply (D2_div (fun u v => A (sqrt ((u - x0) ^ 2 + (v - y0) ^ 2)) * (u - x0))
                  (fun u v => sqrt ((u - x0) ^ 2 + (v - y0) ^ 2))); [fold r; lra| |exact HN].
    apply (D2_mult (fun u v => A (sqrt ((u - x0) ^ 2 + (v - y0) ^ 2))) (fun u _ => u - x0)); [exact HAr|].
    d2; ring. }
  assert (Gy : D2 (fun u v => snd (alpha u v)) x y
     (((dA * ((x - x0) / r) * (y - y0) + A r * 0) * r - A r * (y - y0) * (1 * ((x - x0) / r))) / r ^ 2)
     (((dA * ((y - y0) / r) * (y - y0) + A r * 1) * r - A r * (y - y0) * (1 * ((y - y0) / r))) / r ^ 2)).
  { eapply D2_ext; [intros u v; rewrite Ha; cbv zeta; cbn [snd]; reflexivity|].
    apply (D2_div (fun u v => A (sqrt ((u - x0) ^ 2 + (v - y0) ^ 2)) * (v - y0))
                  (fun u v => sqrt ((u - x0) ^ 2 + (v - y0) ^ 2))); [fold r; lra| |exact HN].
    apply (D2_mult (fun u v => A (sqrt ((u - x0) ^ 2 + (v - y0) ^ 2))) (fun _ v => v - y0)); [exact HAr|].
    d2; ring. }
  destruct (D2_raytrace _ _ _ _ _ _ _ Gx Gy) as [Rx Ry].
  unfold magnification, pixel_magnification. rewrite (jacfwd_D2 _ _ _ _ _ _ _ Rx Ry). cbn [m00 m01 m10 m11]. cbv zeta.
  match goal with |- context [Rabs ?d] => replace d with ((1 - A r / r) * (1 - dA)) end.
  - generalize ((1 - A r / r) * (1 - dA)). intros d. unfold inv_abs.
    destruct (Req_EM_T (Rabs d) 0) as [E|E], (Req_EM_T d 0) as [F|F]; try reflexivity.
    + destruct (Rabs_no_R0 d F E).
    + subst. rewrite Rabs_R0 in E. lra.
  - set (X := x - x0) in *. set (Y := y - y0) in *. set (a := A r) in *. clearbody a r X Y.
    transitivity ((1 - a / r) * (1 - a / r - (dA - a / r) * ((X ^ 2 + Y ^ 2) / r ^ 2))).
    + rewrite <- Hr2. field. lra.
    + field. lra.
Qed.
Section Lens.
Variables x0 y0 Rein : R.
Hypothesis HR : 0 < Rein.
Lemma sis_mag x y : (x <> x0 \/ y <> y0) ->
  magnification (reduced_deflection_angle_sis x0 y0 Rein 0) x y = inv_abs (1 - Rein / sqrt ((x - x0) ^ 2 + (y - y0) ^ 2)).
Proof.
  intros H. rewrite (radial_mag (fun _ => Rein) 0 _ x0 y0 x y H).
  - f_equal. ring.
  - intros u v. unfold reduced_deflection_angle_sis, translate_rotate. cbv zeta. rewrite Rplus_0_r. reflexivity.
  - auto_derive; trivial.
Qed.
Lemma point_mag x y : (x <> x0 \/ y <> y0) ->
  magnification (reduced_deflection_angle_point x0 y0 Rein 0) x y = inv_abs (1 - (Rein / sqrt ((x - x0) ^ 2 + (y - y0) ^ 2)) ^ 4).
Proof.
  intros H. assert (H' := off_centre _ _ _ _ H). assert (Hr := norm_pos _ _ H').
  rewrite (radial_mag (fun r => Rein ^ 2 / r) (- Rein ^ 2 / sqrt ((x - x0) ^ 2 + (y - y0) ^ 2) ^ 2) _ x0 y0 x y H).
  - f_equal. field. lra.
  - intros u v. unfold reduced_deflection_angle_point, translate_rotate. cbv zeta. rewrite Rplus_0_r.
    set (q := sqrt _). destruct (Req_dec q 0) as [E|E].
    + assert (Huv : (u - x0) ^ 2 + (v - y0) ^ 2 = 0).
      { apply sqrt_eq_0 in E; [exact E|]. pose proof (sq_ge0 (u - x0)); pose proof (sq_ge0 (v - y0)); lra. }
      destruct (sum_sq_zero _ _ Huv) as [A1 A2]. rewrite A1, A2, E. f_equal; unfold Rdiv; ring.
    + f_equal; field; exact E.
  - auto_derive; [apply Rgt_not_eq; exact Hr|]. field. lra.
Qed.
Variables b c s : R.
Hypothesis Hb : 0 < b.
Hypothesis Hcs : c ^ 2 + s ^ 2 = 1.
Lemma polar_norm r : sqrt ((x0 + r * c - x0) ^ 2 + (y0 + r * s - y0) ^ 2) = Rabs r.
Proof.
  replace ((x0 + r * c - x0) ^ 2 + (y0 + r * s - y0) ^ 2) with (r ^ 2 * (c ^ 2 + s ^ 2)) by ring. rewrite Hcs, Rmult_1_r.
  replace (r ^ 2) with (Rsqr r) by (unfold Rsqr; ring). apply sqrt_Rsqr_abs.
Qed.
Lemma polar_off r : r <> 0 -> x0 + r * c <> x0 \/ y0 + r * s <> y0.
Proof.
  intros Hr. destruct (Req_dec c 0) as [->|Hc].
  - right. intros E. assert (s <> 0) by (intros ->; lra). apply Hr. apply Rmult_eq_reg_r with s; [lra|assumption].
  - left. intros E. apply Hr. apply Rmult_eq_reg_r with c; [lra|assumption].
Qed.
(** any position of the form k (X,Y) = b (c,s) lies on the line through the source *)
Lemma on_line x y k : (x - x0) * k = b * c -> (y - y0) * k = b * s -> (x <> x0 \/ y <> y0) ->
  exists r, r <> 0 /\ x = x0 + r * c /\ y = y0 + r * s /\ r * k = b /\ sqrt ((x - x0) ^ 2 + (y - y0) ^ 2) = Rabs r.
Proof.
  intros Hx Hy H. assert (k <> 0) by (intros ->; nra).
  exists (b / k). assert (X : x = x0 + b / k * c) by (apply Rmult_eq_reg_r with k; [field_simplify; [lra|assumption]|assumption]).
  assert (Y : y = y0 + b / k * s) by (apply Rmult_eq_reg_r with k; [field_simplify; [lra|assumption]|assumption]).
  repeat split; try assumption.
  - unfold Rdiv. apply Rmult_integral_contrapositive_currified; [lra|apply Rinv_neq_0_compat; assumption].
  - field; assumption.
  - rewrite X, Y. apply polar_norm.
Qed.
Lemma sis_images x y : (x <> x0 \/ y <> y0) ->
  (raytrace (reduced_deflection_angle_sis x0 y0 Rein 0) x y = (x0 + b * c, y0 + b * s) <->
   (x = x0 + (b + Rein) * c /\ y = y0 + (b + Rein) * s) \/ (b < Rein /\ x = x0 + (b - Rein) * c /\ y = y0 + (b - Rein) * s)).
Proof.
  intros H. assert (H' := off_centre _ _ _ _ H). assert (Hr := norm_pos _ _ H').
  unfold raytrace, reduced_deflection_angle_sis, translate_rotate. cbv zeta. rewrite Rplus_0_r. split.
  - intros E. injection E as E1 E2. set (q := sqrt _) in *.
    destruct (on_line x y (1 - Rein / q)) as (r & Nr & -> & -> & K & Q); [| |exact H|].
    + transitivity (x - Rein * (x - x0) / q - x0); [field; lra|lra].
    + transitivity (y - Rein * (y - y0) / q - y0); [field; lra|lra].
    + fold q in Q. rewrite Q in K. unfold Rabs in K. destruct (Rcase_abs r) as [N|N].
      * right. assert (r = b - Rein) by (rewrite <- K; field; lra). split; [lra|]. rewrite H0; split; reflexivity.
      * left. assert (r = b + Rein) by (rewrite <- K; field; lra). rewrite H0; split; reflexivity.
  - intros [[-> ->]|[L [-> ->]]]; rewrite polar_norm.
    + rewrite Rabs_pos_eq by lra. f_equal; field; lra.
    + rewrite Rabs_left by lra. f_equal; field; lra.
Qed.
Lemma sis_image_mags : b < Rein ->
  magnification (reduced_deflection_angle_sis x0 y0 Rein 0) (x0 + (b + Rein) * c) (y0 + (b + Rein) * s) = Some (Rein / b + 1) /\
  magnification (reduced_deflection_angle_sis x0 y0 Rein 0) (x0 + (b - Rein) * c) (y0 + (b - Rein) * s) = Some (Rein / b - 1).
Proof.
  intros L. rewrite !sis_mag by (apply polar_off; lra). rewrite !polar_norm. unfold inv_abs.
  rewrite (Rabs_pos_eq (b + Rein)), (Rabs_left (b - Rein)) by lra.
  replace (1 - Rein / (b + Rein)) with (b / (b + Rein)) by (field; lra).
  replace (1 - Rein / - (b - Rein)) with (- (b / (Rein - b))) by (field; lra).
  assert (P : 0 < b / (b + Rein)) by (apply Rdiv_lt_0_compat; lra). assert (Q : 0 < b / (Rein - b)) by (apply Rdiv_lt_0_compat; lra).
  rewrite Rabs_Ropp, !Rabs_pos_eq by lra.
  destruct (Req_EM_T (b / (b + Rein)) 0); [lra|]. destruct (Req_EM_T (- (b / (Rein - b))) 0); [lra|].
  split; f_equal; field; lra.
Qed.
Let D := sqrt (b ^ 2 + 4 * Rein ^ 2).
Lemma D_sq : D * D = b ^ 2 + 4 * Rein ^ 2.
Proof. apply sqrt_sqrt. nra. Qed.
Lemma D_gt : b < D.
Proof. assert (0 <= D) by apply sqrt_pos. assert (E := D_sq). assert (0 < Rein ^ 2) by (apply pow_lt; exact HR). nra. Qed.
Lemma point_images x y : (x <> x0 \/ y <> y0) ->
  (raytrace (reduced_deflection_angle_point x0 y0 Rein 0) x y = (x0 + b * c, y0 + b * s) <->
   (x = x0 + (b + D) / 2 * c /\ y = y0 + (b + D) / 2 * s) \/ (x = x0 + (b - D) / 2 * c /\ y = y0 + (b - D) / 2 * s)).
Proof.
  intros H. assert (H' := off_centre _ _ _ _ H). assert (Hr := norm_pos _ _ H'). assert (HD := D_sq). assert (GD := D_gt). 
  unfold raytrace, reduced_deflection_angle_point, translate_rotate. cbv zeta. rewrite Rplus_0_r. split.
  - intros E. apply pair_equal_spec in E. destruct E as [E1 E2]. set (q := sqrt ((x - x0) ^ 2 + (y - y0) ^ 2)) in *.
    destruct (on_line x y (1 - Rein ^ 2 / q ^ 2)) as (r & Nr & -> & -> & K & Q); [| |exact H|].
    + transitivity (x - (x - x0) * Rein ^ 2 / q ^ 2 - x0); [field; lra|rewrite E1; ring].
    + transitivity (y - (y - y0) * Rein ^ 2 / q ^ 2 - y0); [field; lra|rewrite E2; ring].
    + fold q in Q. rewrite Q in K. rewrite <- (Rsqr_pow2 (Rabs r)), <- Rsqr_abs, Rsqr_pow2 in K.
      assert (K2 : r ^ 2 - b * r - Rein ^ 2 = 0) by (rewrite <- K; field; lra).
      assert (F : (r - (b + D) / 2) * (r - (b - D) / 2) = 0).
      { replace ((r - (b + D) / 2) * (r - (b - D) / 2)) with (r ^ 2 - b * r + (b ^ 2 - D * D) / 4) by field. rewrite HD. lra. }
      apply Rmult_integral in F. destruct F as [F|F]; [left|right]; (replace r with ((b + D) / 2) by lra) || (replace r with ((b - D) / 2) by lra); split; reflexivity.
  - assert (G : forall r, r <> 0 -> r ^ 2 - b * r - Rein ^ 2 = 0 -> (x0 + r * c - (x0 + r * c - x0) * Rein ^ 2 / Rabs r ^ 2, y0 + r * s - (y0 + r * s - y0) * Rein ^ 2 / Rabs r ^ 2) = (x0 + b * c, y0 + b * s)).
    { intros r Nr E. rewrite <- (Rsqr_pow2 (Rabs r)), <- Rsqr_abs, Rsqr_pow2. assert (E2 : Rein ^ 2 = r * (r - b)) by lra. rewrite E2. f_equal; field; exact Nr. }
    intros [[-> ->]|[-> ->]]; rewrite polar_norm; apply G; try lra.
Qed.
Lemma point_image_mags : exists m1 m2,
  magnification (reduced_deflection_angle_point x0 y0 Rein 0) (x0 + (b + D) / 2 * c) (y0 + (b + D) / 2 * s) = Some m1 /\
  magnification (reduced_deflection_angle_point x0 y0 Rein 0) (x0 + (b - D) / 2 * c) (y0 + (b - D) / 2 * s) = Some m2 /\
  m1 + m2 = ((b / Rein) ^ 2 + 2) / ((b / Rein) * sqrt ((b / Rein) ^ 2 + 4)) /\ m1 - m2 = 1.
Proof.
  assert (HD := D_sq). assert (GD := D_gt).
  rewrite !point_mag by (apply polar_off; lra). rewrite !polar_norm.
  rewrite (Rabs_pos_eq ((b + D) / 2)), (Rabs_left ((b - D) / 2)) by lra.
  set (p := (b + D) / 2). set (m := - ((b - D) / 2)).
  assert (Pp : 0 < p) by (unfold p; lra). assert (Pm : 0 < m) by (unfold m; lra).
  assert (PM : p * m = Rein ^ 2) by (unfold p, m; replace ((b + D) / 2 * - ((b - D) / 2)) with ((D * D - b ^ 2) / 4) by field; lra).
  assert (S : p + m = D) by (unfold p, m; lra). assert (Df : p - m = b) by (unfold p, m; lra).
  assert (E1 : 1 - (Rein / p) ^ 4 = b * D / p ^ 2).
  { replace ((Rein / p) ^ 4) with (Rein ^ 2 * Rein ^ 2 / p ^ 4) by (field; lra). rewrite <- PM, <- S, <- Df. field. lra. }
  assert (E2 : 1 - (Rein / m) ^ 4 = - (b * D / m ^ 2)).
  { replace ((Rein / m) ^ 4) with (Rein ^ 2 * Rein ^ 2 / m ^ 4) by (field; lra). rewrite <- PM, <- S, <- Df. field. lra. }
  rewrite E1, E2. assert (0 < b * D) by (apply Rmult_lt_0_compat; lra).
  assert (0 < p ^ 2) by (apply pow_lt; exact Pp). assert (0 < m ^ 2) by (apply pow_lt; exact Pm).
  assert (Q1 : 0 < b * D / p ^ 2) by (apply Rdiv_lt_0_compat; assumption). assert (Q2 : 0 < b * D / m ^ 2) by (apply Rdiv_lt_0_compat; assumption).
  unfold inv_abs. rewrite Rabs_Ropp, !Rabs_pos_eq by lra.
  destruct (Req_EM_T (b * D / p ^ 2) 0); [lra|]. destruct (Req_EM_T (- (b * D / m ^ 2)) 0); [lra|].
  eexists. eexists. split; [reflexivity|]. split; [reflexivity|]. split.
  - replace (sqrt ((b / Rein) ^ 2 + 4)) with (D / Rein).
    + transitivity ((p ^ 2 + m ^ 2) / (b * D)); [field; repeat split; lra|].
      transitivity ((b ^ 2 + 2 * Rein ^ 2) / (b * D)); [|field; repeat split; lra].
      f_equal. rewrite <- PM, <- Df. ring.
    + unfold D. replace ((b / Rein) ^ 2 + 4) with ((b ^ 2 + 4 * Rein ^ 2) / Rein ^ 2) by (field; lra).
      rewrite sqrt_div by (try nra; apply pow_lt; exact HR). rewrite (sqrt_pow2 Rein) by lra. reflexivity.
  - transitivity ((p - m) * (p + m) / (b * D)); [field; repeat split; lra|]. rewrite S, Df. field. split; lra.
Qed.
End Lens.
Lemma inv_abs_none d : inv_abs d = None <-> d = 0.
Proof. unfold inv_abs. destruct (Req_EM_T d 0); split; intros; try assumption; try reflexivity; try discriminate. contradiction. Qed.
Lemma einstein_ring x0 y0 Rein : 0 < Rein -> forall x y, (x <> x0 \/ y <> y0) ->
  (magnification (reduced_deflection_angle_sis x0 y0 Rein 0) x y = None <-> (x - x0) ^ 2 + (y - y0) ^ 2 = Rein ^ 2) /\
  (magnification (reduced_deflection_angle_point x0 y0 Rein 0) x y = None <-> (x - x0) ^ 2 + (y - y0) ^ 2 = Rein ^ 2).
Proof.
  intros HR x y H. assert (H' := off_centre _ _ _ _ H). assert (Hr := norm_pos _ _ H').
  assert (Hr2 : sqrt ((x - x0) ^ 2 + (y - y0) ^ 2) ^ 2 = (x - x0) ^ 2 + (y - y0) ^ 2) by (apply sqrt_sq2; pose proof (norm2_pos _ _ H'); lra).
  rewrite sis_mag, point_mag, !inv_abs_none by assumption. rewrite <- Hr2. set (r := sqrt ((x - x0) ^ 2 + (y - y0) ^ 2)) in *. rewrite (sqrt_pow2 r) by lra. clearbody r.
  assert (Q : r ^ 2 = Rein ^ 2 <-> r = Rein) by (split; [intros E; apply (Rsqr_inj r Rein); [lra|lra|rewrite !Rsqr_pow2; exact E]|intros ->; reflexivity]). rewrite Q.
  split; split.
  - intros E. assert (F : Rein = (Rein / r) * r) by (field; lra). set (q := Rein / r) in *. clearbody q. assert (G : q = 1) by lra. rewrite G in F. lra.
  - intros ->. field. lra.
  - intros E. assert (F : Rein = (Rein / r) * r) by (field; lra). assert (G : 0 < Rein / r) by (apply Rdiv_lt_0_compat; lra).
    set (q := Rein / r) in *. clearbody q. assert (K : (q - 1) * ((q + 1) * (q ^ 2 + 1)) = 0) by (transitivity (q ^ 4 - 1); [ring|lra]).
    apply Rmult_integral in K. destruct K as [K|K]; [replace q with 1 in F by lra; lra|]. assert (0 < (q + 1) * (q ^ 2 + 1)) by (apply Rmult_lt_0_compat; [lra|nra]). lra.
  - intros ->. field. lra.
Qed.
