From Coq Require Import Reals String Lra Psatz.
From Coquelicot Require Import Coquelicot.
From Verif Require Import Py Calc2 RealFun Geo_Model Cosmo_Model LensBase_Model LensBase_Proofs Lens_Spec Lens_Lib LensBasic_Model LensBasic_Proofs LensBasic2_Proofs
  Jaffe_Model Nfw_Model Tnfw_Model Shear_Spec.
Local Open Scope R_scope.

Lemma shear_at alpha x y a b c d : D2 (fun u v => fst (alpha u v)) x y a b -> D2 (fun u v => snd (alpha u v)) x y c d -> reports_shear alpha x y ((a - d) / 2, b).
Proof. intros A B shape X Y ps i j HX HY. exact (shear_is_second_derivative alpha x y a b c d A B shape X Y ps i j HX HY). Qed.

(** ** axisymmetric lenses *)
Lemma radial_shear psi alpha kappa x0 y0 x y : lens_consistent psi alpha kappa x y -> deflects_radially alpha x0 y0 -> x <> x0 \/ y <> y0 ->
  tangential_shear alpha (kappa x y) x0 y0 x y.
Proof.
  intros [_ (a & b & c & d & A & B & S & K)] Rd N. subst c.
  assert (P : 0 < (x - x0) ^ 2 + (y - y0) ^ 2) by (apply norm2_pos, off_centre, N).
  assert (Q : D2 (fun u v => fst (alpha u v) * (v - y0) - snd (alpha u v) * (u - x0)) x y
                (a * (y - y0) + fst (alpha x y) * 0 - (b * (x - x0) + snd (alpha x y) * 1)) (b * (y - y0) + fst (alpha x y) * 1 - (d * (x - x0) + snd (alpha x y) * 0))).
  { apply (D2_minus (fun u v => fst (alpha u v) * (v - y0)) (fun u v => snd (alpha u v) * (u - x0))).
    - apply (D2_mult (fun u v => fst (alpha u v)) (fun _ v => v - y0)); [exact A|]. d2; ring.
    - apply (D2_mult (fun u v => snd (alpha u v)) (fun u _ => u - x0)); [exact B|]. d2; ring. }
  assert (Z : D2 (fun u v => fst (alpha u v) * (v - y0) - snd (alpha u v) * (u - x0)) x y 0 0).
  { apply (D2_ext (fun _ _ => 0)); [intros u v; rewrite (Rd u v); ring|apply D2_const]. }
  destruct (D2_unique _ _ _ _ _ _ _ Q Z) as [E1 E2]. clear Q Z.
  unfold tangential_shear, mean_convergence. cbv zeta.
  assert (T := Rd x y). set (X := x - x0) in *. set (Y := y - y0) in *. set (f := fst (alpha x y)) in *. set (s := snd (alpha x y)) in *.
  replace (- ((X * f + Y * s) / (X ^ 2 + Y ^ 2) - kappa x y) * ((X ^ 2 - Y ^ 2) / (X ^ 2 + Y ^ 2))) with ((a - d) / 2);
    [replace (- ((X * f + Y * s) / (X ^ 2 + Y ^ 2) - kappa x y) * (2 * X * Y / (X ^ 2 + Y ^ 2))) with b; [exact (shear_at _ _ _ _ _ _ _ A B)|]|];
    rewrite K; clearbody X Y f s; clear - P E1 E2 T; set (r := X ^ 2 + Y ^ 2) in *.
  - apply Rmult_eq_reg_r with (r * r); [|nra].
    transitivity ((- (2 * (X * f + Y * s)) + (a + d) * r) * (X * Y)); [|field; lra].
    assert (F1 : a * Y = b * X + s) by lra. assert (F2 : d * X = b * Y + f) by lra.
    transitivity (- (2 * (X * f + Y * s)) * (X * Y) + (X * (a * Y) + Y * (d * X)) * r); [|ring].
    rewrite F1, F2. unfold r. 
    transitivity (b * (X ^ 2 + Y ^ 2) * (X ^ 2 + Y ^ 2) + (X ^ 2 - Y ^ 2) * (s * X - f * Y)); [rewrite T; ring|]. ring_simplify. ring.
  - apply Rmult_eq_reg_r with (2 * r * r); [|nra].
    transitivity (2 * ((- (X * f + Y * s) + (a + d) / 2 * r) * (X ^ 2 - Y ^ 2))); [|field; lra].
    assert (F1 : a * Y = b * X + s) by lra. assert (F2 : d * X = b * Y + f) by lra.
    unfold r.
    assert (G : a * Y ^ 2 = d * X ^ 2 + (s * Y - f * X)).
    { replace (a * Y ^ 2) with ((a * Y) * Y) by ring. replace (d * X ^ 2) with ((d * X) * X) by ring. rewrite F1, F2. ring. }
    assert (G2 : s * X = f * Y) by lra.
    transitivity (a * X ^ 2 * X ^ 2 + 2 * X ^ 2 * (a * Y ^ 2) + Y ^ 2 * (a * Y ^ 2) - d * X ^ 4 - 2 * d * X ^ 2 * Y ^ 2 - d * Y ^ 4); [field|].
    transitivity (- 2 * (X * f + Y * s) * (X ^ 2 - Y ^ 2) + (a * X ^ 4 - Y ^ 2 * (a * Y ^ 2) + d * (X ^ 4 - Y ^ 4))); [|field].
    rewrite G.
    assert (G3 : s * X * X * Y = f * Y * X * Y) by (rewrite G2; ring). assert (G4 : s * X * Y * Y = f * Y * Y * Y) by (rewrite G2; ring).
    assert (G5 : s * X * X * X = f * Y * X * X) by (rewrite G2; ring).
    assert (L : s * X ^ 2 * Y = f * X * Y ^ 2) by (transitivity (s * X * X * Y); [ring|rewrite G2; ring]).
    ring_simplify. ring_simplify in L. lra.
Qed.

(** ** isothermal lenses *)
Definition scale_free (alpha : R -> R -> R * R) (x0 y0 x y : R) : Prop :=
  forall k, 0 < k -> alpha (x0 + k * (x - x0)) (y0 + k * (y - y0)) = alpha x y.
Lemma flat_derivative (f : R -> R -> R) x0 y0 x y a b : D2 f x y a b -> (forall k, 0 < k -> f (x0 + k * (x - x0)) (y0 + k * (y - y0)) = f x y) ->
  a * (x - x0) + b * (y - y0) = 0.
Proof.
  intros A H.
  assert (D : is_derive (fun k => f (x0 + k * (x - x0)) (y0 + k * (y - y0))) 1 (a * (x - x0) + b * (y - y0))).
  { apply (D2_curve f (fun k => x0 + k * (x - x0)) (fun k => y0 + k * (y - y0))).
    - replace (x0 + 1 * (x - x0)) with x by ring. replace (y0 + 1 * (y - y0)) with y by ring. exact A.
    - auto_derive; [trivial|ring].
    - auto_derive; [trivial|ring]. }
  assert (Z : is_derive (fun k => f (x0 + k * (x - x0)) (y0 + k * (y - y0))) 1 0).
  { apply (is_derive_ext_loc (fun _ => f x y)); [|apply (is_derive_const (K := R_AbsRing) (V := R_NormedModule))].
    exists (mkposreal 1 Rlt_0_1). intros k Hk. unfold ball in Hk; simpl in Hk. unfold AbsRing_ball, abs, minus, plus, opp in Hk; simpl in Hk.
    symmetry. apply H. apply Rabs_def2 in Hk. lra. }
  rewrite <- (is_derive_unique _ _ _ D). apply is_derive_unique, Z.
Qed.
Lemma isothermal_flat psi alpha kappa x0 y0 x y : lens_consistent psi alpha kappa x y -> scale_free alpha x0 y0 x y -> x <> x0 \/ y <> y0 ->
  (exists g1 g2, reports_shear alpha x y (g1, g2) /\ g1 ^ 2 + g2 ^ 2 = kappa x y ^ 2) /\
  magnification alpha x y = (if Req_EM_T (1 - 2 * kappa x y) 0 then None else Some (1 / Rabs (1 - 2 * kappa x y))).
Proof.
  intros [_ (a & b & c & d & A & B & S & K)] F N. subst c.
  assert (E1 := flat_derivative (fun u v => fst (alpha u v)) x0 y0 x y a b A (fun k Hk => f_equal fst (F k Hk))).
  assert (E2 := flat_derivative (fun u v => snd (alpha u v)) x0 y0 x y b d B (fun k Hk => f_equal snd (F k Hk))).
  assert (P : 0 < (x - x0) ^ 2 + (y - y0) ^ 2) by (apply norm2_pos, off_centre, N).
  assert (Det : a * d - b * b = 0).
  { set (X := x - x0) in *. set (Y := y - y0) in *. apply Rmult_eq_reg_r with (X ^ 2 + Y ^ 2); [|lra].
    transitivity (X * d * (a * X + b * Y) - X * b * (b * X + d * Y) + Y * a * (b * X + d * Y) - Y * b * (a * X + b * Y)); [ring|rewrite E1, E2; ring]. }
  split.
  - exists ((a - d) / 2), b. split; [exact (shear_at _ _ _ _ _ _ _ A B)|]. rewrite K.
    transitivity (((a + d) / 2) ^ 2 - (a * d - b * b)); [field|rewrite Det; ring].
  - destruct (D2_raytrace _ _ _ _ _ _ _ A B) as [Rx Ry]. unfold magnification, pixel_magnification. rewrite (jacfwd_D2 _ _ _ _ _ _ _ Rx Ry). cbn [m00 m01 m10 m11]. cbv zeta.
    replace ((1 - a) * (1 - d) - (0 - b) * (0 - b)) with (1 - 2 * kappa x y) by (rewrite K; transitivity (1 - (a + d) + (a * d - b * b)); [rewrite Det; field|ring]).
    destruct (Req_EM_T (Rabs (1 - 2 * kappa x y)) 0) as [E|E], (Req_EM_T (1 - 2 * kappa x y) 0) as [G|G]; try reflexivity.
    + destruct (Rabs_no_R0 _ G E).
    + rewrite G, Rabs_R0 in E. lra.
Qed.
Lemma sis_scale_free x0 y0 Rein x y : x <> x0 \/ y <> y0 -> scale_free (reduced_deflection_angle_sis x0 y0 Rein 0) x0 y0 x y.
Proof.
  intros N k Hk. unfold reduced_deflection_angle_sis, translate_rotate. cbv zeta. rewrite !Rplus_0_r.
  assert (P := norm_pos _ _ (off_centre _ _ _ _ N)).
  replace ((x0 + k * (x - x0) - x0) ^ 2 + (y0 + k * (y - y0) - y0) ^ 2) with (k ^ 2 * ((x - x0) ^ 2 + (y - y0) ^ 2)) by ring.
  rewrite sqrt_mult_alt by apply pow2_ge_0. rewrite sqrt_pow2 by lra. f_equal; field; lra.
Qed.
Lemma sie_scale_free x0 y0 q phi Rein x y : 0 < q <= 1 -> x <> x0 \/ y <> y0 -> scale_free (reduced_deflection_angle_sie x0 y0 q phi Rein 0) x0 y0 x y.
Proof. intros Hq N k Hk. apply sie_homogeneous; assumption. Qed.
Lemma sis_kappa_pos x0 y0 Rein x y : 0 < Rein -> x <> x0 \/ y <> y0 -> 0 < convergence_sis x0 y0 Rein 0 x y.
Proof.
  intros H N. assert (P := norm_pos _ _ (off_centre _ _ _ _ N)). unfold convergence_sis, translate_rotate. cbv zeta. rewrite Rplus_0_r. apply Rdiv_lt_0_compat; lra.
Qed.

(** ** minima of the arrival time *)
Lemma minimum_magnified psi alpha kappa x y : lens_consistent psi alpha kappa x y -> 0 <= kappa x y ->
  forall g1 g2, reports_shear alpha x y (g1, g2) -> g1 ^ 2 + g2 ^ 2 < (1 - kappa x y) ^ 2 -> kappa x y < 1 ->
  exists mu, magnification alpha x y = Some mu /\ 1 <= mu.
Proof.
  intros [_ (a & b & c & d & A & B & S & K)] K0 g1 g2 Sh G K1. subst c.
  assert (Sh' := shear_at _ _ _ _ _ _ _ A B).
  destruct (Sh (1%nat, 1%nat) (fun _ _ => x) (fun _ _ => y) None O O eq_refl eq_refl) as (S1 & H1 & H2).
  destruct (Sh' (1%nat, 1%nat) (fun _ _ => x) (fun _ _ => y) None O O eq_refl eq_refl) as (S2 & H3 & H4).
  rewrite H1 in H3. injection H3 as E. rewrite <- E, H2 in H4. apply pair_equal_spec in H4. destruct H4 as [E1 E2].
  destruct (D2_raytrace _ _ _ _ _ _ _ A B) as [Rx Ry]. unfold magnification, pixel_magnification. rewrite (jacfwd_D2 _ _ _ _ _ _ _ Rx Ry). cbn [m00 m01 m10 m11]. cbv zeta.
  replace ((1 - a) * (1 - d) - (0 - b) * (0 - b)) with ((1 - kappa x y) ^ 2 - (g1 ^ 2 + g2 ^ 2)) by (rewrite K, E1, E2; field).
  set (k := kappa x y) in *. assert (Q := pow2_ge_0 g1). assert (Q2 := pow2_ge_0 g2).
  assert (L : 0 < (1 - k) ^ 2 - (g1 ^ 2 + g2 ^ 2) <= 1) by (clearbody k; split; [lra|nra]).
  destruct (Req_EM_T (Rabs ((1 - k) ^ 2 - (g1 ^ 2 + g2 ^ 2))) 0) as [Z|Z].
  - rewrite Rabs_pos_eq in Z by lra. lra.
  - eexists. split; [reflexivity|]. rewrite Rabs_pos_eq by lra. apply Rmult_le_reg_r with ((1 - k) ^ 2 - (g1 ^ 2 + g2 ^ 2)); [lra|].
    unfold Rdiv. rewrite Rmult_assoc, Rinv_l by lra. lra.
Qed.

(** ** the circular profiles deflect radially *)
Lemma radial_of alpha x0 y0 (k : R -> R -> R) : (forall u v, alpha u v = (k u v * (u - x0), k u v * (v - y0))) -> deflects_radially alpha x0 y0.
Proof. intros H u v. rewrite H. cbn [fst snd]. ring. Qed.
Lemma sis_radial x0 y0 Rein s : deflects_radially (reduced_deflection_angle_sis x0 y0 Rein s) x0 y0.
Proof. intros u v. unfold reduced_deflection_angle_sis, translate_rotate. cbn [fst snd]. unfold Rdiv. ring. Qed.
Lemma point_radial x0 y0 Rein s : deflects_radially (reduced_deflection_angle_point x0 y0 Rein s) x0 y0.
Proof. intros u v. unfold reduced_deflection_angle_point, translate_rotate. cbn [fst snd]. unfold Rdiv. ring. Qed.
Lemma jaffe_radial dc z_s z_l x0 y0 mass Rc Rs : deflects_radially (jaffe_reduced_deflection_angle dc z_s z_l x0 y0 mass Rc Rs) x0 y0.
Proof. intros u v. unfold jaffe_reduced_deflection_angle, reduced_deflection_angle_pseudo_jaffe, translate_rotate. cbn [fst snd]. unfold Rdiv. ring. Qed.
Lemma nfw_radial dc cd z_s z_l x0 y0 mass c s : deflects_radially (nfw_reduced_deflection_angle dc cd z_s z_l x0 y0 mass c s) x0 y0.
Proof.
  intros u v. unfold nfw_reduced_deflection_angle, nfw_physical_deflection_angle, physical_deflection_angle_nfw, reduced_from_physical_deflection_angle, translate_rotate. cbn [fst snd]. unfold Rdiv. ring.
Qed.
Lemma tnfw_radial dc cd tot z_s z_l x0 y0 mass Rs tau s : deflects_radially (tnfw_reduced_deflection_angle dc cd tot z_s z_l x0 y0 mass Rs tau s) x0 y0.
Proof.
  intros u v. unfold tnfw_reduced_deflection_angle, tnfw_physical_deflection_angle, physical_deflection_angle_tnfw, reduced_from_physical_deflection_angle, translate_rotate. cbn [fst snd].
  destruct (atan2_polar (u - x0) (v - y0)) as [A B]. set (t := atan2 (v - y0) (u - x0)) in *. set (m := mass_enclosed_2d_tnfw _ _ _ _). clearbody m.
  set (r := sqrt ((u - x0) ^ 2 + (v - y0) ^ 2)) in *. clearbody r t. rewrite A at 1. rewrite B at 1. unfold Rdiv. ring.
Qed.
