(** * Magnification is a ratio of areas *)
From Coq Require Import Reals Lra String.
From Coquelicot Require Import Coquelicot.
From Verif Require Import Calc2 Derive1 Py Lens_Spec LensBase_Model LensBasic_Model LensBase_Proofs LensBasic_Proofs Area_Spec.
Local Open Scope string_scope.
Local Open Scope R_scope.

Definition quotient (f : R -> R -> R) (x y : R) (u : R * R) (h : R) : R := (f (x + h * fst u) (y + h * snd u) - f x y) / h.
Lemma quotient_lim f x y fx fy u : D2 f x y fx fy -> is_lim (quotient f x y u) 0 (fx * fst u + fy * snd u).
Proof.
  intros D.
  assert (E : is_derive (fun h => f (x + h * fst u) (y + h * snd u)) 0 (fx * fst u + fy * snd u)).
  { apply (D2_curve f (fun h => x + h * fst u) (fun h => y + h * snd u) 0 fx fy (fst u) (snd u)).
    - replace (x + 0 * fst u) with x by ring. replace (y + 0 * snd u) with y by ring. exact D.
    - auto_derive; auto; ring.
    - auto_derive; auto; ring. }
  apply is_derive_Reals in E. apply is_lim_spec. intros eps. destruct (E eps (cond_pos eps)) as [d H].
  exists d. intros h B N. unfold ball in B; cbn in B; unfold AbsRing_ball, abs, minus, plus, opp in B; cbn in B.
  assert (B' : Rabs h < d) by (replace h with (h + - 0) by ring; exact B).
  specialize (H h N B'). unfold quotient. replace (x + (0 + h) * fst u) with (x + h * fst u) in H by ring. replace (y + (0 + h) * snd u) with (y + h * snd u) in H by ring.
  replace (x + 0 * fst u) with x in H by ring. replace (y + 0 * snd u) with y in H by ring. exact H.
Qed.
Lemma lim_minus f g x a b : is_lim f x (Finite a) -> is_lim g x (Finite b) -> is_lim (fun h => f h - g h) x (Finite (a - b)).
Proof. intros A B. exact (is_lim_minus' f g x a b A B). Qed.
Lemma lim_mult f g x a b : is_lim f x (Finite a) -> is_lim g x (Finite b) -> is_lim (fun h => f h * g h) x (Finite (a * b)).
Proof. intros A B. exact (is_lim_mult f g x a b A B Logic.I). Qed.
Lemma lim_abs f x a : is_lim f x (Finite a) -> is_lim (fun h => Rabs (f h)) x (Finite (Rabs a)).
Proof.
  intros A. apply is_lim_spec in A. apply is_lim_spec. intros eps. generalize (A eps). apply filter_imp. intros h H.
  eapply Rle_lt_trans; [apply Rabs_triang_inv2|exact H].
Qed.

Section Area.
Variables (f g : R -> R -> R) (x y f1 f2 g1 g2 : R).
Hypothesis Df : D2 f x y f1 f2.
Hypothesis Dg : D2 g x y g1 g2.
Variables (u v w : R * R).
Notation rt := (fun a b => (f a b, g a b)).
Notation det := (f1 * g2 - f2 * g1).
Let c := cross3 u v w.
Hypothesis Hc : c <> 0.
Definition scaled (h : R) : R :=
  (quotient f x y v h - quotient f x y u h) * (quotient g x y w h - quotient g x y u h) - (quotient g x y v h - quotient g x y u h) * (quotient f x y w h - quotient f x y u h).
Lemma scaled_lim : is_lim scaled 0 (det * c).
Proof.
  replace (Finite (det * c)) with (Finite (((f1 * fst v + f2 * snd v) - (f1 * fst u + f2 * snd u)) * ((g1 * fst w + g2 * snd w) - (g1 * fst u + g2 * snd u)) -
    ((g1 * fst v + g2 * snd v) - (g1 * fst u + g2 * snd u)) * ((f1 * fst w + f2 * snd w) - (f1 * fst u + f2 * snd u)))) by (f_equal; unfold c, cross3; ring).
  apply lim_minus; apply lim_mult; apply lim_minus; apply quotient_lim; assumption.
Qed.
Lemma cross_image h : cross3 (corner x y h u) (corner x y h v) (corner x y h w) = h ^ 2 * c.
Proof. unfold c, cross3, corner. cbn [fst snd]. ring. Qed.
Lemma cross_source h : h <> 0 ->
  cross3 (rt (x + h * fst u) (y + h * snd u)) (rt (x + h * fst v) (y + h * snd v)) (rt (x + h * fst w) (y + h * snd w)) = h ^ 2 * scaled h.
Proof. intros N. unfold cross3, scaled, quotient. cbn [fst snd]. field. exact N. Qed.
Lemma near0 (P : R -> Prop) : (forall h, h <> 0 -> P h) -> Rbar_locally' 0 P.
Proof. intros H. exists (mkposreal 1 Rlt_0_1). intros h _ N. apply H, N. Qed.
Lemma source_over_image h : h <> 0 -> source_area rt x y u v w h / image_area x y u v w h = Rabs (scaled h) / Rabs c.
Proof.
  intros N. unfold source_area, image_area, area. rewrite cross_image. unfold corner. cbn [fst snd]. rewrite (cross_source h N), !Rabs_mult.
  assert (0 < Rabs (h ^ 2)) by (apply Rabs_pos_lt, pow_nonzero, N). assert (0 < Rabs c) by (apply Rabs_pos_lt, Hc). field. lra.
Qed.
Lemma ratio_lim : is_lim (fun h => source_area rt x y u v w h / image_area x y u v w h) 0 (Rabs det).
Proof.
  apply (is_lim_ext_loc (fun h => Rabs (scaled h) * / Rabs c)).
  - apply near0. intros h N. rewrite (source_over_image h N). reflexivity.
  - replace (Finite (Rabs det)) with (Finite (Rabs (det * c) * / Rabs c)) by (f_equal; rewrite Rabs_mult; field; apply Rabs_no_R0, Hc).
    apply lim_mult; [|apply is_lim_const]. exact (lim_abs scaled 0 _ scaled_lim).
Qed.
Lemma inverse_lim : det <> 0 -> is_lim (fun h => image_area x y u v w h / source_area rt x y u v w h) 0 (1 / Rabs det).
Proof.
  intros N. assert (P := Rabs_pos_lt _ N). assert (L := ratio_lim).
  apply is_lim_inv in L; [|intros E; injection E as E; lra].
  replace (Finite (1 / Rabs det)) with (Rbar_inv (Rabs det)) by (cbn; f_equal; lra).
  apply (is_lim_ext (fun h => / (source_area rt x y u v w h / image_area x y u v w h))); [|exact L].
  intros h. unfold Rdiv. rewrite Rinv_mult, Rinv_inv. ring.
Qed.
Lemma orientation_near : det <> 0 -> Rbar_locally' 0 (fun h => 0 < det * orientation rt x y u v w h).
Proof.
  intros N. assert (L := scaled_lim). apply is_lim_spec in L.
  assert (M : det * c <> 0) by (apply Rmult_integral_contrapositive; split; assumption). assert (P := Rabs_pos_lt _ M).
  destruct (L (mkposreal _ P)) as [d H]. exists d. intros h B Z. specialize (H h B Z). cbn [pos] in H.
  unfold orientation. rewrite cross_image. unfold corner. cbn [fst snd]. rewrite (cross_source h Z).
  assert (Q : 0 < det * c * scaled h).
  { apply Rabs_def2 in H. destruct H as [H1 H2]. destruct (Rlt_dec 0 (det * c)) as [S|S].
    - rewrite (Rabs_right (det * c)) in H1, H2 by lra. nra.
    - rewrite (Rabs_left1 (det * c)) in H1, H2 by lra. nra. }
  replace (det * (h ^ 2 * c * (h ^ 2 * scaled h))) with ((h ^ 2) ^ 2 * (det * c * scaled h)) by ring.
  apply Rmult_lt_0_compat; [|exact Q]. apply pow_lt. pose proof (pow2_gt_0 h Z). lra.
Qed.
End Area.

(** ** lenses *)
Lemma pair_rt alpha : (fun a b => (fst (raytrace alpha a b), snd (raytrace alpha a b))) = raytrace alpha.
Proof. apply FunctionalExtensionality.functional_extensionality. intros a. apply FunctionalExtensionality.functional_extensionality. intros b. symmetry. apply surjective_pairing. Qed.
Lemma rt_D2 alpha x y : differentiable_at alpha x y -> let A := mat2_sub eye2 (jacfwd alpha x y) in
  D2 (fun u v => fst (raytrace alpha u v)) x y (m00 A) (m01 A) /\ D2 (fun u v => snd (raytrace alpha u v)) x y (m10 A) (m11 A) /\
  jacfwd (raytrace alpha) x y = A.
Proof.
  intros (a & b & c & d & D1 & D3). cbv zeta.
  assert (J : jacfwd alpha x y = Mat2 a b c d).
  { unfold jacfwd. f_equal; apply is_derive_unique; [exact (D2_is_derive_x _ _ _ _ _ D1)|exact (D2_is_derive_y _ _ _ _ _ D1)|exact (D2_is_derive_x _ _ _ _ _ D3)|exact (D2_is_derive_y _ _ _ _ _ D3)]. }
  assert (E1 : D2 (fun u v => fst (raytrace alpha u v)) x y (1 - a) (0 - b)).
  { apply (D2_ext (fun u v => u - fst (alpha u v))); [intros u v; unfold raytrace; destruct (alpha u v); reflexivity|]. apply D2_minus; [apply D2_fst|exact D1]. }
  assert (E2 : D2 (fun u v => snd (raytrace alpha u v)) x y (0 - c) (1 - d)).
  { apply (D2_ext (fun u v => v - snd (alpha u v))); [intros u v; unfold raytrace; destruct (alpha u v); reflexivity|]. apply D2_minus; [apply D2_snd|exact D3]. }
  rewrite J. cbn [mat2_sub eye2 m00 m01 m10 m11]. split; [exact E1|]. split; [exact E2|].
  unfold jacfwd, mat2_sub, eye2. cbn [m00 m01 m10 m11]. f_equal; apply is_derive_unique; [exact (D2_is_derive_x _ _ _ _ _ E1)|exact (D2_is_derive_y _ _ _ _ _ E1)|exact (D2_is_derive_x _ _ _ _ _ E2)|exact (D2_is_derive_y _ _ _ _ _ E2)].
Qed.
Lemma magnification_area alpha x y u v w : differentiable_at alpha x y -> cross3 u v w <> 0 ->
  match magnification alpha x y with
  | Some mu => is_lim (fun h => image_area x y u v w h / source_area (raytrace alpha) x y u v w h) 0 mu
  | None => is_lim (fun h => source_area (raytrace alpha) x y u v w h / image_area x y u v w h) 0 0
  end.
Proof.
  intros D C. destruct (rt_D2 alpha x y D) as (D1 & D3 & J). unfold magnification, pixel_magnification. rewrite J.
  set (A := mat2_sub eye2 (jacfwd alpha x y)) in *. destruct (Req_EM_T (Rabs (m00 A * m11 A - m01 A * m10 A)) 0) as [Z|Z].
  - rewrite <- (pair_rt alpha). assert (L := ratio_lim _ _ x y _ _ _ _ D1 D3 u v w C). rewrite Z in L. exact L.
  - rewrite <- (pair_rt alpha). apply (inverse_lim _ _ x y _ _ _ _ D1 D3 u v w C). intros E. apply Z. rewrite E. apply Rabs_R0.
Qed.
Lemma parity_area alpha x y u v w shape X Y ps i j : differentiable_at alpha x y -> cross3 u v w <> 0 -> X i j = x -> Y i j = y ->
  exists A, jacobian_lens_equation alpha shape X Y "autograd" ps = Ok A /\
  let d := m00 (A i j) * m11 (A i j) - m01 (A i j) * m10 (A i j) in
  d <> 0 -> Rbar_locally' 0 (fun h => 0 < d * orientation (raytrace alpha) x y u v w h).
Proof.
  intros D C EX EY. destruct (rt_D2 alpha x y D) as (D1 & D3 & _).
  exists (fun i j => mat2_sub eye2 (jacobian_autograd alpha X Y i j)). split; [reflexivity|]. cbv zeta. unfold jacobian_autograd. rewrite EX, EY. intros N.
  rewrite <- (pair_rt alpha). apply (orientation_near _ _ x y _ _ _ _ D1 D3 u v w C N).
Qed.
Lemma consistent_differentiable psi alpha kappa x y : lens_consistent psi alpha kappa x y -> differentiable_at alpha x y.
Proof. intros (_ & a & b & c & d & A & B & _). exists a, b, c, d. split; assumption. Qed.

(** ** lenses with a constant Jacobian: every triangle *)
Lemma affine_area a b e c d f p q r mu : let alpha x y := (a * x + b * y + e, c * x + d * y + f) in
  magnification alpha (fst p) (snd p) = Some mu ->
  area p q r = mu * area (raytrace alpha (fst p) (snd p)) (raytrace alpha (fst q) (snd q)) (raytrace alpha (fst r) (snd r)).
Proof.
  cbv zeta. intros M.
  assert (J : jacfwd (raytrace (fun x y => (a * x + b * y + e, c * x + d * y + f))) (fst p) (snd p) = Mat2 (1 - a) (- b) (- c) (1 - d)).
  { unfold jacfwd, raytrace. cbn [fst snd]. f_equal; apply is_derive_unique; auto_derive; auto; ring. }
  unfold magnification, pixel_magnification in M. rewrite J in M. cbn [m00 m01 m10 m11] in M.
  destruct (Req_EM_T (Rabs ((1 - a) * (1 - d) - - b * - c)) 0) as [Z|Z]; [discriminate|]. injection M as M. rewrite <- M.
  unfold area, raytrace. cbn [fst snd].
  match goal with |- _ = _ * (Rabs ?t / 2) => replace t with (((1 - a) * (1 - d) - - b * - c) * cross3 p q r) by (unfold cross3; cbn [fst snd]; ring) end.
  rewrite Rabs_mult. field. exact Z.
Qed.

Lemma sheet_diff x0 y0 kappa x y : differentiable_at (reduced_deflection_angle_mass_sheet x0 y0 kappa) x y.
Proof. exact (consistent_differentiable _ _ _ x y (mass_sheet_consistent x0 y0 kappa x y)). Qed.
Lemma shear_diff x0 y0 g1 g2 x y : differentiable_at (reduced_deflection_angle_external_shear x0 y0 g1 g2) x y.
Proof. exact (consistent_differentiable _ _ _ x y (external_shear_consistent x0 y0 g1 g2 x y)). Qed.
Lemma sis_diff x0 y0 Rein x y : x <> x0 \/ y <> y0 -> differentiable_at (reduced_deflection_angle_sis x0 y0 Rein 0) x y.
Proof. intros H. exact (consistent_differentiable _ _ _ x y (sis_consistent x0 y0 Rein x y H)). Qed.
Lemma point_diff x0 y0 Rein x y : x <> x0 \/ y <> y0 -> differentiable_at (reduced_deflection_angle_point x0 y0 Rein 0) x y.
Proof.
  intros H. destruct (convergence_point x0 y0 x y) as [k|] eqn:E; [exact (consistent_differentiable _ _ _ x y (point_consistent x0 y0 Rein x y k E))|].
  apply convergence_point_centre in E. lra.
Qed.
(** beside the theorems: an SIS off its centre, a triangle, a sheet of convergence 1/2 *)
Lemma area_hyps : differentiable_at (reduced_deflection_angle_sis 0 0 1 0) 3 0 /\ cross3 (0, 0) (1, 0) (0, 1) <> 0 /\ magnification (fun x y => (1 / 2 * x + 0 * y + 0, 0 * x + 1 / 2 * y + 0)) 0 0 = Some 4.
Proof.
  split; [apply sis_diff; left; lra|]. split; [unfold cross3; cbn; lra|]. unfold magnification, pixel_magnification.
  replace (jacfwd (raytrace (fun x y => (1 / 2 * x + 0 * y + 0, 0 * x + 1 / 2 * y + 0))) 0 0) with (Mat2 (1 / 2) 0 0 (1 / 2)).
  2:{ unfold jacfwd, raytrace. cbn [fst snd]. f_equal; symmetry; apply is_derive_unique; auto_derive; auto; lra. }
  cbn [m00 m01 m10 m11]. rewrite Rabs_right by lra. destruct (Req_EM_T (1 / 2 * (1 / 2) - 0 * 0) 0); [lra|]. f_equal. lra.
Qed.
