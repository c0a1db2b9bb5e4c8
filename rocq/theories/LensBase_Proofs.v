From Coq Require Import Reals List String Lra Lia Permutation Bool.
From Coquelicot Require Import Coquelicot.
From Verif Require Import Py Calc2 Const_Model Cosmo_Model Geo_Model Geo_Proofs Lens_Spec Lens_Lib LensBase_Model.
Import ListNotations.
Open Scope R_scope.

(** ** cosmology *)
Section Cosmo.
Variable cd : R -> R.
Lemma cd_chain z1 z2 z3 :
  comoving_distance_z1z2 cd z1 z2 + comoving_distance_z1z2 cd z2 z3 = comoving_distance_z1z2 cd z1 z3.
Proof. unfold comoving_distance_z1z2; ring. Qed.
Lemma cd_self z : comoving_distance_z1z2 cd z z = 0.
Proof. unfold comoving_distance_z1z2; ring. Qed.
Lemma add_compose z1 z2 : 1 + z1 <> 0 -> 1 + z2 <> 0 ->
  (1 + z2) * angular_diameter_distance_z1z2 cd z1 z2 =
  (1 + z2) * angular_diameter_distance cd z2 - (1 + z1) * angular_diameter_distance cd z1.
Proof.
  intros H1 H2. unfold angular_diameter_distance_z1z2, angular_diameter_distance, comoving_distance_z1z2.
  field. split; assumption.
Qed.
Lemma add_comoving z : 1 + z <> 0 -> (1 + z) * angular_diameter_distance cd z = cd z.
Proof. intros H. unfold angular_diameter_distance; field; exact H. Qed.
Lemma sigma_cr_spec zl zs :
  angular_diameter_distance cd zl <> 0 -> angular_diameter_distance_z1z2 cd zl zs <> 0 ->
  critical_surface_density cd zl zs *
    (4 * PI * G_over_c2 * angular_diameter_distance cd zl * angular_diameter_distance_z1z2 cd zl zs)
  = angular_diameter_distance cd zs.
Proof.
  intros H1 H2. unfold critical_surface_density.
  assert (P := PI_RGT_0). assert (Gp := G_over_c2_pos).
  field. repeat split; try assumption; lra.
Qed.
Lemma time_delay_distance_spec zl zs :
  angular_diameter_distance cd zl <> 0 -> angular_diameter_distance_z1z2 cd zl zs <> 0 ->
  time_delay_distance cd zl zs =
  (1 + zl) * (4 * PI * G_over_c2) * angular_diameter_distance cd zl ^ 2 * critical_surface_density cd zl zs.
Proof.
  intros H1 H2. unfold time_delay_distance, critical_surface_density.
  assert (P := PI_RGT_0). assert (Gp := G_over_c2_pos).
  field. repeat split; try assumption; lra.
Qed.
Lemma distances_pos zl zs : -1 < zl -> zl < zs -> 0 < cd zl -> (forall a b, a < b -> cd a < cd b) ->
  0 < angular_diameter_distance cd zl /\ 0 < angular_diameter_distance cd zs /\
  0 < angular_diameter_distance_z1z2 cd zl zs /\ 0 < critical_surface_density cd zl zs /\
  0 < time_delay_distance cd zl zs.
Proof.
  intros H1 H2 H3 H4. assert (H5 := H4 _ _ H2).
  assert (A : 0 < angular_diameter_distance cd zl) by (apply Rdiv_lt_0_compat; lra).
  assert (B : 0 < angular_diameter_distance cd zs) by (apply Rdiv_lt_0_compat; lra).
  assert (C : 0 < angular_diameter_distance_z1z2 cd zl zs)
    by (apply Rdiv_lt_0_compat; unfold comoving_distance_z1z2; lra).
  repeat split; try assumption.
  - unfold critical_surface_density. apply Rdiv_lt_0_compat; [assumption|].
    assert (P := PI_RGT_0). assert (Gp := G_over_c2_pos).
    apply Rmult_lt_0_compat; [|assumption]. apply Rmult_lt_0_compat; [|assumption].
    apply Rmult_lt_0_compat; [lra|assumption].
  - unfold time_delay_distance. apply Rdiv_lt_0_compat; [|assumption].
    apply Rmult_lt_0_compat; [|assumption]. apply Rmult_lt_0_compat; [lra|assumption].
Qed.
End Cosmo.

(** ** conversions *)
Lemma phys_red ax ay d_s d_ls : d_s <> 0 -> d_ls <> 0 ->
  (let '(px, py) := physical_from_reduced_deflection_angle ax ay d_s d_ls in
   reduced_from_physical_deflection_angle px py d_s d_ls) = (ax, ay).
Proof. intros H1 H2. unfold physical_from_reduced_deflection_angle, reduced_from_physical_deflection_angle.
  f_equal; field; split; assumption. Qed.
Lemma red_phys ax ay d_s d_ls : d_s <> 0 -> d_ls <> 0 ->
  (let '(px, py) := reduced_from_physical_deflection_angle ax ay d_s d_ls in
   physical_from_reduced_deflection_angle px py d_s d_ls) = (ax, ay).
Proof. intros H1 H2. unfold physical_from_reduced_deflection_angle, reduced_from_physical_deflection_angle.
  f_equal; field; split; assumption. Qed.
Lemma reduced_is_ratio cd lens zs x y :
  let d_s := angular_diameter_distance cd zs in
  let d_ls := angular_diameter_distance_z1z2 cd (z_l lens) zs in
  d_s <> 0 -> d_ls <> 0 ->
  fst (reduced_deflection_angle lens x y) = d_ls / d_s * fst (physical_deflection_angle cd lens zs x y) /\
  snd (reduced_deflection_angle lens x y) = d_ls / d_s * snd (physical_deflection_angle cd lens zs x y).
Proof.
  intros d_s d_ls H1 H2. unfold physical_deflection_angle. fold d_s d_ls.
  destruct (reduced_deflection_angle lens x y) as [a b]; simpl. split; field; split; assumption.
Qed.
Lemma conversions_linear c1 c2 ax ay bx by_ d_s d_ls :
  physical_from_reduced_deflection_angle (c1 * ax + c2 * bx) (c1 * ay + c2 * by_) d_s d_ls =
  (c1 * fst (physical_from_reduced_deflection_angle ax ay d_s d_ls) + c2 * fst (physical_from_reduced_deflection_angle bx by_ d_s d_ls),
   c1 * snd (physical_from_reduced_deflection_angle ax ay d_s d_ls) + c2 * snd (physical_from_reduced_deflection_angle bx by_ d_s d_ls)) /\
  reduced_from_physical_deflection_angle (c1 * ax + c2 * bx) (c1 * ay + c2 * by_) d_s d_ls =
  (c1 * fst (reduced_from_physical_deflection_angle ax ay d_s d_ls) + c2 * fst (reduced_from_physical_deflection_angle bx by_ d_s d_ls),
   c1 * snd (reduced_from_physical_deflection_angle ax ay d_s d_ls) + c2 * snd (reduced_from_physical_deflection_angle bx by_ d_s d_ls)).
Proof. unfold physical_from_reduced_deflection_angle, reduced_from_physical_deflection_angle; simpl;
  split; f_equal; ring. Qed.

(** ** Jacobians *)
Lemma jacfwd_D2 f x y a b c d :
  D2 (fun u v => fst (f u v)) x y a b -> D2 (fun u v => snd (f u v)) x y c d ->
  jacfwd f x y = Mat2 a b c d.
Proof.
  intros H1 H2. unfold jacfwd. f_equal; apply is_derive_unique.
  - apply (D2_is_derive_x _ _ _ _ _ H1).
  - apply (D2_is_derive_y _ _ _ _ _ H1).
  - apply (D2_is_derive_x _ _ _ _ _ H2).
  - apply (D2_is_derive_y _ _ _ _ _ H2).
Qed.

Lemma D2_raytrace alpha x y a b c d :
  D2 (fun u v => fst (alpha u v)) x y a b -> D2 (fun u v => snd (alpha u v)) x y c d ->
  D2 (fun u v => fst (raytrace alpha u v)) x y (1 - a) (0 - b) /\
  D2 (fun u v => snd (raytrace alpha u v)) x y (0 - c) (1 - d).
Proof.
  intros H1 H2. split.
  - apply (D2_ext (fun u v => u - fst (alpha u v))).
    { intros u v; unfold raytrace; destruct (alpha u v); reflexivity. }
    apply (D2_minus (fun u _ => u)); [apply D2_fst|exact H1].
  - apply (D2_ext (fun u v => v - snd (alpha u v))).
    { intros u v; unfold raytrace; destruct (alpha u v); reflexivity. }
    apply (D2_minus (fun _ v => v)); [apply D2_snd|exact H2].
Qed.

Lemma consistent_jacobian psi alpha kappa x y :
  lens_consistent psi alpha kappa x y ->
  exists A, (forall shape X Y ps i j, X i j = x -> Y i j = y ->
               exists A', jacobian_lens_equation alpha shape X Y "autograd" ps = Ok A' /\ A' i j = A) /\
    D2 (fun u v => fst (raytrace alpha u v)) x y (m00 A) (m01 A) /\
    D2 (fun u v => snd (raytrace alpha u v)) x y (m10 A) (m11 A) /\
    m01 A = m10 A /\
    (let '(g1, g2) := shear_of_jacobian A in
     m00 A * m11 A - m01 A * m10 A = (1 - kappa x y) ^ 2 - g1 ^ 2 - g2 ^ 2) /\
    (let d := Rabs (m00 A * m11 A - m01 A * m10 A) in
     (d <> 0 -> exists mu, magnification alpha x y = Some mu /\ mu * d = 1) /\
     (d = 0 -> magnification alpha x y = None)).
Proof.
  intros [_ (a & b & c & d & H1 & H2 & Hs & Hk)]. subst c.
  exists (Mat2 (1 - a) (0 - b) (0 - b) (1 - d)).
  destruct (D2_raytrace _ _ _ _ _ _ _ H1 H2) as [R1 R2].
  split; [|split; [|split; [|split; [|split]]]]; try assumption.
  - intros. eexists; split; [reflexivity|]. unfold jacobian_autograd. rewrite H, H0.
    rewrite (jacfwd_D2 _ _ _ _ _ _ _ H1 H2). reflexivity.
  - reflexivity.
  - unfold shear_of_jacobian; cbn [m00 m01 m10 m11]. rewrite Hk. field.
  - cbn [m00 m01 m10 m11]. unfold magnification, pixel_magnification.
    rewrite (jacfwd_D2 _ _ _ _ _ _ _ R1 R2). cbn [m00 m01 m10 m11]. cbv zeta.
    split; intros Hd; destruct (Req_EM_T _ 0) as [E|E]; try contradiction; try reflexivity.
    eexists; split; [reflexivity|]. field. exact Hd.
Qed.

Lemma shear_is_second_derivative alpha x y a b c d :
  D2 (fun u v => fst (alpha u v)) x y a b -> D2 (fun u v => snd (alpha u v)) x y c d ->
  forall shape X Y ps i j, X i j = x -> Y i j = y ->
  exists S, shear alpha shape X Y "autograd" ps = Ok S /\ S i j = ((a - d) / 2, b).
Proof.
  intros H1 H2 shape X Y ps i j Hx Hy. eexists; split; [reflexivity|].
  unfold jacobian_autograd; rewrite Hx, Hy, (jacfwd_D2 _ _ _ _ _ _ _ H1 H2).
  unfold shear_of_jacobian; cbn. f_equal; field.
Qed.

(** the default deflection and convergence of a lens that only defines its potential *)
Lemma default_lens_consistent psi gx gy x y a b c d :
  locally_2d (fun u v => D2 psi u v (gx u v) (gy u v)) x y ->
  D2 gx x y a b -> D2 gy x y c d ->
  lens_consistent psi (default_deflection psi) (default_convergence psi) x y.
Proof.
  intros Hg Hx Hy. assert (Hbc := mixed_partials _ _ _ _ _ _ _ _ _ Hg Hx Hy). subst c.
  assert (L : locally_2d (fun u v => grad psi u v = (gx u v, gy u v)) x y).
  { revert Hg; apply locally_2d_impl, locally_2d_forall. intros u v H. unfold grad.
    f_equal; apply is_derive_unique.
    - apply (D2_is_derive_x _ _ _ _ _ H).
    - apply (D2_is_derive_y _ _ _ _ _ H). }
  assert (X1 : D2 (fun u v => fst (grad psi u v)) x y a b).
  { apply (D2_ext_loc gx); [|exact Hx]. revert L; apply locally_2d_impl, locally_2d_forall.
    intros u v ->; reflexivity. }
  assert (Y1 : D2 (fun u v => snd (grad psi u v)) x y b d).
  { apply (D2_ext_loc gy); [|exact Hy]. revert L; apply locally_2d_impl, locally_2d_forall.
    intros u v ->; reflexivity. }
  split.
  - unfold deflection_is_gradient, default_deflection. rewrite (locally_2d_singleton _ _ _ L). simpl.
    exact (locally_2d_singleton _ _ _ Hg).
  - exists a, b, b, d. split; [exact X1|]. split; [exact Y1|]. split; [reflexivity|].
    unfold default_convergence. rewrite (jacfwd_D2 _ _ _ _ _ _ _ X1 Y1). simpl. field.
Qed.

(** ** finite differences *)
Lemma gradient1_affine n h c m f k : h <> 0 -> (2 <= n)%nat -> (k < n)%nat ->
  (forall j, (j < n)%nat -> f j = c + m * (INR j * h)) -> gradient1 n h f k = m.
Proof.
  intros Hh Hn Hk Hf. unfold gradient1.
  destruct (Nat.eqb_spec k 0).
  - rewrite (Hf 1%nat), (Hf 0%nat) by lia. simpl. field; assumption.
  - destruct (Nat.eqb_spec k (n - 1)).
    + rewrite (Hf (n - 1)%nat), (Hf (n - 2)%nat) by lia.
      rewrite (minus_INR n 1), (minus_INR n 2) by lia. simpl. field; assumption.
    + rewrite (Hf (k + 1)%nat), (Hf (k - 1)%nat) by lia.
      rewrite plus_INR, minus_INR by lia. simpl. field; assumption.
Qed.

Lemma finitediff_affine alpha a00 a01 a10 a11 b0 b1 ps nx ny :
  ps <> 0 -> (2 <= nx)%nat -> (2 <= ny)%nat ->
  (forall x y, alpha x y = (a00 * x + a01 * y + b0, a10 * x + a11 * y + b1)) ->
  let '(shape, X, Y) := meshgrid ps nx (Some ny) in
  exists J A, jacobian_deflection_angle alpha shape X Y "finitediff" (Some ps) = Ok J /\
    jacobian_lens_equation alpha shape X Y "finitediff" (Some ps) = Ok A /\
    forall i j, (i < ny)%nat -> (j < nx)%nat ->
      J i j = Mat2 a00 a01 a10 a11 /\ A i j = Mat2 (1 - a00) (0 - a01) (0 - a10) (1 - a11).
Proof.
  intros Hps Hnx Hny Ha.
  destruct (meshgrid ps nx (Some ny)) as [[shape X] Y] eqn:E.
  assert (Hs : shape = (ny, nx)) by (unfold meshgrid in E; congruence). subst shape.
  assert (HX : forall i j, (i < ny)%nat -> (j < nx)%nat -> X i j = (INR j - (INR nx - 1) / 2) * ps).
  { intros i j Hi Hj. generalize (meshgrid_pixel_centres ps nx ny i j ltac:(lia) ltac:(lia) Hi Hj).
    rewrite E. intros (_ & H & _); exact H. }
  assert (HY : forall i j, (i < ny)%nat -> (j < nx)%nat -> Y i j = (INR i - (INR ny - 1) / 2) * ps).
  { intros i j Hi Hj. generalize (meshgrid_pixel_centres ps nx ny i j ltac:(lia) ltac:(lia) Hi Hj).
    rewrite E. intros (_ & _ & H); exact H. }
  set (J := fun i j => Mat2 (gradient1 nx ps (fun k => fst (alpha (X i k) (Y i k))) j)
                            (gradient1 ny ps (fun k => fst (alpha (X k j) (Y k j))) i)
                            (gradient1 nx ps (fun k => snd (alpha (X i k) (Y i k))) j)
                            (gradient1 ny ps (fun k => snd (alpha (X k j) (Y k j))) i)).
  assert (F : jacobian_finitediff alpha (ny, nx) X Y ps = Ok J).
  { unfold jacobian_finitediff, gradient2.
    replace (Nat.ltb ny 2) with false by (symmetry; apply Nat.ltb_ge; lia).
    replace (Nat.ltb nx 2) with false by (symmetry; apply Nat.ltb_ge; lia). reflexivity. }
  exists J, (fun i j => mat2_sub eye2 (J i j)). split; [exact F|].
  split. { unfold jacobian_lens_equation. simpl. rewrite F. reflexivity. }
  intros i j Hi Hj.
  assert (HJ : J i j = Mat2 a00 a01 a10 a11).
  { unfold J. f_equal.
    - apply gradient1_affine with (c := a01 * Y i j + b0 - a00 * ((INR nx - 1) / 2 * ps)); try lia; try assumption.
      intros k Hk. rewrite Ha; simpl. rewrite HX, !HY by lia. ring.
    - apply gradient1_affine with (c := a00 * X i j + b0 - a01 * ((INR ny - 1) / 2 * ps)); try lia; try assumption.
      intros k Hk. rewrite Ha; simpl. rewrite !HX, HY by lia. ring.
    - apply gradient1_affine with (c := a11 * Y i j + b1 - a10 * ((INR nx - 1) / 2 * ps)); try lia; try assumption.
      intros k Hk. rewrite Ha; simpl. rewrite HX, !HY by lia. ring.
    - apply gradient1_affine with (c := a10 * X i j + b1 - a11 * ((INR ny - 1) / 2 * ps)); try lia; try assumption.
      intros k Hk. rewrite Ha; simpl. rewrite !HX, HY by lia. ring. }
  split; [exact HJ|]. rewrite HJ; reflexivity.
Qed.

Lemma jacobian_methods alpha shape X Y :
  (forall ps, exists J, jacobian_deflection_angle alpha shape X Y "autograd" ps = Ok J) /\
  (forall m ps, m <> "autograd"%string -> (m <> "finitediff"%string \/ ps = None) ->
     jacobian_deflection_angle alpha shape X Y m ps = Raise ValueError /\
     jacobian_lens_equation alpha shape X Y m ps = Raise ValueError /\
     shear alpha shape X Y m ps = Raise ValueError).
Proof.
  split; [intros; eexists; reflexivity|].
  intros m ps H1 H2. unfold shear, jacobian_deflection_angle, jacobian_lens_equation.
  apply String.eqb_neq in H1; rewrite H1.
  destruct (String.eqb_spec m "finitediff").
  - destruct H2 as [H2| ->]; [contradiction|]. repeat split.
  - repeat split.
Qed.

(** ** SinglePlane *)
Definition rsum (l : list R) : R := fold_right Rplus 0 l.
Lemma rsum_app l1 l2 : rsum (l1 ++ l2) = rsum l1 + rsum l2.
Proof. induction l1; simpl; [ring|]. rewrite IHl1; ring. Qed.
Lemma rsum_perm l1 l2 : Permutation l1 l2 -> rsum l1 = rsum l2.
Proof. induction 1; simpl; lra. Qed.

Lemma sp_conv_sum l x y : forall a,
  fold_left (fun a lens => a + convergence lens x y) l a = a + rsum (map (fun t => convergence t x y) l).
Proof. induction l as [|t l IH]; intros a; simpl; [ring|]. rewrite IH; ring. Qed.
Lemma sp_pot_sum l x y : forall a,
  fold_left (fun a lens => a + potential lens x y) l a = a + rsum (map (fun t => potential t x y) l).
Proof. induction l as [|t l IH]; intros a; simpl; [ring|]. rewrite IH; ring. Qed.
Lemma sp_defl_sum l x y : forall a,
  fold_left (fun a lens => let '(ax_cur, ay_cur) := reduced_deflection_angle lens x y in
                           (fst a + ax_cur, snd a + ay_cur)) l a =
  (fst a + rsum (map (fun t => fst (reduced_deflection_angle t x y)) l),
   snd a + rsum (map (fun t => snd (reduced_deflection_angle t x y)) l)).
Proof.
  induction l as [|t l IH]; intros [a b]; simpl; [f_equal; ring|].
  rewrite IH. destruct (reduced_deflection_angle t x y); simpl. f_equal; ring.
Qed.

Lemma singleplane_sums l x y :
  singleplane_potential l x y = rsum (map (fun t => potential t x y) l) /\
  singleplane_convergence l x y = rsum (map (fun t => convergence t x y) l) /\
  singleplane_deflection l x y =
    (rsum (map (fun t => fst (reduced_deflection_angle t x y)) l),
     rsum (map (fun t => snd (reduced_deflection_angle t x y)) l)).
Proof.
  unfold singleplane_potential, singleplane_convergence, singleplane_deflection.
  rewrite sp_conv_sum, sp_pot_sum, sp_defl_sum. simpl.
  split; [ring|split; [ring|f_equal; ring]].
Qed.

Lemma singleplane_perm z l l' x y : Permutation l l' ->
  potential (singleplane z l) x y = potential (singleplane z l') x y /\
  convergence (singleplane z l) x y = convergence (singleplane z l') x y /\
  reduced_deflection_angle (singleplane z l) x y = reduced_deflection_angle (singleplane z l') x y.
Proof.
  intros H. simpl.
  destruct (singleplane_sums l x y) as (-> & -> & ->). destruct (singleplane_sums l' x y) as (-> & -> & ->).
  split; [apply rsum_perm, Permutation_map, H|]. split; [apply rsum_perm, Permutation_map, H|].
  f_equal; apply rsum_perm, Permutation_map, H.
Qed.

Lemma singleplane_app z l l' x y :
  potential (singleplane z (l ++ l')) x y = potential (singleplane z l) x y + potential (singleplane z l') x y /\
  convergence (singleplane z (l ++ l')) x y = convergence (singleplane z l) x y + convergence (singleplane z l') x y /\
  reduced_deflection_angle (singleplane z (l ++ l')) x y =
   (fst (reduced_deflection_angle (singleplane z l) x y) + fst (reduced_deflection_angle (singleplane z l') x y),
    snd (reduced_deflection_angle (singleplane z l) x y) + snd (reduced_deflection_angle (singleplane z l') x y)).
Proof.
  simpl.
  destruct (singleplane_sums l x y) as (-> & -> & ->). destruct (singleplane_sums l' x y) as (-> & -> & ->).
  destruct (singleplane_sums (l ++ l') x y) as (-> & -> & ->). rewrite !map_app, !rsum_app. auto.
Qed.

Lemma singleplane_consistent z l x y :
  (forall t, In t l -> lens_consistent (potential t) (reduced_deflection_angle t) (convergence t) x y) ->
  lens_consistent (potential (singleplane z l)) (reduced_deflection_angle (singleplane z l))
    (convergence (singleplane z l)) x y.
Proof.
  induction l as [|t l IH]; intros H.
  - apply lens_consistent_zero.
  - assert (H1 := H t (or_introl eq_refl)).
    assert (H2 := IH (fun u Hu => H u (or_intror Hu))).
    eapply lens_consistent_ext; [| | |exact (lens_consistent_plus _ _ _ _ _ _ _ _ H1 H2)].
    + intros u v. simpl. destruct (singleplane_sums l u v) as (-> & _).
      destruct (singleplane_sums (t :: l) u v) as (-> & _). reflexivity.
    + intros u v. simpl. destruct (singleplane_sums l u v) as (_ & _ & ->).
      destruct (singleplane_sums (t :: l) u v) as (_ & _ & ->). reflexivity.
    + simpl. destruct (singleplane_sums l x y) as (_ & -> & _).
      destruct (singleplane_sums (t :: l) x y) as (_ & -> & _). reflexivity.
Qed.

(** ** time delays *)
Definition fermat_surface (lens : thin_lens) (bx by_ : R) (x y : R) : R :=
  ((x - bx) ^ 2 + (y - by_) ^ 2) / 2 - potential lens x y.

Lemma fermat_stationary lens bx by_ x y :
  deflection_is_gradient (potential lens) (reduced_deflection_angle lens) x y ->
  (D2 (fermat_surface lens bx by_) x y 0 0 <-> raytrace (reduced_deflection_angle lens) x y = (bx, by_)).
Proof.
  intros H.
  assert (D : D2 (fermat_surface lens bx by_) x y
     (x - bx - fst (reduced_deflection_angle lens x y)) (y - by_ - snd (reduced_deflection_angle lens x y))).
  { unfold fermat_surface. unfold deflection_is_gradient in H. eapply D2_eq.
    - apply (D2_minus (fun u v => ((u - bx) ^ 2 + (v - by_) ^ 2) / 2)); [|exact H].
      apply (D2_ext (fun u v => (1 / 2) * ((u - bx) ^ 2 + (v - by_) ^ 2))); [intros; field|].
      apply D2_scal. apply D2_plus; apply D2_sqr; apply D2_minus; try apply D2_const; [apply D2_fst|apply D2_snd].
    - cbv beta; field.
    - cbv beta; field. }
  unfold raytrace. destruct (reduced_deflection_angle lens x y) as [ax ay]; cbn [fst snd] in D.
  split.
  - intros H0. destruct (D2_unique _ _ _ _ _ _ _ D H0). f_equal; lra.
  - intros E; inversion E; subst. eapply D2_eq; [exact D|ring|ring].
Qed.

Lemma time_delay_fermat cd lens zs x y :
  let '(bx, by_) := raytrace (reduced_deflection_angle lens) x y in
  time_delay cd lens zs x y true true =
  (1 + z_l lens) * (angular_diameter_distance cd (z_l lens) * angular_diameter_distance cd zs
     / angular_diameter_distance_z1z2 cd (z_l lens) zs) / c_Mpc_s / days_to_seconds
  * (fermat_surface lens bx by_ x y * arcsec_to_rad ^ 2).
Proof.
  unfold raytrace, time_delay, fermat_surface, arcsec2_to_days, time_delay_arcsec2_to_days.
  destruct (reduced_deflection_angle lens x y) as [ax ay]. unfold Rdiv. ring.
Qed.

Lemma time_delay_additive cd lens zs x y :
  time_delay cd lens zs x y false false = 0 /\
  time_delay cd lens zs x y true true =
    time_delay cd lens zs x y true false + time_delay cd lens zs x y false true.
Proof.
  unfold time_delay. destruct (reduced_deflection_angle lens x y) as [ax ay]. split; ring.
Qed.
