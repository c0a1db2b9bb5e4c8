(** * Properties of the methods shared by all lenses (C26-C29, C34) and of distances (C35). *)
From Coq Require Import Reals List String Lra Lia Permutation.
From Coquelicot Require Import Coquelicot.
From Verif Require Import Py Calc2 Const_Model Cosmo_Model Geo_Model Lens_Spec LensBase_Model LensBase_Proofs.
Import ListNotations.
Open Scope R_scope.

(** ** C26 *)
Theorem C26_reduced_undoes_physical : forall ax ay d_s d_ls, d_s <> 0 -> d_ls <> 0 ->
  (let '(px, py) := physical_from_reduced_deflection_angle ax ay d_s d_ls in
   reduced_from_physical_deflection_angle px py d_s d_ls) = (ax, ay).
Proof. exact phys_red. Qed.
Print Assumptions C26_reduced_undoes_physical.

Theorem C26_physical_undoes_reduced : forall ax ay d_s d_ls, d_s <> 0 -> d_ls <> 0 ->
  (let '(px, py) := reduced_from_physical_deflection_angle ax ay d_s d_ls in
   physical_from_reduced_deflection_angle px py d_s d_ls) = (ax, ay).
Proof. exact red_phys. Qed.
Print Assumptions C26_physical_undoes_reduced.

Theorem C26_ratio : forall cd lens zs x y,
  let d_s := angular_diameter_distance cd zs in
  let d_ls := angular_diameter_distance_z1z2 cd (z_l lens) zs in
  d_s <> 0 -> d_ls <> 0 ->
  fst (reduced_deflection_angle lens x y) = d_ls / d_s * fst (physical_deflection_angle cd lens zs x y) /\
  snd (reduced_deflection_angle lens x y) = d_ls / d_s * snd (physical_deflection_angle cd lens zs x y).
Proof. exact reduced_is_ratio. Qed.
Print Assumptions C26_ratio.

Theorem C26_linear : forall c1 c2 ax ay bx by_ d_s d_ls,
  physical_from_reduced_deflection_angle (c1 * ax + c2 * bx) (c1 * ay + c2 * by_) d_s d_ls =
  (c1 * fst (physical_from_reduced_deflection_angle ax ay d_s d_ls) + c2 * fst (physical_from_reduced_deflection_angle bx by_ d_s d_ls),
   c1 * snd (physical_from_reduced_deflection_angle ax ay d_s d_ls) + c2 * snd (physical_from_reduced_deflection_angle bx by_ d_s d_ls)) /\
  reduced_from_physical_deflection_angle (c1 * ax + c2 * bx) (c1 * ay + c2 * by_) d_s d_ls =
  (c1 * fst (reduced_from_physical_deflection_angle ax ay d_s d_ls) + c2 * fst (reduced_from_physical_deflection_angle bx by_ d_s d_ls),
   c1 * snd (reduced_from_physical_deflection_angle ax ay d_s d_ls) + c2 * snd (reduced_from_physical_deflection_angle bx by_ d_s d_ls)).
Proof. exact conversions_linear. Qed.
Print Assumptions C26_linear.

Example C26_hyps :
  angular_diameter_distance (fun z => z) 3 <> 0 /\ angular_diameter_distance_z1z2 (fun z => z) 1 3 <> 0.
Proof. unfold angular_diameter_distance, angular_diameter_distance_z1z2, comoving_distance_z1z2; lra. Qed.

(** ** C27 *)
Theorem C27_jacobian_shear_magnification : forall psi alpha kappa x y,
  lens_consistent psi alpha kappa x y ->
  exists A, (forall shape X Y ps i j, X i j = x -> Y i j = y ->
               exists A', jacobian_lens_equation alpha shape X Y "autograd" ps = Ok A' /\ A' i j = A) /\
    D2 (fun u v => fst (raytrace alpha u v)) x y (m00 A) (m01 A) /\
    D2 (fun u v => snd (raytrace alpha u v)) x y (m10 A) (m11 A) /\
    m01 A = m10 A /\
    (let '(g1, g2) := shear_of_jacobian A in
     m00 A * m11 A - m01 A * m10 A = (1 - kappa x y) ^ 2 - g1 ^ 2 - g2 ^ 2) /\
    (let d := Rabs (m00 A * m11 A - m01 A * m10 A) in
     (d <> 0 -> exists mu, magnification alpha x y = Some mu /\ mu * d = 1) /\
     (d = 0 -> magnification alpha x y = None)).
Proof. exact consistent_jacobian. Qed.
Print Assumptions C27_jacobian_shear_magnification.

(** the shear is ((psi_xx - psi_yy)/2, psi_xy) *)
Theorem C27_shear : forall alpha x y axx axy ayx ayy,
  D2 (fun u v => fst (alpha u v)) x y axx axy -> D2 (fun u v => snd (alpha u v)) x y ayx ayy ->
  forall shape X Y ps i j, X i j = x -> Y i j = y ->
  exists S, shear alpha shape X Y "autograd" ps = Ok S /\ S i j = ((axx - ayy) / 2, axy).
Proof. exact shear_is_second_derivative. Qed.
Print Assumptions C27_shear.

(** a lens that only defines a twice differentiable potential gets a consistent deflection and
    convergence from the base class *)
Theorem C27_default_methods_consistent : forall psi gx gy x y a b c d,
  locally_2d (fun u v => D2 psi u v (gx u v) (gy u v)) x y ->
  D2 gx x y a b -> D2 gy x y c d ->
  lens_consistent psi (default_deflection psi) (default_convergence psi) x y.
Proof. exact default_lens_consistent. Qed.
Print Assumptions C27_default_methods_consistent.

(** a non-trivial lens meeting the hypotheses: psi = x^2 y *)
Example C27_hyps :
  lens_consistent (fun x y => x ^ 2 * y) (fun x y => (2 * x * y, x ^ 2)) (fun x y => y) 1 2.
Proof.
  split.
  - unfold deflection_is_gradient; simpl fst; simpl snd. d2; ring.
  - exists 4, 2, 2, 0. split; [|split; [|split]]; try reflexivity; try field; cbn [fst snd]; d2; ring.
Qed.

(** ** C28 *)
Theorem C28_finitediff_exact_on_affine : forall alpha a00 a01 a10 a11 b0 b1 ps nx ny,
  ps <> 0 -> (2 <= nx)%nat -> (2 <= ny)%nat ->
  (forall x y, alpha x y = (a00 * x + a01 * y + b0, a10 * x + a11 * y + b1)) ->
  let '(shape, X, Y) := meshgrid ps nx (Some ny) in
  exists J A, jacobian_deflection_angle alpha shape X Y "finitediff" (Some ps) = Ok J /\
    jacobian_lens_equation alpha shape X Y "finitediff" (Some ps) = Ok A /\
    forall i j, (i < ny)%nat -> (j < nx)%nat ->
      J i j = Mat2 a00 a01 a10 a11 /\ A i j = Mat2 (1 - a00) (0 - a01) (0 - a10) (1 - a11).
Proof. exact finitediff_affine. Qed.
Print Assumptions C28_finitediff_exact_on_affine.

Theorem C28_methods : forall alpha shape X Y,
  (forall ps, exists J, jacobian_deflection_angle alpha shape X Y "autograd" ps = Ok J) /\
  (forall m ps, m <> "autograd"%string -> (m <> "finitediff"%string \/ ps = None) ->
     jacobian_deflection_angle alpha shape X Y m ps = Raise ValueError /\
     jacobian_lens_equation alpha shape X Y m ps = Raise ValueError /\
     shear alpha shape X Y m ps = Raise ValueError).
Proof. exact jacobian_methods. Qed.
Print Assumptions C28_methods.

Example C28_hyps : exists alpha : R -> R -> R * R,
  forall x y, alpha x y = (2 * x + 3 * y + 1, 5 * x + 7 * y + 0).
Proof. exists (fun x y => (2 * x + 3 * y + 1, 5 * x + 7 * y + 0)). reflexivity. Qed.

(** ** C29 *)
Theorem C29_sums : forall l x y,
  singleplane_potential l x y = fold_right Rplus 0 (map (fun t => potential t x y) l) /\
  singleplane_convergence l x y = fold_right Rplus 0 (map (fun t => convergence t x y) l) /\
  singleplane_deflection l x y =
    (fold_right Rplus 0 (map (fun t => fst (reduced_deflection_angle t x y)) l),
     fold_right Rplus 0 (map (fun t => snd (reduced_deflection_angle t x y)) l)).
Proof. exact singleplane_sums. Qed.
Print Assumptions C29_sums.

Theorem C29_any_order : forall z l l' x y, Permutation l l' ->
  potential (singleplane z l) x y = potential (singleplane z l') x y /\
  convergence (singleplane z l) x y = convergence (singleplane z l') x y /\
  reduced_deflection_angle (singleplane z l) x y = reduced_deflection_angle (singleplane z l') x y.
Proof. exact singleplane_perm. Qed.
Print Assumptions C29_any_order.

Theorem C29_concatenation : forall z l l' x y,
  potential (singleplane z (l ++ l')) x y = potential (singleplane z l) x y + potential (singleplane z l') x y /\
  convergence (singleplane z (l ++ l')) x y = convergence (singleplane z l) x y + convergence (singleplane z l') x y /\
  reduced_deflection_angle (singleplane z (l ++ l')) x y =
   (fst (reduced_deflection_angle (singleplane z l) x y) + fst (reduced_deflection_angle (singleplane z l') x y),
    snd (reduced_deflection_angle (singleplane z l) x y) + snd (reduced_deflection_angle (singleplane z l') x y)).
Proof. exact singleplane_app. Qed.
Print Assumptions C29_concatenation.

Theorem C29_consistent : forall z l x y,
  (forall t, In t l -> lens_consistent (potential t) (reduced_deflection_angle t) (convergence t) x y) ->
  lens_consistent (potential (singleplane z l)) (reduced_deflection_angle (singleplane z l))
    (convergence (singleplane z l)) x y.
Proof. exact singleplane_consistent. Qed.
Print Assumptions C29_consistent.

Example C29_hyps : forall t, In t [ThinLens 1 (fun x y => (2 * x * y, x ^ 2)) (fun x y => x ^ 2 * y) (fun x y => y)] ->
  lens_consistent (potential t) (reduced_deflection_angle t) (convergence t) 1 2.
Proof. intros t [<-|[]]. exact C27_hyps. Qed.

(** ** C34: time delays.  The Fermat surface in arcsec^2: *)
Definition fermat_surface (psi : R -> R -> R) (bx by_ x y : R) : R :=
  ((x - bx) ^ 2 + (y - by_) ^ 2) / 2 - psi x y.

Theorem C34_stationary_at_images : forall lens bx by_ x y,
  deflection_is_gradient (potential lens) (reduced_deflection_angle lens) x y ->
  (D2 (fermat_surface (potential lens) bx by_) x y 0 0
   <-> raytrace (reduced_deflection_angle lens) x y = (bx, by_)).
Proof. exact fermat_stationary. Qed.
Print Assumptions C34_stationary_at_images.

(** the delay between two images of one source, in days (D in Mpc, c in Mpc/s, angles in arcsec) *)
Theorem C34_delay_between_images : forall cd lens zs x y x' y' bx by_,
  raytrace (reduced_deflection_angle lens) x y = (bx, by_) ->
  raytrace (reduced_deflection_angle lens) x' y' = (bx, by_) ->
  time_delay cd lens zs x y true true - time_delay cd lens zs x' y' true true =
  time_delay_distance cd (z_l lens) zs / c_Mpc_s / days_to_seconds *
  ((fermat_surface (potential lens) bx by_ x y - fermat_surface (potential lens) bx by_ x' y') * arcsec_to_rad ^ 2).
Proof.
  intros cd lens zs x y x' y' bx by_ H1 H2.
  assert (T1 := time_delay_fermat cd lens zs x y). rewrite H1 in T1. rewrite T1.
  assert (T2 := time_delay_fermat cd lens zs x' y'). rewrite H2 in T2. rewrite T2.
  unfold time_delay_distance, LensBase_Proofs.fermat_surface, fermat_surface, Rdiv. ring.
Qed.
Print Assumptions C34_delay_between_images.

Theorem C34_flags : forall cd lens zs x y,
  time_delay cd lens zs x y false false = 0 /\
  time_delay cd lens zs x y true true =
    time_delay cd lens zs x y true false + time_delay cd lens zs x y false true.
Proof. exact time_delay_additive. Qed.
Print Assumptions C34_flags.

(** two different images of one source: the lens alpha = (3 x - x^3/3, 0) sends x = 0 and x = sqrt 6 to 0;
    here the simpler alpha = (2 x - x^2, 0): images 0 and 1 of the source 0 *)
Example C34_hyps : exists lens,
  raytrace (reduced_deflection_angle lens) 0 0 = (0, 0) /\ raytrace (reduced_deflection_angle lens) 1 0 = (0, 0) /\
  deflection_is_gradient (potential lens) (reduced_deflection_angle lens) 1 0.
Proof.
  exists (ThinLens 1 (fun x y => (2 * x - x ^ 2, y)) (fun x y => x ^ 2 - x ^ 3 / 3 + y ^ 2 / 2) (fun x y => 3 / 2 - x)).
  split; [|split].
  - unfold raytrace; simpl. f_equal; ring.
  - unfold raytrace; simpl. f_equal; ring.
  - unfold deflection_is_gradient; cbn [potential reduced_deflection_angle fst snd].
    apply (D2_ext (fun x y => x ^ 2 - x * x ^ 2 * / 3 + y ^ 2 * / 2)); [intros; field|]. d2; field.
Qed.

(** ** C35 *)
Theorem C35_comoving_chain : forall cd z1 z2 z3,
  comoving_distance_z1z2 cd z1 z2 + comoving_distance_z1z2 cd z2 z3 = comoving_distance_z1z2 cd z1 z3.
Proof. exact cd_chain. Qed.
Print Assumptions C35_comoving_chain.
Theorem C35_comoving_self : forall cd z, comoving_distance_z1z2 cd z z = 0.
Proof. exact cd_self. Qed.
Print Assumptions C35_comoving_self.
Theorem C35_angular_is_comoving_over_1pz : forall cd z, 1 + z <> 0 ->
  (1 + z) * angular_diameter_distance cd z = cd z.
Proof. exact add_comoving. Qed.
Print Assumptions C35_angular_is_comoving_over_1pz.
Theorem C35_angular_compose : forall cd z1 z2, 1 + z1 <> 0 -> 1 + z2 <> 0 ->
  (1 + z2) * angular_diameter_distance_z1z2 cd z1 z2 =
  (1 + z2) * angular_diameter_distance cd z2 - (1 + z1) * angular_diameter_distance cd z1.
Proof. exact add_compose. Qed.
Print Assumptions C35_angular_compose.
Theorem C35_critical_surface_density : forall cd zl zs,
  angular_diameter_distance cd zl <> 0 -> angular_diameter_distance_z1z2 cd zl zs <> 0 ->
  critical_surface_density cd zl zs *
    (4 * PI * G_over_c2 * angular_diameter_distance cd zl * angular_diameter_distance_z1z2 cd zl zs)
  = angular_diameter_distance cd zs.
Proof. exact sigma_cr_spec. Qed.
Print Assumptions C35_critical_surface_density.
Theorem C35_time_delay_distance : forall cd zl zs,
  angular_diameter_distance cd zl <> 0 -> angular_diameter_distance_z1z2 cd zl zs <> 0 ->
  time_delay_distance cd zl zs =
  (1 + zl) * (4 * PI * G_over_c2) * angular_diameter_distance cd zl ^ 2 * critical_surface_density cd zl zs.
Proof. exact time_delay_distance_spec. Qed.
Print Assumptions C35_time_delay_distance.
(** all distances are positive for a lens in front of the source when comoving distance increases *)
Theorem C35_positive : forall cd zl zs,
  -1 < zl -> zl < zs -> 0 < cd zl -> (forall a b, a < b -> cd a < cd b) ->
  0 < angular_diameter_distance cd zl /\ 0 < angular_diameter_distance cd zs /\
  0 < angular_diameter_distance_z1z2 cd zl zs /\ 0 < critical_surface_density cd zl zs /\
  0 < time_delay_distance cd zl zs.
Proof. exact distances_pos. Qed.
Print Assumptions C35_positive.
Example C35_hyps : -1 < 1 /\ 1 < 3 /\ 0 < (fun z : R => z) 1 /\ (forall a b : R, a < b -> (fun z => z) a < (fun z => z) b).
Proof. repeat split; try lra. intros; assumption. Qed.
