(** * Generic lemmas about consistent lenses: frames and radial profiles. *)
From Coq Require Import Reals Lra.
From Coquelicot Require Import Coquelicot.
From Verif Require Import Calc2 RealFun Geo_Model Lens_Spec.
Open Scope R_scope.

Lemma D2_tr_fst x y x0 y0 p :
  D2 (fun u v => fst (translate_rotate u v x0 y0 (Some p))) x y (cos p) (sin p).
Proof. unfold translate_rotate; simpl. d2; ring. Qed.
Lemma D2_tr_snd x y x0 y0 p :
  D2 (fun u v => snd (translate_rotate u v x0 y0 (Some p))) x y (- sin p) (cos p).
Proof. unfold translate_rotate; simpl. d2; ring. Qed.

(** Building a lens in a rotated frame: potential and convergence are evaluated at the
    rotated position, the deflection is rotated back. *)
Definition framed_alpha (alpha0 : R -> R -> R * R) x0 y0 p u v : R * R :=
  let '(a, b) := translate_rotate u v x0 y0 (Some p) in
  let '(ax, ay) := alpha0 a b in derotate ax ay (Some p).
Definition framed (f : R -> R -> R) x0 y0 p u v : R :=
  let '(a, b) := translate_rotate u v x0 y0 (Some p) in f a b.

Lemma lens_consistent_framed psi0 alpha0 kappa0 x0 y0 p x y :
  (let '(a, b) := translate_rotate x y x0 y0 (Some p) in lens_consistent psi0 alpha0 kappa0 a b) ->
  lens_consistent (framed psi0 x0 y0 p) (framed_alpha alpha0 x0 y0 p) (framed kappa0 x0 y0 p) x y.
Proof.
  assert (H1 := D2_tr_fst x y x0 y0 p). assert (H2 := D2_tr_snd x y x0 y0 p).
  set (X := fun u v => fst (translate_rotate u v x0 y0 (Some p))) in *.
  set (Y := fun u v => snd (translate_rotate u v x0 y0 (Some p))) in *.
  assert (Hcs : cos p * cos p + sin p * sin p = 1)
    by (generalize (sin2_cos2 p); unfold Rsqr; lra).
  change (let '(a, b) := translate_rotate x y x0 y0 (Some p) in lens_consistent psi0 alpha0 kappa0 a b)
    with (lens_consistent psi0 alpha0 kappa0 (X x y) (Y x y)).
  intros [Hg (axx & axy & ayx & ayy & Hx & Hy & Hc & Hk)]. subst ayx.
  assert (Ef : forall u v, framed_alpha alpha0 x0 y0 p u v =
     (fst (alpha0 (X u v) (Y u v)) * cos p - snd (alpha0 (X u v) (Y u v)) * sin p,
      fst (alpha0 (X u v) (Y u v)) * sin p + snd (alpha0 (X u v) (Y u v)) * cos p)).
  { intros u v. unfold framed_alpha, X, Y. simpl.
    match goal with |- context [alpha0 ?a ?b] => destruct (alpha0 a b) end. reflexivity. }
  split.
  - unfold deflection_is_gradient. rewrite Ef; simpl.
    eapply D2_eq.
    + apply (D2_comp psi0 X Y); eassumption.
    + ring.
    + ring.
  - assert (HX : D2 (fun u v => fst (alpha0 (X u v) (Y u v))) x y
               (axx * cos p + axy * - sin p) (axx * sin p + axy * cos p)).
    { apply (D2_comp (fun u v => fst (alpha0 u v)) X Y); assumption. }
    assert (HY : D2 (fun u v => snd (alpha0 (X u v) (Y u v))) x y
               (axy * cos p + ayy * - sin p) (axy * sin p + ayy * cos p)).
    { apply (D2_comp (fun u v => snd (alpha0 u v)) X Y); assumption. }
    do 4 eexists. split; [|split; [|split]].
    + eapply D2_ext; [intros u v; rewrite Ef; simpl; reflexivity|].
      apply D2_minus; apply D2_mult; try apply D2_const; eassumption.
    + eapply D2_ext; [intros u v; rewrite Ef; simpl; reflexivity|].
      apply D2_plus; apply D2_mult; try apply D2_const; eassumption.
    + simpl. ring.
    + change (framed kappa0 x0 y0 p x y) with (kappa0 (X x y) (Y x y)). rewrite Hk. simpl.
      transitivity ((axx + ayy) * (cos p * cos p + sin p * sin p) / 2); [rewrite Hcs; field|field].
Qed.

(** Same without rotation. *)
Definition shifted_alpha (alpha0 : R -> R -> R * R) x0 y0 u v : R * R :=
  let '(a, b) := translate_rotate u v x0 y0 None in alpha0 a b.
Definition shifted (f : R -> R -> R) x0 y0 u v : R :=
  let '(a, b) := translate_rotate u v x0 y0 None in f a b.

Lemma D2_shift f x0 y0 x y fx fy :
  D2 f (x - x0) (y - y0) fx fy -> D2 (fun u v => f (u - x0) (v - y0)) x y fx fy.
Proof.
  intros H. eapply D2_eq.
  - apply (D2_comp f (fun u _ => u - x0) (fun _ v => v - y0)); [exact H | d2; reflexivity | d2; reflexivity].
  - ring.
  - ring.
Qed.

Lemma lens_consistent_shifted psi0 alpha0 kappa0 x0 y0 x y :
  lens_consistent psi0 alpha0 kappa0 (x - x0) (y - y0) ->
  lens_consistent (shifted psi0 x0 y0) (shifted_alpha alpha0 x0 y0) (shifted kappa0 x0 y0) x y.
Proof.
  intros [Hg (axx & axy & ayx & ayy & Hx & Hy & Hc & Hk)]. split.
  - apply (D2_shift psi0), Hg.
  - exists axx, axy, ayx, ayy. split; [|split; [|split]].
    + apply (D2_shift (fun u v => fst (alpha0 u v))), Hx.
    + apply (D2_shift (fun u v => snd (alpha0 u v))), Hy.
    + exact Hc.
    + exact Hk.
Qed.

(** Consistency only depends on values near the point. *)
Lemma lens_consistent_ext_loc psi alpha kappa psi' alpha' kappa' x y :
  locally_2d (fun u v => psi u v = psi' u v) x y ->
  locally_2d (fun u v => alpha u v = alpha' u v) x y ->
  kappa x y = kappa' x y ->
  lens_consistent psi alpha kappa x y -> lens_consistent psi' alpha' kappa' x y.
Proof.
  intros Hp Ha Hk [Hg (axx & axy & ayx & ayy & Hx & Hy & Hc & Hd)].
  assert (Ha0 := locally_2d_singleton _ _ _ Ha); simpl in Ha0.
  split.
  - unfold deflection_is_gradient. rewrite <- Ha0. eapply D2_ext_loc; [exact Hp | exact Hg].
  - exists axx, axy, ayx, ayy. split; [|split; [|split]].
    + eapply D2_ext_loc; [|exact Hx].
      eapply locally_2d_impl; [|exact Ha]. apply locally_2d_forall; intros u v ->; reflexivity.
    + eapply D2_ext_loc; [|exact Hy].
      eapply locally_2d_impl; [|exact Ha]. apply locally_2d_forall; intros u v ->; reflexivity.
    + exact Hc.
    + rewrite <- Hk; exact Hd.
Qed.

Lemma lens_consistent_ext psi alpha kappa psi' alpha' kappa' x y :
  (forall u v, psi u v = psi' u v) -> (forall u v, alpha u v = alpha' u v) ->
  kappa x y = kappa' x y ->
  lens_consistent psi alpha kappa x y -> lens_consistent psi' alpha' kappa' x y.
Proof.
  intros Hp Ha; apply lens_consistent_ext_loc; apply locally_2d_forall; assumption.
Qed.

(** Superposition. *)
Lemma lens_consistent_plus p1 a1 k1 p2 a2 k2 x y :
  lens_consistent p1 a1 k1 x y -> lens_consistent p2 a2 k2 x y ->
  lens_consistent (fun u v => p1 u v + p2 u v)
    (fun u v => (fst (a1 u v) + fst (a2 u v), snd (a1 u v) + snd (a2 u v)))
    (fun u v => k1 u v + k2 u v) x y.
Proof.
  intros [Hg (axx & axy & ayx & ayy & Hx & Hy & Hc & Hk)]
         [Hg' (bxx & bxy & byx & byy & Hx' & Hy' & Hc' & Hk')].
  split.
  - apply D2_plus; assumption.
  - exists (axx + bxx), (axy + bxy), (ayx + byx), (ayy + byy).
    split; [|split; [|split]].
    + simpl; apply D2_plus; assumption.
    + simpl; apply D2_plus; assumption.
    + lra.
    + rewrite Hk, Hk'; field.
Qed.

Lemma lens_consistent_scal c p a k x y :
  lens_consistent p a k x y ->
  lens_consistent (fun u v => c * p u v) (fun u v => (c * fst (a u v), c * snd (a u v)))
    (fun u v => c * k u v) x y.
Proof.
  intros [Hg (axx & axy & ayx & ayy & Hx & Hy & Hc & Hk)]. split.
  - apply D2_scal; assumption.
  - exists (c * axx), (c * axy), (c * ayx), (c * ayy). split; [|split; [|split]].
    + simpl; apply D2_scal; assumption.
    + simpl; apply D2_scal; assumption.
    + rewrite Hc; reflexivity.
    + rewrite Hk; field.
Qed.

Lemma lens_consistent_zero x y :
  lens_consistent (fun _ _ => 0) (fun _ _ => (0, 0)) (fun _ _ => 0) x y.
Proof.
  split.
  - apply D2_const.
  - exists 0, 0, 0, 0. split; [|split; [|split]]; simpl; try apply D2_const; lra.
Qed.

Lemma D2_norm x y : (x <> 0 \/ y <> 0) ->
  D2 (fun u v => sqrt (u ^ 2 + v ^ 2)) x y (x / sqrt (x ^ 2 + y ^ 2)) (y / sqrt (x ^ 2 + y ^ 2)).
Proof.
  intros H. assert (H2 := norm2_pos x y H). assert (H1 := norm_pos x y H).
  d2; field; lra.
Qed.

(** Circular lenses: potential F(r), radial deflection A(r) = F'(r),
    convergence (A'(r) + A(r)/r)/2. *)
Lemma lens_consistent_radial (F A : R -> R) (dA : R) kappa x y :
  (x <> 0 \/ y <> 0) ->
  let r := sqrt (x ^ 2 + y ^ 2) in
  is_derive F r (A r) -> is_derive A r dA ->
  kappa x y = (dA + A r / r) / 2 ->
  lens_consistent (fun u v => F (sqrt (u ^ 2 + v ^ 2)))
    (fun u v => let r := sqrt (u ^ 2 + v ^ 2) in (A r * u / r, A r * v / r)) kappa x y.
Proof.
  intros H0 r HF HA Hk. assert (Hr := norm_pos x y H0). fold r in Hr.
  assert (HN := D2_norm x y H0). fold r in HN.
  assert (Hr2 : r ^ 2 = x ^ 2 + y ^ 2) by (apply sqrt_sq2; pose proof (norm2_pos x y H0); lra).
  assert (HAr := D2_comp1 A (fun u v => sqrt (u ^ 2 + v ^ 2)) x y dA _ _ HA HN).
  split.
  - unfold deflection_is_gradient; cbv beta zeta; cbn [fst snd].
    eapply D2_eq.
    + apply (D2_comp1 F (fun u v => sqrt (u ^ 2 + v ^ 2))); [exact HF | exact HN].
    + fold r; field; lra.
    + fold r; field; lra.
  - do 4 eexists. split; [|split; [|split]].
    + cbv beta zeta; cbn [fst snd]. apply (D2_div (fun u v => A (sqrt (u ^ 2 + v ^ 2)) * u) (fun u v => sqrt (u ^ 2 + v ^ 2)));
        [fold r; lra | | exact HN].
      apply (D2_mult (fun u v => A (sqrt (u ^ 2 + v ^ 2))) (fun u _ => u)); [exact HAr | apply D2_fst].
    + cbv beta zeta; cbn [fst snd]. apply (D2_div (fun u v => A (sqrt (u ^ 2 + v ^ 2)) * v) (fun u v => sqrt (u ^ 2 + v ^ 2)));
        [fold r; lra | | exact HN].
      apply (D2_mult (fun u v => A (sqrt (u ^ 2 + v ^ 2))) (fun _ v => v)); [exact HAr | apply D2_snd].
    + cbv beta zeta; cbn [fst snd]. fold r. field. lra.
    + cbv beta zeta; cbn [fst snd]. fold r. rewrite Hk.
      transitivity ((dA * r ^ 2 / r ^ 2 + A r / r * (2 - r ^ 2 / r ^ 2)) / 2); [field; lra|].
      rewrite Hr2 at 1 3. field. lra.
Qed.
