From Coq Require Import Reals Lra Lia.
From Verif Require Import Geo_Model.
Open Scope R_scope.

Lemma cs1 p : cos p * cos p + sin p * sin p = 1.
Proof. generalize (sin2_cos2 p); unfold Rsqr; lra. Qed.

Lemma translate_rotate_rigid x y x' y' x0 y0 phi :
  let d p q := (fst p - fst q) ^ 2 + (snd p - snd q) ^ 2 in
  d (translate_rotate x y x0 y0 phi) (translate_rotate x' y' x0 y0 phi) = d (x, y) (x', y').
Proof.
  intros d; unfold d, translate_rotate; destruct phi as [p|]; cbn [fst snd]; [|ring].
  transitivity (((x - x') ^ 2 + (y - y') ^ 2) * (cos p * cos p + sin p * sin p)); [ring|rewrite cs1; ring].
Qed.

Lemma translate_rotate_orientation x y x' y' x0 y0 phi :
  (let '(a, b) := translate_rotate x y x0 y0 phi in
   let '(a', b') := translate_rotate x' y' x0 y0 phi in a * b' - a' * b)
  = (x - x0) * (y' - y0) - (x' - x0) * (y - y0).
Proof.
  unfold translate_rotate; destruct phi as [p|]; [|ring].
  transitivity (((x - x0) * (y' - y0) - (x' - x0) * (y - y0)) * (cos p * cos p + sin p * sin p));
    [ring|rewrite cs1; ring].
Qed.

Lemma translate_rotate_centre x0 y0 phi : translate_rotate x0 y0 x0 y0 phi = (0, 0).
Proof. unfold translate_rotate; destruct phi; f_equal; ring. Qed.

Lemma translate_rotate_axis x0 y0 phi r :
  translate_rotate (x0 + r * cos phi) (y0 + r * sin phi) x0 y0 (Some phi) = (r, 0).
Proof.
  unfold translate_rotate. f_equal; [|ring].
  transitivity (r * (cos phi * cos phi + sin phi * sin phi)); [ring|rewrite cs1; ring].
Qed.

Lemma derotate_translate_rotate x y x0 y0 phi :
  (let '(a, b) := translate_rotate x y x0 y0 phi in derotate a b phi) = (x - x0, y - y0).
Proof.
  unfold translate_rotate, derotate; destruct phi as [p|]; [|reflexivity]. f_equal.
  - transitivity ((x - x0) * (cos p * cos p + sin p * sin p)); [ring|rewrite cs1; ring].
  - transitivity ((y - y0) * (cos p * cos p + sin p * sin p)); [ring|rewrite cs1; ring].
Qed.

Lemma derotate_length vx vy phi :
  (let '(a, b) := derotate vx vy phi in a ^ 2 + b ^ 2) = vx ^ 2 + vy ^ 2.
Proof.
  unfold derotate; destruct phi as [p|]; [|reflexivity].
  transitivity ((vx ^ 2 + vy ^ 2) * (cos p * cos p + sin p * sin p)); [ring|rewrite cs1; ring].
Qed.

Lemma derotate_inverse vx vy p :
  (let '(a, b) := derotate vx vy (Some p) in derotate a b (Some (- p))) = (vx, vy).
Proof.
  simpl. rewrite cos_neg, sin_neg. f_equal.
  - transitivity (vx * (cos p * cos p + sin p * sin p)); [ring|rewrite cs1; ring].
  - transitivity (vy * (cos p * cos p + sin p * sin p)); [ring|rewrite cs1; ring].
Qed.

Lemma no_angle x y x0 y0 :
  translate_rotate x y x0 y0 None = (x - x0, y - y0) /\ derotate x y None = (x, y) /\
  translate_rotate x y x0 y0 (Some 0) = (x - x0, y - y0).
Proof. unfold translate_rotate; rewrite cos_0, sin_0. split; [|split]; try reflexivity. f_equal; ring. Qed.

Lemma flip_same_ellipse q phi : q <> 0 ->
  let '(q', phi') := flip_axis_ratio q phi in
  0 < q' <= 1 /\
  exists c, 0 < c /\ forall x y,
   (let xr := x * cos phi' + y * sin phi' in let yr := - x * sin phi' + y * cos phi' in
     xr ^ 2 + (yr / q') ^ 2) =
   c * (let xr := x * cos phi + y * sin phi in let yr := - x * sin phi + y * cos phi in
     xr ^ 2 + (yr / Rabs q) ^ 2).
Proof.
  intros Hq. unfold flip_axis_ratio. assert (Ha := Rabs_pos_lt q Hq). set (a := Rabs q) in *.
  destruct (Rlt_dec 1 a) as [H|H].
  - split.
    + split; [apply Rdiv_lt_0_compat; lra|].
      apply Rmult_le_reg_r with a; [lra|]. unfold Rdiv; rewrite Rmult_assoc, Rinv_l; lra.
    + exists (a ^ 2). split; [apply pow_lt; lra|]. intros x y. cbv zeta.
      rewrite <- (cos_neg (phi + PI / 2)).
      replace (cos (- (phi + PI / 2))) with (- sin phi).
      2:{ rewrite cos_neg, cos_plus, cos_PI2, sin_PI2; ring. }
      replace (sin (phi + PI / 2)) with (cos phi).
      2:{ rewrite sin_plus, cos_PI2, sin_PI2; ring. }
      field. lra.
  - split; [lra|]. exists 1. split; [lra|]. intros; ring.
Qed.

Lemma flip_identity q phi : 0 < q <= 1 -> flip_axis_ratio q phi = (q, phi).
Proof.
  intros H. unfold flip_axis_ratio. rewrite Rabs_right by lra.
  destruct (Rlt_dec 1 q); [lra|reflexivity].
Qed.

Lemma to_elliptical_radius q phi x y :
  (let '(a, b) := translate_rotate x y 0 0 (Some phi) in
   let '(ex, ey) := to_elliptical a b q in ex ^ 2 + ey ^ 2) =
  (let xr := x * cos phi + y * sin phi in let yr := - x * sin phi + y * cos phi in
     xr ^ 2 + (yr / q) ^ 2).
Proof.
  unfold translate_rotate, to_elliptical. cbv zeta.
  replace ((y - 0) * cos phi - (x - 0) * sin phi) with (- x * sin phi + y * cos phi) by ring.
  replace ((x - 0) * cos phi + (y - 0) * sin phi) with (x * cos phi + y * sin phi) by ring.
  reflexivity.
Qed.

Lemma linspace_scaled n k p : (1 <= n)%nat -> (k < n)%nat ->
  linspace_m1_1 n k * p * (INR n - 1) / 2 = (INR k - (INR n - 1) / 2) * p.
Proof.
  intros Hn Hk. destruct n as [|[|m]]; [lia| |].
  - assert (k = 0)%nat by lia; subst. simpl. field.
  - unfold linspace_m1_1. rewrite (S_INR (S m)).
    assert (0 < INR (S m)) by (apply lt_0_INR; lia). field. lra.
Qed.

Lemma meshgrid_pixel_centres pixelscale nx ny i j :
  (1 <= nx)%nat -> (1 <= ny)%nat -> (i < ny)%nat -> (j < nx)%nat ->
  let '(shape, X, Y) := meshgrid pixelscale nx (Some ny) in
  shape = (ny, nx) /\
  X i j = (INR j - (INR nx - 1) / 2) * pixelscale /\
  Y i j = (INR i - (INR ny - 1) / 2) * pixelscale.
Proof.
  intros Hx Hy Hi Hj. unfold meshgrid. split; [reflexivity|].
  split; apply linspace_scaled; assumption.
Qed.

Lemma meshgrid_spacing pixelscale nx ny i j :
  (1 <= nx)%nat -> (1 <= ny)%nat -> (i < ny)%nat -> (j < nx)%nat ->
  let '(_, X, Y) := meshgrid pixelscale nx (Some ny) in
  ((S j < nx)%nat -> X i (S j) - X i j = pixelscale) /\
  ((S i < ny)%nat -> Y (S i) j - Y i j = pixelscale) /\
  X i (nx - 1 - j)%nat = - X i j /\ Y (ny - 1 - i)%nat j = - Y i j /\
  (forall i', X i' j = X i j) /\ (forall j', Y i j' = Y i j).
Proof.
  intros Hx Hy Hi Hj. unfold meshgrid.
  split; [|split; [|split; [|split; [|split]]]].
  - intros H. rewrite !linspace_scaled by lia. rewrite S_INR; ring.
  - intros H. rewrite !linspace_scaled by lia. rewrite S_INR; ring.
  - rewrite !linspace_scaled by lia. rewrite !minus_INR by lia. simpl; field.
  - rewrite !linspace_scaled by lia. rewrite !minus_INR by lia. simpl; field.
  - reflexivity.
  - reflexivity.
Qed.

Lemma meshgrid_default pixelscale nx : meshgrid pixelscale nx None = meshgrid pixelscale nx (Some nx).
Proof. reflexivity. Qed.

Lemma safe_divide_spec num denom :
  (denom <> 0 -> safe_divide num denom * denom = num) /\ (denom = 0 -> safe_divide num denom = 0).
Proof.
  unfold safe_divide; destruct (Req_EM_T denom 0); split; intros; try contradiction; try reflexivity.
  field; assumption.
Qed.

Lemma safe_log_spec x :
  (0 < x -> exists l, safe_log x = Some l /\ exp l = x) /\ safe_log 0 = Some 0 /\
  (x < 0 -> safe_log x = None).
Proof.
  unfold safe_log; split; [|split].
  - intros H. destruct (Req_EM_T x 0); [lra|]. destruct (Rlt_dec x 0); [lra|].
    exists (ln x); split; [reflexivity|apply exp_ln, H].
  - destruct (Req_EM_T 0 0); [reflexivity|contradiction].
  - intros H. destruct (Req_EM_T x 0); [lra|]. destruct (Rlt_dec x 0); [reflexivity|contradiction].
Qed.
