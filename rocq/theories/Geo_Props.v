(** * Properties of the coordinate helpers (C01, C02, C03, C73). *)
From Coq Require Import Reals Lra Lia.
From Verif Require Import Geo_Model Geo_Proofs.
Open Scope R_scope.

(** squared distance between two points *)
Definition dist2 (p q : R * R) : R := (fst p - fst q) ^ 2 + (snd p - snd q) ^ 2.

(** ** C01 *)
Theorem C01_rigid : forall x y x' y' x0 y0 phi,
  dist2 (translate_rotate x y x0 y0 phi) (translate_rotate x' y' x0 y0 phi) = dist2 (x, y) (x', y').
Proof. exact translate_rotate_rigid. Qed.
Print Assumptions C01_rigid.

(** the frame is positively oriented: the signed area spanned by two displacements is kept *)
Theorem C01_orientation : forall x y x' y' x0 y0 phi,
  (let '(a, b) := translate_rotate x y x0 y0 phi in
   let '(a', b') := translate_rotate x' y' x0 y0 phi in a * b' - a' * b)
  = (x - x0) * (y' - y0) - (x' - x0) * (y - y0).
Proof. exact translate_rotate_orientation. Qed.
Print Assumptions C01_orientation.

Theorem C01_centre : forall x0 y0 phi, translate_rotate x0 y0 x0 y0 phi = (0, 0).
Proof. exact translate_rotate_centre. Qed.
Print Assumptions C01_centre.

(** a point at angle phi from the centre is on the positive first axis of the frame *)
Theorem C01_axis : forall x0 y0 phi r,
  translate_rotate (x0 + r * cos phi) (y0 + r * sin phi) x0 y0 (Some phi) = (r, 0).
Proof. exact translate_rotate_axis. Qed.
Print Assumptions C01_axis.

Theorem C01_derotate_undoes : forall x y x0 y0 phi,
  (let '(a, b) := translate_rotate x y x0 y0 phi in derotate a b phi) = (x - x0, y - y0).
Proof. exact derotate_translate_rotate. Qed.
Print Assumptions C01_derotate_undoes.

Theorem C01_derotate_length : forall vx vy phi,
  (let '(a, b) := derotate vx vy phi in a ^ 2 + b ^ 2) = vx ^ 2 + vy ^ 2.
Proof. exact derotate_length. Qed.
Print Assumptions C01_derotate_length.

Theorem C01_derotate_inverse : forall vx vy phi,
  (let '(a, b) := derotate vx vy (Some phi) in derotate a b (Some (- phi))) = (vx, vy).
Proof. exact derotate_inverse. Qed.
Print Assumptions C01_derotate_inverse.

Theorem C01_no_angle : forall x y x0 y0,
  translate_rotate x y x0 y0 None = (x - x0, y - y0) /\ derotate x y None = (x, y) /\
  translate_rotate x y x0 y0 (Some 0) = (x - x0, y - y0).
Proof. exact no_angle. Qed.
Print Assumptions C01_no_angle.

(** ** C02: squared elliptical radius of (x,y) for axis ratio q and angle phi *)
Definition elliptical_radius2 (q phi x y : R) : R :=
  let xr := x * cos phi + y * sin phi in
  let yr := - x * sin phi + y * cos phi in xr ^ 2 + (yr / q) ^ 2.

Theorem C02_same_ellipse : forall q phi, q <> 0 ->
  let '(q', phi') := flip_axis_ratio q phi in
  0 < q' <= 1 /\
  exists c, 0 < c /\ forall x y, elliptical_radius2 q' phi' x y = c * elliptical_radius2 (Rabs q) phi x y.
Proof. exact flip_same_ellipse. Qed.
Print Assumptions C02_same_ellipse.

Theorem C02_identity_below_one : forall q phi, 0 < q <= 1 -> flip_axis_ratio q phi = (q, phi).
Proof. exact flip_identity. Qed.
Print Assumptions C02_identity_below_one.

(** the code's own elliptical radius (to_elliptical after translate_rotate) is that one *)
Theorem C02_to_elliptical : forall q phi x y,
  (let '(a, b) := translate_rotate x y 0 0 (Some phi) in
   let '(ex, ey) := to_elliptical a b q in ex ^ 2 + ey ^ 2) = elliptical_radius2 q phi x y.
Proof. exact to_elliptical_radius. Qed.
Print Assumptions C02_to_elliptical.

Example C02_hyps : -2.5 <> 0. Proof. lra. Qed.

(** ** C03 *)
Theorem C03_pixel_centres : forall pixelscale nx ny i j,
  (1 <= nx)%nat -> (1 <= ny)%nat -> (i < ny)%nat -> (j < nx)%nat ->
  let '(shape, X, Y) := meshgrid pixelscale nx (Some ny) in
  shape = (ny, nx) /\
  X i j = (INR j - (INR nx - 1) / 2) * pixelscale /\
  Y i j = (INR i - (INR ny - 1) / 2) * pixelscale.
Proof. exact meshgrid_pixel_centres. Qed.
Print Assumptions C03_pixel_centres.

Theorem C03_spacing_and_symmetry : forall pixelscale nx ny i j,
  (1 <= nx)%nat -> (1 <= ny)%nat -> (i < ny)%nat -> (j < nx)%nat ->
  let '(_, X, Y) := meshgrid pixelscale nx (Some ny) in
  ((S j < nx)%nat -> X i (S j) - X i j = pixelscale) /\
  ((S i < ny)%nat -> Y (S i) j - Y i j = pixelscale) /\
  X i (nx - 1 - j)%nat = - X i j /\ Y (ny - 1 - i)%nat j = - Y i j /\
  (forall i', X i' j = X i j) /\ (forall j', Y i j' = Y i j).
Proof. exact meshgrid_spacing. Qed.
Print Assumptions C03_spacing_and_symmetry.

(** omitting ny gives a square grid *)
Theorem C03_default_square : forall pixelscale nx,
  meshgrid pixelscale nx None = meshgrid pixelscale nx (Some nx).
Proof. exact meshgrid_default. Qed.
Print Assumptions C03_default_square.

Example C03_hyps : (1 <= 3)%nat /\ (1 <= 2)%nat /\ (1 < 2)%nat /\ (2 < 3)%nat. Proof. lia. Qed.

(** ** C73 *)
Theorem C73_safe_divide : forall num denom,
  (denom <> 0 -> safe_divide num denom * denom = num) /\ (denom = 0 -> safe_divide num denom = 0).
Proof. exact safe_divide_spec. Qed.
Print Assumptions C73_safe_divide.

Theorem C73_safe_log : forall x,
  (0 < x -> exists l, safe_log x = Some l /\ exp l = x) /\ safe_log 0 = Some 0 /\
  (x < 0 -> safe_log x = None).
Proof. exact safe_log_spec. Qed.
Print Assumptions C73_safe_log.
