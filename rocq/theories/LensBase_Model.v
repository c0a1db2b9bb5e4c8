(** * Methods shared by all lenses (model of src/caustics/lenses/base.py, lenses/utils.py,
      lenses/singleplane.py and the conversions in lenses/func/base.py). *)
From Coq Require Import Reals List String.
From Coquelicot Require Import Coquelicot.
From Verif Require Import Py Const_Model Cosmo_Model.
Import ListNotations.
Open Scope R_scope.

(** a 2x2 matrix; [m01] is row 0, column 1 *)
Record mat2 := Mat2 { m00 : R; m01 : R; m10 : R; m11 : R }.
Definition eye2 : mat2 := Mat2 1 0 0 1.
Definition mat2_sub (A B : mat2) : mat2 :=
  Mat2 (m00 A - m00 B) (m01 A - m01 B) (m10 A - m10 B) (m11 A - m11 B).

(** func/base.py:247-287 and 290-330 *)
Definition physical_from_reduced_deflection_angle (ax ay d_s d_ls : R) : R * R :=
  ((d_s / d_ls) * ax, (d_s / d_ls) * ay).
Definition reduced_from_physical_deflection_angle (ax ay d_s d_ls : R) : R * R :=
  ((d_ls / d_s) * ax, (d_ls / d_s) * ay).
(** func/base.py:333-339 *)
Definition time_delay_arcsec2_to_days (d_l d_s d_ls z_l : R) : R :=
  (1 + z_l) / c_Mpc_s * d_s * d_l / d_ls * arcsec_to_rad ^ 2 / days_to_seconds.

(** What the library asks of a thin lens: redshift, reduced deflection, potential and
    convergence at a point of the sky (arcsec). *)
Record thin_lens := ThinLens {
  z_l : R;
  reduced_deflection_angle : R -> R -> R * R;
  potential : R -> R -> R;
  convergence : R -> R -> R }.

(** jacfwd(f, (0,1)) of torch.func/jax, used in lenses/utils.py:39, base.py:478-487 and 982-989:
    the matrix of partial derivatives, entry [i][j] = d f_i / d arg_j, and grad/hessian
    (base.py:664-667, 750-755).  [Derive] is Coquelicot's derivative; it is only meaningful
    where the function is differentiable, which the theorems assume. *)
Definition jacfwd (f : R -> R -> R * R) (x y : R) : mat2 :=
  Mat2 (Derive (fun u => fst (f u y)) x) (Derive (fun v => fst (f x v)) y)
       (Derive (fun u => snd (f u y)) x) (Derive (fun v => snd (f x v)) y).
Definition grad (f : R -> R -> R) (x y : R) : R * R :=
  (Derive (fun u => f u y) x, Derive (fun v => f x v) y).

(** base.py:628-667 default ThinLens.reduced_deflection_angle *)
Definition default_deflection (psi : R -> R -> R) (x y : R) : R * R := grad psi x y.
(** base.py:714-756 default ThinLens.convergence: half the trace of the Hessian, which is the
    Jacobian of the gradient *)
Definition default_convergence (psi : R -> R -> R) (x y : R) : R :=
  let H := jacfwd (grad psi) x y in (1 / 2) * (m00 H + m11 H).

(** torch.gradient / jnp.gradient along one axis of n samples, edge_order 1; fewer than two
    samples is an error *)
Definition gradient1 (n : nat) (h : R) (f : nat -> R) (k : nat) : R :=
  if Nat.eqb k 0 then (f 1%nat - f 0%nat) / h
  else if Nat.eqb k (n - 1) then (f (n - 1)%nat - f (n - 2)%nat) / h
  else (f (k + 1)%nat - f (k - 1)%nat) / (2 * h).
(** backend.gradient(a, spacing=h) on an array of shape (rows, cols): the two arrays of
    differences along axis 0 (rows) and axis 1 (columns) *)
Definition gradient2 (shape : nat * nat) (h : R) (a : nat -> nat -> R)
  : result ((nat -> nat -> R) * (nat -> nat -> R)) :=
  let (rows, cols) := shape in
  if (Nat.ltb rows 2 || Nat.ltb cols 2)%bool then Raise RuntimeError
  else Ok (fun i j => gradient1 rows h (fun k => a k j) i,
           fun i j => gradient1 cols h (fun k => a i k) j).

Section Jac.
(** the deflection whose Jacobian is taken: reduced_deflection_angle of a thin lens,
    effective_reduced_deflection_angle of a thick lens (the two copies of the code, 443-551 and
    946-1048, are identical otherwise) *)
Variable alpha : R -> R -> R * R.

(** base.py:444-465 and 947-968 *)
Definition jacobian_finitediff (shape : nat * nat) (X Y : nat -> nat -> R) (pixelscale : R)
  : result (nat -> nat -> mat2) :=
  let ax i j := fst (alpha (X i j) (Y i j)) in
  let ay i j := snd (alpha (X i j) (Y i j)) in
  bind (gradient2 shape pixelscale ax) (fun grad_ax =>
  bind (gradient2 shape pixelscale ay) (fun grad_ay =>
  Ok (fun i j => Mat2 (snd grad_ax i j) (fst grad_ax i j) (snd grad_ay i j) (fst grad_ay i j)))).
(** base.py:468-487 and 971-989 *)
Definition jacobian_autograd (X Y : nat -> nat -> R) : nat -> nat -> mat2 :=
  fun i j => jacfwd alpha (X i j) (Y i j).

Open Scope string_scope.
(** base.py:490-518 and 992-1017; [pixelscale = None] is Python's None *)
Definition jacobian_deflection_angle (shape : nat * nat) (X Y : nat -> nat -> R)
  (method : string) (pixelscale : option R) : result (nat -> nat -> mat2) :=
  if String.eqb method "autograd" then Ok (jacobian_autograd X Y)
  else if String.eqb method "finitediff" then
    match pixelscale with
    | None => Raise ValueError
    | Some h => jacobian_finitediff shape X Y h
    end
  else Raise ValueError.
(** base.py:56-82 with 521-551 and 1020-1048: identity minus the Jacobian of the deflection *)
Definition jacobian_lens_equation (shape : nat * nat) (X Y : nat -> nat -> R)
  (method : string) (pixelscale : option R) : result (nat -> nat -> mat2) :=
  if String.eqb method "autograd" then
    Ok (fun i j => mat2_sub eye2 (jacobian_autograd X Y i j))
  else if String.eqb method "finitediff" then
    match pixelscale with
    | None => Raise ValueError
    | Some h => bind (jacobian_finitediff shape X Y h) (fun J => Ok (fun i j => mat2_sub eye2 (J i j)))
    end
  else Raise ValueError.
Open Scope R_scope.

(** base.py:85-106 *)
Definition shear_of_jacobian (A : mat2) : R * R :=
  let t := (1 / 2) * (m00 A + m11 A) in
  let negPsi := Mat2 (t * 1 - m00 A) (t * 0 - m01 A) (t * 0 - m10 A) (t * 1 - m11 A) in
  ((1 / 2) * (m00 negPsi - m11 negPsi), m01 negPsi).
Definition shear (shape : nat * nat) (X Y : nat -> nat -> R) (method : string) (pixelscale : option R)
  : result (nat -> nat -> R * R) :=
  bind (jacobian_lens_equation shape X Y method pixelscale)
    (fun A => Ok (fun i j => shear_of_jacobian (A i j))).

(** base.py:827-863 raytrace *)
Definition raytrace (x y : R) : R * R := let '(ax, ay) := alpha x y in (x - ax, y - ay).
End Jac.

(** lenses/utils.py:42-72; None stands for the infinite value of 1/0 *)
Definition pixel_magnification (rt : R -> R -> R * R) (x y : R) : option R :=
  let jac := jacfwd rt x y in
  let d := Rabs (m00 jac * m11 jac - m01 jac * m10 jac) in
  if Req_EM_T d 0 then None else Some (1 / d).
(** base.py:109-137 *)
Definition magnification (alpha : R -> R -> R * R) (x y : R) : option R :=
  pixel_magnification (raytrace alpha) x y.

(** base.py:554-590 *)
Definition effective_convergence_div (J : mat2) : R := (1 / 2) * (m00 J + m11 J).
Definition effective_convergence_curl (J : mat2) : R := (1 / 2) * (m10 J - m01 J).
(** base.py:261-289 *)
Definition effective_reduced_deflection_angle (rt : R -> R -> R * R) (x y : R) : R * R :=
  let '(bx, by_) := rt x y in (x - bx, y - by_).

Section WithCosmology.
Variable comoving_distance : R -> R.

(** base.py:670-710 *)
Definition physical_deflection_angle (lens : thin_lens) (z_s x y : R) : R * R :=
  let d_s := angular_diameter_distance comoving_distance z_s in
  let d_ls := angular_diameter_distance_z1z2 comoving_distance (z_l lens) z_s in
  let '(ax, ay) := reduced_deflection_angle lens x y in
  physical_from_reduced_deflection_angle ax ay d_s d_ls.
(** base.py:793-824 *)
Definition surface_density (lens : thin_lens) (z_s x y : R) : R :=
  convergence lens x y * critical_surface_density comoving_distance (z_l lens) z_s.
(** base.py:866-876 *)
Definition arcsec2_to_days (z_s z_l : R) : R :=
  time_delay_arcsec2_to_days (angular_diameter_distance comoving_distance z_l)
    (angular_diameter_distance comoving_distance z_s)
    (angular_diameter_distance_z1z2 comoving_distance z_l z_s) z_l.
(** base.py:879-944 *)
Definition time_delay (lens : thin_lens) (z_s x y : R) (shapiro geometric : bool) : R :=
  let TD := 0 in
  let TD := if shapiro then TD - potential lens x y else TD in
  let TD := if geometric then
    let '(ax, ay) := reduced_deflection_angle lens x y in
    let fp := (1 / 2) * (ax ^ 2 + ay ^ 2) in TD + fp else TD in
  arcsec2_to_days z_s (z_l lens) * TD.
End WithCosmology.

(** lenses/singleplane.py:58-98, 101-134, 137-170: the loops over self.lenses.  __init__
    (30-55) overwrites the redshifts of the lenses by those of the plane. *)
Definition singleplane_deflection (lenses : list thin_lens) (x y : R) : R * R :=
  fold_left (fun a lens => let '(ax_cur, ay_cur) := reduced_deflection_angle lens x y in
                           (fst a + ax_cur, snd a + ay_cur)) lenses (0, 0).
Definition singleplane_convergence (lenses : list thin_lens) (x y : R) : R :=
  fold_left (fun a lens => a + convergence lens x y) lenses 0.
Definition singleplane_potential (lenses : list thin_lens) (x y : R) : R :=
  fold_left (fun a lens => a + potential lens x y) lenses 0.
Definition singleplane (z : R) (lenses : list thin_lens) : thin_lens :=
  ThinLens z (singleplane_deflection lenses) (singleplane_potential lenses) (singleplane_convergence lenses).
