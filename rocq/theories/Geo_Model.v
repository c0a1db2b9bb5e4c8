(** * Coordinate helpers (model of src/caustics/utils.py). *)
From Coq Require Import Reals.
Open Scope R_scope.

(** utils.py:65-82 flip_axis_ratio *)
Definition flip_axis_ratio (q phi : R) : R * R :=
  let q := Rabs q in
  (if Rlt_dec 1 q then 1 / q else q, if Rlt_dec 1 q then phi + PI / 2 else phi).

(** utils.py:85-118 translate_rotate; [phi = None] is Python's None *)
Definition translate_rotate (x y x0 y0 : R) (phi : option R) : R * R :=
  let xt := x - x0 in
  let yt := y - y0 in
  match phi with
  | Some p =>
      let c_phi := cos p in
      let s_phi := sin p in
      (xt * c_phi + yt * s_phi, yt * c_phi - xt * s_phi)
  | None => (xt, yt)
  end.

(** utils.py:121-144 derotate *)
Definition derotate (vx vy : R) (phi : option R) : R * R :=
  match phi with
  | None => (vx, vy)
  | Some p =>
      let c_phi := cos p in
      let s_phi := sin p in
      (vx * c_phi - vy * s_phi, vx * s_phi + vy * c_phi)
  end.

(** utils.py:147-165 to_elliptical (the caller guarantees q <> 0) *)
Definition to_elliptical (x y q : R) : R * R := (x, y / q).

(** torch/jax linspace(-1, 1, n): entry k; linspace(-1,1,1) = [-1] *)
Definition linspace_m1_1 (n k : nat) : R :=
  match n with
  | 0%nat => 0 (* no entries; never read *)
  | 1%nat => -1
  | S m => -1 + 2 * INR k / INR m
  end.

(** utils.py:168-196 meshgrid; result is (shape, X, Y), shape = (rows, columns), arrays
    are read as [X i j] with i the row index and j the column index ("xy" indexing). *)
Definition meshgrid (pixelscale : R) (nx : nat) (ny : option nat)
  : (nat * nat) * (nat -> nat -> R) * (nat -> nat -> R) :=
  let ny := match ny with None => nx | Some n => n end in
  let xs k := linspace_m1_1 nx k * pixelscale * (INR nx - 1) / 2 in
  let ys k := linspace_m1_1 ny k * pixelscale * (INR ny - 1) / 2 in
  ((ny, nx), fun _ j => xs j, fun i _ => ys i).

(** utils.py:758-774 safe_divide; the IEEE value num/denom is only selected when denom <> 0 *)
Definition safe_divide (num denom : R) : R :=
  if Req_EM_T denom 0 then 0 else num / denom.

(** utils.py:777-791 safe_log; None = NaN (logarithm of a negative number) *)
Definition safe_log (x : R) : option R :=
  if Req_EM_T x 0 then Some 0 else if Rlt_dec x 0 then None else Some (ln x).
