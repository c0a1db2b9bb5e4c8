(** * Interpolated maps as automatic differentiation sees them (utils.py:864-1069, linear method; one query point)

    The entries of the map are expressions, so that the map itself can be differentiated.  Floors, their clamps and the sums x0 + 1 are
    integers and carry no tangent; they appear as [Pick]. *)
From Coq Require Import Reals ZArith String List.
From Verif Require Import Py RealFun Interp2_Model Ad_Model AdLens_Model.
Import ListNotations.
Local Open Scope R_scope.
Local Open Scope ad_scope.

(** utils.py:930-931 *)
Definition t_to_pixel (n : nat) (x : expr) : expr := Cst (1 / 2) * ((x + Cst 1) * Cst (INR n) - Cst 1).
(** utils.py:939-940, the index of the cell at pixel coordinate u on an axis of n pixels *)
Definition cell (n : nat) (u : R) : Z := clampZ (rfloor u) 0 (Z.of_nat n - 2).
(** an integer k(u) as an array *)
Definition t_int (k : R -> Z) (u : expr) : expr := Pick (fun u _ => Cst (IZR (k u))) u u.
(** utils.py:939-954 *)
Definition t_linear2 (h w : nat) (im : nat -> nat -> expr) (x y : expr) : expr :=
  let entry (dy dx : Z) := Pick (fun u v => im (ax h (cell h v + dy)) (ax w (cell w u + dx))) x y in
  let x0 := t_int (cell w) x in
  let y0 := t_int (cell h) y in
  let x1 := t_int (fun u => cell w u + 1)%Z x in
  let y1 := t_int (fun v => cell h v + 1)%Z y in
  let fa := entry 0%Z 0%Z in
  let fb := entry 1%Z 0%Z in
  let fc := entry 0%Z 1%Z in
  let fd := entry 1%Z 1%Z in
  let dx1 := x1 - x in
  let dx0 := x - x0 in
  let dy1 := y1 - y in
  let dy0 := y - y0 in
  fa * dx1 * dy1 + fb * dx1 * dy0 + fc * dx0 * dy1 + fd * dx0 * dy0.
(** where((c < -1) | (c > 1), 0, res), one where per comparison *)
Definition t_zero_outside (c res : expr) : expr := Where (Lt c (Cst (-1))) (Cst 0) (Where (Lt (Cst 1) c) (Cst 0) res).
Definition t_clamp11 (c : expr) : expr := AtMost 1 (AtLeast (-1) c).
(** utils.py:864-961 with method "linear"; the numbers of dimensions are those of interp2d *)
Definition t_interp2d (ndims : nat * nat * nat) (h w : nat) (im : nat -> nat -> expr) (x y : expr) (padding_mode : string) : result expr :=
  let '(di, dx, dy) := ndims in
  if negb (Nat.eqb di 2) then Raise ValueError
  else if Nat.ltb 1 dx then Raise ValueError
  else if Nat.ltb 1 dy then Raise ValueError
  else if negb (mem_str padding_mode ["extrapolate"; "clamp"; "zeros"]%string) then Raise ValueError
  else
    let clamping := String.eqb padding_mode "clamp" in
    let xc := if clamping then t_clamp11 x else x in
    let yc := if clamping then t_clamp11 y else y in
    let result := t_linear2 h w im (t_to_pixel w xc) (t_to_pixel h yc) in
    Ok (if String.eqb padding_mode "zeros" then t_zero_outside y (t_zero_outside x result) else result).

(** lenses/pixelated_deflection.py:114-155 *)
Definition t_pd_deflection (h w : nat) (deflection_map : nat -> nat -> nat -> expr) (x0 y0 pixelscale x y : expr) : result (expr * expr) :=
  let fov_x := Cst (INR w) * pixelscale in let fov_y := Cst (INR h) * pixelscale in
  let x := (x - x0) / fov_x * Cst 2 in let y := (y - y0) / fov_y * Cst 2 in
  bind (t_interp2d (2, 1, 1)%nat h w (deflection_map 0%nat) x y "zeros") (fun ax =>
  bind (t_interp2d (2, 1, 1)%nat h w (deflection_map 1%nat) x y "zeros") (fun ay => Ok (ax, ay))).
(** light/pixelated.py:136-186 *)
Definition t_px_brightness (ndim h w : nat) (image : nat -> nat -> expr) (x0 y0 pixelscale scale : expr) (padding_mode : string) (x y : expr) : result expr :=
  let fov_x := pixelscale * Cst (INR w) in let fov_y := pixelscale * Cst (INR h) in
  t_interp2d (ndim, 1, 1)%nat h w (fun i j => image i j * scale) ((x - x0) / fov_x * Cst 2) ((y - y0) / fov_y * Cst 2) padding_mode.

(** utils.py:1034-1062 *)
Definition t_linear3 (d h w : nat) (cu : nat -> nat -> nat -> expr) (x y t : expr) : expr :=
  let entry (dt dy dx : Z) :=
    Pick (fun u v => Pick (fun s _ => cu (ax d (cell d s + dt)) (ax h (cell h v + dy)) (ax w (cell w u + dx))) t t) x y in
  let x0 := t_int (cell w) x in
  let y0 := t_int (cell h) y in
  let t0 := t_int (cell d) t in
  let fa := entry 0%Z 0%Z 0%Z in
  let fb := entry 0%Z 1%Z 0%Z in
  let fc := entry 0%Z 0%Z 1%Z in
  let fd := entry 0%Z 1%Z 1%Z in
  let fe := entry 1%Z 0%Z 0%Z in
  let ff := entry 1%Z 1%Z 0%Z in
  let fg := entry 1%Z 0%Z 1%Z in
  let fh := entry 1%Z 1%Z 1%Z in
  let xd := x - x0 in
  let yd := y - y0 in
  let td := t - t0 in
  let c00 := fa * (Cst 1 - xd) + fc * xd in
  let c01 := fe * (Cst 1 - xd) + fg * xd in
  let c10 := fb * (Cst 1 - xd) + fd * xd in
  let c11 := ff * (Cst 1 - xd) + fh * xd in
  let c0 := c00 * (Cst 1 - yd) + c10 * yd in
  let c1 := c01 * (Cst 1 - yd) + c11 * yd in
  c0 * (Cst 1 - td) + c1 * td.
(** utils.py:964-1069 with method "linear" *)
Definition t_interp3d (ndims : nat * nat) (d h w : nat) (cu : nat -> nat -> nat -> expr) (x y t : expr) (padding_mode : string) : result expr :=
  let '(di, dt) := ndims in
  if negb (Nat.eqb di 3) then Raise ValueError
  else if Nat.ltb 1 dt then Raise ValueError
  else if negb (mem_str padding_mode ["extrapolate"; "zeros"]%string) then Raise ValueError
  else
    let result := t_linear3 d h w cu (t_to_pixel w x) (t_to_pixel h y) (t_to_pixel d t) in
    Ok (if String.eqb padding_mode "zeros" then t_zero_outside y (t_zero_outside x (t_zero_outside t result)) else result).
(** light/pixelated_time.py:143-196 *)
Definition t_pt_brightness (ndim d h w : nat) (cube : nat -> nat -> nat -> expr) (x0 y0 pixelscale t_end scale x y t : expr) : result expr :=
  let fov_x := pixelscale * Cst (INR w) in let fov_y := pixelscale * Cst (INR h) in
  t_interp3d (ndim, 1)%nat d h w (fun k i j => cube k i j * scale) ((x - x0) / fov_x * Cst 2) ((y - y0) / fov_y * Cst 2)
    ((t - t_end / Cst 2) / t_end * Cst 2) "zeros".
