(** * Interpolated maps: PixelatedDeflection, Pixelated, PixelatedTime

    One query point; x and y reach interp2d flattened to one dimension. *)
From Coq Require Import Reals Arith String List.
From Verif Require Import Py Interp2_Model.
Local Open Scope R_scope.

(** lenses/pixelated_deflection.py:94-103; [ndim] is that of the map *)
Definition new_pixelated_deflection (ndim : nat) : result unit := if Nat.eqb ndim 3 then Ok tt else Raise ValueError.
(** lenses/pixelated_deflection.py:114-155; the map has shape (2, h, w) *)
Definition pd_reduced_deflection_angle (h w : nat) (deflection_map : nat -> nat -> nat -> R) (x0 y0 pixelscale x y : R) : result (R * R) :=
  let fov_x := INR w * pixelscale in let fov_y := INR h * pixelscale in
  let x := (x - x0) / fov_x * 2 in let y := (y - y0) / fov_y * 2 in
  bind (interp2d (2, 1, 1)%nat h w (deflection_map 0%nat) x y "linear" "zeros") (fun ax =>
  bind (interp2d (2, 1, 1)%nat h w (deflection_map 1%nat) x y "linear" "zeros") (fun ay => Ok (ax, ay))).
(** lenses/pixelated_deflection.py:157-167 *)
Definition pd_potential (x y : R) : result R := Raise NotImplementedError.
Definition pd_convergence (x y : R) : result R := Raise NotImplementedError.

(** light/pixelated.py:119-126 *)
Definition new_pixelated (ndim : nat) : result unit := if (Nat.eqb ndim 2 || Nat.eqb ndim 3)%bool then Ok tt else Raise ValueError.
(** light/pixelated.py:136-186; the image has ndim dimensions, the first two of length h and w *)
Definition px_brightness (ndim h w : nat) (image : nat -> nat -> R) (x0 y0 pixelscale scale : R) (padding_mode : string) (x y : R) : result R :=
  let fov_x := pixelscale * INR w in let fov_y := pixelscale * INR h in
  interp2d (ndim, 1, 1)%nat h w (fun i j => image i j * scale) ((x - x0) / fov_x * 2) ((y - y0) / fov_y * 2) "linear" padding_mode.

(** light/pixelated_time.py:127-134 *)
Definition new_pixelated_time (ndim : nat) : result unit := if (Nat.eqb ndim 3 || Nat.eqb ndim 4)%bool then Ok tt else Raise ValueError.
(** light/pixelated_time.py:143-196; the cube has ndim dimensions, the first three of length d, h and w *)
Definition pt_brightness (ndim d h w : nat) (cube : nat -> nat -> nat -> R) (x0 y0 pixelscale t_end scale : R) (x y t : R) : result R :=
  let fov_x := pixelscale * INR w in let fov_y := pixelscale * INR h in
  interp3d (ndim, 1)%nat d h w (fun k i j => cube k i j * scale) ((x - x0) / fov_x * 2) ((y - y0) / fov_y * 2) ((t - t_end / 2) / t_end * 2) "linear" "zeros".
