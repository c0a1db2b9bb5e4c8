(** * World coordinate system (model of src/caustics/utils.py, lines 199-602)

    Batch dimensions are dropped: the functions act on each pixel separately. *)
From Coq Require Import Reals List ZArith.
From Verif Require Import Py RealFun Const_Model.
Import ListNotations.
Local Open Scope R_scope.

(** utils.py:199-241; arctan2(y, x); the branch discarded by where is not evaluated *)
Definition plane_to_world_gnomonic (px py : R) (crval : R * R) : R * R :=
  let x := px * deg_to_rad in
  let y := py * deg_to_rad in
  let rho := sqrt (x ^ 2 + y ^ 2) in
  let c := atan rho in
  let ra := fst crval + rad_to_deg * atan2 (x * sin c)
              (rho * cos (snd crval * deg_to_rad) * cos c - y * sin (snd crval * deg_to_rad) * sin c) in
  let dec := if Req_EM_T rho 0 then snd crval
             else rad_to_deg * asin (cos c * sin (snd crval * deg_to_rad) + y * sin c * cos (snd crval * deg_to_rad) / rho) in
  (ra, dec).
(** utils.py:410-448; None: division by zero *)
Definition world_to_plane_gnomonic (ra dec : R) (crval : R * R) : option (R * R) :=
  let ra := ra * deg_to_rad in
  let dec := dec * deg_to_rad in
  let cosc := sin (snd crval * deg_to_rad) * sin dec + cos (snd crval * deg_to_rad) * cos dec * cos (ra - fst crval * deg_to_rad) in
  if Req_EM_T cosc 0 then None
  else
    let x := cos dec * sin (ra - fst crval * deg_to_rad) / cosc in
    let y := (cos (snd crval * deg_to_rad) * sin dec - sin (snd crval * deg_to_rad) * cos dec * cos (ra - fst crval * deg_to_rad)) / cosc in
    Some (x * rad_to_deg, y * rad_to_deg).

(** 2x2 matrix by rows *)
Definition cdmat : Type := (R * R) * (R * R).
(** einsum("ij,...j->...i") *)
Definition mul (m : cdmat) (v : R * R) : R * R :=
  (fst (fst m) * fst v + snd (fst m) * snd v, fst (snd m) * fst v + snd (snd m) * snd v).
(** linalg.inv: an error for singular matrices *)
Definition cd_det (m : cdmat) : R := fst (fst m) * snd (snd m) - snd (fst m) * fst (snd m).
Definition inv (m : cdmat) : result cdmat :=
  if Req_EM_T (cd_det m) 0 then Raise RuntimeError
  else Ok ((snd (snd m) / cd_det m, - snd (fst m) / cd_det m), (- fst (snd m) / cd_det m, fst (fst m) / cd_det m)).
Definition vadd (u v : R * R) : R * R := (fst u + fst v, snd u + snd v).
Definition vsub (u v : R * R) : R * R := (fst u - fst v, snd u - snd v).
(** utils.py:315-319, 520-524: the polynomial correction; the powers are pairs of natural numbers, the coefficients pairs of reals;
    sip_coefs[p] fails if there are fewer coefficients than powers *)
Definition sip (powers : list (nat * nat)) (coefs : list (R * R)) (pixel : R * R) : result (R * R) :=
  for_loop (fun p delta =>
    bind (py_get powers p) (fun w => bind (py_get coefs p) (fun a =>
    let m := fst pixel ^ fst w * snd pixel ^ snd w in
    Ok (fst delta + fst a * m, snd delta + snd a * m)))) (seq 0 (length powers)) (0, 0).
Definition default (crplane : option (R * R)) : R * R := match crplane with None => (0, 0) | Some c => c end.
(** utils.py:244-321 *)
Definition pixel_to_plane (i j : R) (crpix : R * R) (CD : cdmat) (powers : list (nat * nat)) (coefs : list (R * R)) (crplane : option (R * R)) : result (R * R) :=
  let pixel := vsub (i, j) crpix in
  bind (sip powers coefs pixel) (fun delta_p => Ok (vadd (mul CD (vadd pixel delta_p)) (default crplane))).
(** utils.py:451-526 *)
Definition plane_to_pixel (px py : R) (crpix : R * R) (CD : cdmat) (powers : list (nat * nat)) (coefs : list (R * R)) (crplane : option (R * R)) : result (R * R) :=
  let plane := vsub (px, py) (default crplane) in
  bind (inv CD) (fun iCD =>
  let pixel := mul iCD plane in
  bind (sip powers coefs pixel) (fun delta_w => Ok (vadd pixel (vadd delta_w crpix)))).
(** utils.py:324-407 *)
Definition pixel_to_world (i j : R) (crpix crval : R * R) (CD : cdmat) (powers : list (nat * nat)) (coefs : list (R * R)) (crplane : option (R * R)) : result (R * R) :=
  bind (pixel_to_plane i j crpix CD powers coefs crplane) (fun p => Ok (plane_to_world_gnomonic (fst p) (snd p) crval)).
(** utils.py:529-602; the inner option is None where the projection is not finite *)
Definition world_to_pixel (ra dec : R) (crpix crval : R * R) (CD : cdmat) (powers : list (nat * nat)) (coefs : list (R * R)) (crplane : option (R * R)) : result (option (R * R)) :=
  match world_to_plane_gnomonic ra dec crval with
  | None => Ok None
  | Some p => bind (plane_to_pixel (fst p) (snd p) crpix CD powers coefs crplane) (fun q => Ok (Some q))
  end.
