(** * Bicubic interpolation and PixelatedPotential
    (model of src/caustics/utils.py:1079-1321 and src/caustics/lenses/pixelated_potential.py) *)
From Coq Require Import Reals ZArith Bool List.
From Verif Require Import Py RealFun Interp2_Model.
Import ListNotations.
Open Scope R_scope.

(** utils.py:1079-1096 *)
Definition BC : list (list Z) := [
  [1; 0; 0; 0; 0; 0; 0; 0; 0; 0; 0; 0; 0; 0; 0; 0];
  [0; 0; 0; 0; 0; 0; 0; 0; 1; 0; 0; 0; 0; 0; 0; 0];
  [-3; 0; 0; 3; 0; 0; 0; 0; -2; 0; 0; -1; 0; 0; 0; 0];
  [2; 0; 0; -2; 0; 0; 0; 0; 1; 0; 0; 1; 0; 0; 0; 0];
  [0; 0; 0; 0; 1; 0; 0; 0; 0; 0; 0; 0; 0; 0; 0; 0];
  [0; 0; 0; 0; 0; 0; 0; 0; 0; 0; 0; 0; 1; 0; 0; 0];
  [0; 0; 0; 0; -3; 0; 0; 3; 0; 0; 0; 0; -2; 0; 0; -1];
  [0; 0; 0; 0; 2; 0; 0; -2; 0; 0; 0; 0; 1; 0; 0; 1];
  [-3; 3; 0; 0; -2; -1; 0; 0; 0; 0; 0; 0; 0; 0; 0; 0];
  [0; 0; 0; 0; 0; 0; 0; 0; -3; 3; 0; 0; -2; -1; 0; 0];
  [9; -9; 9; -9; 6; 3; -3; -6; 6; -6; -3; 3; 4; 2; 1; 2];
  [-6; 6; -6; 6; -4; -2; 2; 4; -3; 3; 3; -3; -2; -1; -1; -2];
  [2; -2; 0; 0; 1; 1; 0; 0; 0; 0; 0; 0; 0; 0; 0; 0];
  [0; 0; 0; 0; 0; 0; 0; 0; 2; -2; 0; 0; 1; 1; 0; 0];
  [-6; 6; -6; 6; -3; -3; 3; 3; -4; 4; 2; -2; -2; -2; -1; -1];
  [4; -4; 4; -4; 2; 2; -2; -2; 2; -2; -2; 2; 1; 1; 1; 1] ]%Z.

(** utils.py:1099-1129 for an h by w map (both sides >= 2; the later assignments win where slices overlap).
    First axis = rows. *)
Definition kernel_dZ1 (h : nat) (Z : nat -> nat -> R) (d1 : R) (i j : nat) : R :=
  if Nat.eqb i (h - 1) then (Z (h - 2)%nat j - Z (h - 1)%nat j) / d1
  else if Nat.eqb i 0 then (Z 0%nat j - Z 1%nat j) / d1
  else (Z (i - 1)%nat j - Z (i + 1)%nat j) / (2 * d1).
Definition kernel_dZ2 (w : nat) (Z : nat -> nat -> R) (d2 : R) (i j : nat) : R :=
  if Nat.eqb j (w - 1) then (Z i (w - 2)%nat - Z i (w - 1)%nat) / d2
  else if Nat.eqb j 0 then (Z i 0%nat - Z i 1%nat) / d2
  else (Z i (j - 1)%nat - Z i (j + 1)%nat) / (2 * d2).
Definition kernel_dZ12 (h w : nat) (Z : nat -> nat -> R) (d1 d2 : R) (i j : nat) : R :=
  if (Nat.eqb i 0 || Nat.eqb i (h - 1) || Nat.eqb j 0 || Nat.eqb j (w - 1))%bool then 0
  else (Z (i - 1)%nat (j - 1)%nat - Z (i - 1)%nat (j + 1)%nat - Z (i + 1)%nat (j - 1)%nat + Z (i + 1)%nat (j + 1)%nat) / (4 * d1 * d2).

(** utils.py:1285-1288: [x % 1] is x - floor(x) *)
Definition bic_t (n : nat) (x : R) : R :=
  let m := x - IZR (rfloor x) in
  if Rlt_dec x 0 then m - 1 else if Rle_dec (INR n - 1) x then m + 1 else m.

(** utils.py:1278-1281: (BC @ v).reshape(4, 4)[i][j] *)
Fixpoint dot (a : list Z) (b : list R) : R :=
  match a, b with x :: a', y :: b' => IZR x * y + dot a' b' | _, _ => 0 end.
Definition bic_c (v : list R) (i j : nat) : R := dot (nth (4 * i + j) BC []) v.

(** for i in range(4): for j in range(4): acc = acc + term(i, j) when the guard holds *)
Definition range4 : list nat := [0; 1; 2; 3]%nat.
Definition sum_ij (guard : nat -> nat -> bool) (term : nat -> nat -> R) : R :=
  fold_left (fun acc i => fold_left (fun acc j => if guard i j then acc + term i j else acc) range4 acc) range4 0.
(** utils.py:1289-1294, 1295-1305, 1306-1320 *)
Definition bic_Y c t u := sum_ij (fun _ _ => true) (fun i j => c i j * t ^ i * u ^ j).
Definition bic_dY1 c t u := sum_ij (fun i j => Nat.ltb 0 i) (fun i j => INR i * c i j * t ^ (i - 1) * u ^ j).
Definition bic_dY2 c t u := sum_ij (fun i j => Nat.ltb 0 j) (fun i j => INR j * c i j * t ^ i * u ^ (j - 1)).
Definition bic_dY12 c t u :=
  sum_ij (fun i j => Nat.ltb 0 i && Nat.ltb 0 j)%bool (fun i j => INR i * INR j * c i j * t ^ (i - 1) * u ^ (j - 1)).
Definition bic_dY11 c t u :=
  sum_ij (fun i j => Nat.ltb 1 i) (fun i j => INR i * (INR i - 1) * c i j * t ^ (i - 2) * u ^ j).
Definition bic_dY22 c t u :=
  sum_ij (fun i j => Nat.ltb 1 j) (fun i j => INR j * (INR j - 1) * c i j * t ^ i * u ^ (j - 2)).

(** utils.py:1132-1321 for one query point; [ndims] of Z, x and y; h by w map *)
Definition interp_bicubic (ndims : nat * nat * nat) (h w : nat) (x y : R) (Z : nat -> nat -> R)
    (dZ1 dZ2 dZ12 : option (nat -> nat -> R)) (get_Y get_dY get_ddY : bool) : result (list R) :=
  let '(dz, dx, dy) := ndims in
  if negb (Nat.eqb dz 2) then Raise ValueError
  else if Nat.ltb 1 dx then Raise ValueError
  else if Nat.ltb 1 dy then Raise ValueError
  else
    let x := clampR (to_pixel w x) (- (1 / 2)) (INR w - 1 / 2) in
    let y := clampR (to_pixel h y) (- (1 / 2)) (INR h - 1 / 2) in
    let dZ1 := match dZ1 with Some d => d | None => kernel_dZ1 h Z 1 end in
    let dZ2 := match dZ2 with Some d => d | None => kernel_dZ2 w Z 1 end in
    let dZ12 := match dZ12 with Some d => d | None => kernel_dZ12 h w Z 1 1 end in
    let x0 := rfloor x in
    let y0 := rfloor y in
    let x1 := (x0 + 1)%Z in
    let y1 := (y0 + 1)%Z in
    let x0 := ax w (clampZ x0 0 (Z.of_nat w - 2)) in
    let x1 := ax w (clampZ x1 1 (Z.of_nat w - 1)) in
    let y0 := ax h (clampZ y0 0 (Z.of_nat h - 2)) in
    let y1 := ax h (clampZ y1 1 (Z.of_nat h - 1)) in
    let v := [ Z y0 x0; Z y0 x1; Z y1 x1; Z y1 x0;
               dZ1 y0 x0; dZ1 y0 x1; dZ1 y1 x1; dZ1 y1 x0;
               dZ2 y0 x0; dZ2 y0 x1; dZ2 y1 x1; dZ2 y1 x0;
               dZ12 y0 x0; dZ12 y0 x1; dZ12 y1 x1; dZ12 y1 x0 ] in
    let c := bic_c v in
    let t := bic_t w x in
    let u := bic_t h y in
    Ok ((if get_Y then [bic_Y c t u] else [])
        ++ (if get_dY then [bic_dY1 c t u; bic_dY2 c t u] else [])
        ++ (if get_ddY then [bic_dY12 c t u; bic_dY11 c t u; bic_dY22 c t u] else []))%list.

(** ** pixelated_potential.py; the map has h rows and w columns and is given without derivative maps *)
Section PixelatedPotential.
Variables (h w : nat) (potential_map : nat -> nat -> R) (x0 y0 pixelscale : R).
(** pixelated_potential.py:153-164, 200-208, 244-253: the common call; queries are flattened to one dimension *)
Definition pp_query (x y : R) (get_Y get_dY get_ddY : bool) : result (list R) :=
  let fov_x := INR w * pixelscale in
  let fov_y := INR h * pixelscale in
  interp_bicubic (2, 1, 1)%nat h w ((x - x0) / fov_x * 2) ((y - y0) / fov_y * 2) potential_map
    None None None get_Y get_dY get_ddY.
(** pixelated_potential.py:116-165; unpacking a list of the wrong length would raise ValueError *)
Definition pp_reduced_deflection_angle (x y : R) : result (R * R) :=
  bind (pp_query x y false true false) (fun r => match r with [a; b] => Ok (a / pixelscale, b / pixelscale) | _ => Raise ValueError end).
(** pixelated_potential.py:168-209 *)
Definition pp_potential (x y : R) : result R :=
  bind (pp_query x y true false false) (fun r => py_get r 0).
(** pixelated_potential.py:212-254 *)
Definition pp_convergence (x y : R) : result R :=
  bind (pp_query x y false false true)
    (fun r => match r with [_; dY11; dY22] => Ok ((dY11 + dY22) / (2 * pixelscale ^ 2)) | _ => Raise ValueError end).
End PixelatedPotential.
