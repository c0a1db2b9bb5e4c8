(** * interp2d and interp3d (model of src/caustics/utils.py:864-1069) *)
From Coq Require Import Reals ZArith Bool String List.
From Verif Require Import Py RealFun.
Import ListNotations.
Open Scope R_scope.

(** backend.clamp(v, lo, hi) on reals and on integers: min(max(v, lo), hi), also when lo > hi *)
Definition clampR (v lo hi : R) : R := Rmin (Rmax v lo) hi.
Definition clampZ (v lo hi : Z) : Z := Z.min (Z.max v lo) hi.
(** the entry selected by index i on an axis of length n: negative indices count from the end *)
Definition ax (n : nat) (i : Z) : nat := Z.to_nat (if (i <? 0)%Z then Z.of_nat n + i else i)%Z.

(** utils.py:930-931: from [-1,1] to pixel units on an axis of length n (0.5 written 1/2) *)
Definition to_pixel (n : nat) (x : R) : R := 1 / 2 * ((x + 1) * INR n - 1).

(** (y < -1) | (y > 1) as used in utils.py:926 and 1020, for one coordinate *)
Definition outside (x : R) : bool := if Rlt_dec x (-1) then true else if Rlt_dec 1 x then true else false.

Definition mem_str (s : string) (l : list string) : bool := existsb (String.eqb s) l.

(** utils.py:933-937 *)
Definition nearest2 (h w : nat) (im : nat -> nat -> R) (x y : R) : R :=
  im (ax h (clampZ (rround y) 0 (Z.of_nat h - 1))) (ax w (clampZ (rround x) 0 (Z.of_nat w - 1))).
(** utils.py:939-954 *)
Definition linear2 (h w : nat) (im : nat -> nat -> R) (x y : R) : R :=
  let x0 := clampZ (rfloor x) 0 (Z.of_nat w - 2) in
  let y0 := clampZ (rfloor y) 0 (Z.of_nat h - 2) in
  let x1 := (x0 + 1)%Z in
  let y1 := (y0 + 1)%Z in
  let fa := im (ax h y0) (ax w x0) in
  let fb := im (ax h y1) (ax w x0) in
  let fc := im (ax h y0) (ax w x1) in
  let fd := im (ax h y1) (ax w x1) in
  let dx1 := IZR x1 - x in
  let dx0 := x - IZR x0 in
  let dy1 := IZR y1 - y in
  let dy0 := y - IZR y0 in
  fa * dx1 * dy1 + fb * dx1 * dy0 + fc * dx0 * dy1 + fd * dx0 * dy0.

(** utils.py:864-961 for one query point. [ndims] are the numbers of dimensions of im, x and y; the
    image is read as h rows by w columns when the first is 2 *)
Definition interp2d (ndims : nat * nat * nat) (h w : nat) (im : nat -> nat -> R) (x y : R)
    (method padding_mode : string) : result R :=
  let '(di, dx, dy) := ndims in
  if negb (Nat.eqb di 2) then Raise ValueError
  else if Nat.ltb 1 dx then Raise ValueError
  else if Nat.ltb 1 dy then Raise ValueError
  else if negb (mem_str padding_mode ["extrapolate"; "clamp"; "zeros"]%string) then Raise ValueError
  else
    let '(x, y, out) :=
      if String.eqb padding_mode "clamp" then (clampR x (-1) 1, clampR y (-1) 1, false)
      else (x, y, outside y || outside x) in
    let x := to_pixel w x in
    let y := to_pixel h y in
    bind (if String.eqb method "nearest" then Ok (nearest2 h w im x y)
          else if String.eqb method "linear" then Ok (linear2 h w im x y)
          else Raise ValueError)
    (fun res => Ok (if String.eqb padding_mode "zeros" then (if out then 0 else res) else res)).

(** utils.py:1027-1032 *)
Definition nearest3 (d h w : nat) (cu : nat -> nat -> nat -> R) (x y t : R) : R :=
  cu (ax d (clampZ (rround t) 0 (Z.of_nat d - 1))) (ax h (clampZ (rround y) 0 (Z.of_nat h - 1)))
     (ax w (clampZ (rround x) 0 (Z.of_nat w - 1))).
(** utils.py:1034-1062 *)
Definition linear3 (d h w : nat) (cu : nat -> nat -> nat -> R) (x y t : R) : R :=
  let x0 := clampZ (rfloor x) 0 (Z.of_nat w - 2) in
  let y0 := clampZ (rfloor y) 0 (Z.of_nat h - 2) in
  let t0 := clampZ (rfloor t) 0 (Z.of_nat d - 2) in
  let x1 := (x0 + 1)%Z in
  let y1 := (y0 + 1)%Z in
  let t1 := (t0 + 1)%Z in
  let fa := cu (ax d t0) (ax h y0) (ax w x0) in
  let fb := cu (ax d t0) (ax h y1) (ax w x0) in
  let fc := cu (ax d t0) (ax h y0) (ax w x1) in
  let fd := cu (ax d t0) (ax h y1) (ax w x1) in
  let fe := cu (ax d t1) (ax h y0) (ax w x0) in
  let ff := cu (ax d t1) (ax h y1) (ax w x0) in
  let fg := cu (ax d t1) (ax h y0) (ax w x1) in
  let fh := cu (ax d t1) (ax h y1) (ax w x1) in
  let xd := x - IZR x0 in
  let yd := y - IZR y0 in
  let td := t - IZR t0 in
  let c00 := fa * (1 - xd) + fc * xd in
  let c01 := fe * (1 - xd) + fg * xd in
  let c10 := fb * (1 - xd) + fd * xd in
  let c11 := ff * (1 - xd) + fh * xd in
  let c0 := c00 * (1 - yd) + c10 * yd in
  let c1 := c01 * (1 - yd) + c11 * yd in
  c0 * (1 - td) + c1 * td.

(** utils.py:964-1069 for one query point; [ndims] are those of cu and t *)
Definition interp3d (ndims : nat * nat) (d h w : nat) (cu : nat -> nat -> nat -> R) (x y t : R)
    (method padding_mode : string) : result R :=
  let '(di, dt) := ndims in
  if negb (Nat.eqb di 3) then Raise ValueError
  else if Nat.ltb 1 dt then Raise ValueError
  else if negb (mem_str padding_mode ["extrapolate"; "zeros"]%string) then Raise ValueError
  else
    let out := outside y || outside x || outside t in
    let x := to_pixel w x in
    let y := to_pixel h y in
    let t := to_pixel d t in
    bind (if String.eqb method "nearest" then Ok (nearest3 d h w cu x y t)
          else if String.eqb method "linear" then Ok (linear3 d h w cu x y t)
          else Raise ValueError)
    (fun res => Ok (if String.eqb padding_mode "zeros" then (if out then 0 else res) else res)).
