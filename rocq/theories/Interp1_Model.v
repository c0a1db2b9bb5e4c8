(** * One-dimensional interpolation (model of src/caustics/utils.py:794-861) *)
From Coq Require Import Reals ZArith Bool.
Open Scope R_scope.

(** utils.py:794-816: row i of the matrix A times (1, t, t^2, t^3) *)
Definition h_poly (t : R) (i : nat) : R :=
  match i with
  | 0%nat => 1 - 3 * t ^ 2 + 2 * t ^ 3
  | 1%nat => t - 2 * t ^ 2 + t ^ 3
  | 2%nat => 3 * t ^ 2 - 2 * t ^ 3
  | _ => - t ^ 2 + t ^ 3
  end.

(** searchsorted(a[:k], v), side "left", for ascending a: the number of entries below v *)
Fixpoint searchsorted (a : nat -> R) (k : nat) (v : R) : nat :=
  match k with
  | O => O
  | S j => (searchsorted a j v + if Rlt_dec (a j) v then 1 else 0)%nat
  end.

(** a[i] for a tensor of length n: negative indices count from the end *)
Definition wrap (a : nat -> R) (n : nat) (i : Z) : R :=
  if (i <? 0)%Z then a (Z.to_nat (Z.of_nat n + i)) else a (Z.to_nat i).

Inductive extend_mode := Extrapolate | Const | Linear.

Section Interp1d.
(** table of length n >= 2 (shorter tables fail in the code and are left out) *)
Variables (n : nat) (x y : nat -> R).

(** utils.py:850: slopes, length n-1 *)
Definition slope (i : nat) : R := (y (S i) - y i) / (x (S i) - x i).
(** utils.py:851: m[0:1], averages of neighbouring slopes, m[-1:]; length n *)
Definition tangent (i : nat) : R :=
  if Nat.eqb i 0 then slope 0
  else if Nat.eqb i (n - 1) then slope (n - 2)
  else (slope i + slope (i - 1)) / 2.

(** utils.py:852-861 for one query *)
Definition interp1d_raw (xs : R) : R :=
  let idx := (Z.of_nat (searchsorted x (n - 1) xs) - 1)%Z in
  let dx := wrap x n (idx + 1) - wrap x n idx in
  let t := (xs - wrap x n idx) / dx in
  h_poly t 0 * wrap y n idx + h_poly t 1 * wrap tangent n idx * dx
  + h_poly t 2 * wrap y n (idx + 1) + h_poly t 3 * wrap tangent n (idx + 1) * dx.
Definition interp1d (mode : extend_mode) (xs : R) : R :=
  match mode with
  | Extrapolate => interp1d_raw xs
  | Const => if Rlt_dec (x (n - 1)) xs then y (n - 1)%nat else interp1d_raw xs
  | Linear =>
      if Rlt_dec (x (n - 1)) xs
      then y (n - 1)%nat + (xs - x (n - 1)%nat) * (y (n - 1)%nat - y (n - 2)%nat) / (x (n - 1)%nat - x (n - 2)%nat)
      else interp1d_raw xs
  end.
End Interp1d.
