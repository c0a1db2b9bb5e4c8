(** * Pixel quadrature (model of src/caustics/utils.py, lines 605-755) *)
From Coq Require Import Reals Arith.
From Verif Require Import Fsum.
Local Open Scope R_scope.
Section Quad.
(** scipy.special.roots_legendre(n): n abscissae and weights *)
Variables (n : nat) (abscissa weights : nat -> R).
(** utils.py:605-635: flattened tables of length n^2; meshgrid(a, a, indexing="xy") has X[i][j] = a[j], Y[i][j] = a[i];
    entry k of a flattened n by n table is row k / n, column k mod n *)
Definition table_X (p : R) (k : nat) : R := p * abscissa (k mod n) / 2.
Definition table_Y (p : R) (k : nat) : R := p * abscissa (k / n) / 2.
Definition table_W (k : nat) : R := weights (k / n) * weights (k mod n) / 4.
(** utils.py:638-681, for one pixel centred at (x, y) *)
Definition grid_X (pixelscale x : R) (k : nat) : R := x + table_X pixelscale k.
Definition grid_Y (pixelscale y : R) (k : nat) : R := y + table_Y pixelscale k.
(** utils.py:684-718 *)
Definition gaussian_quadrature_integrator (F weight : nat -> R) : R := fsum (n * n) (fun k => F k * weight k).
(** utils.py:721-755 *)
Definition quad (F : R -> R -> R) (pixelscale x y : R) : R :=
  gaussian_quadrature_integrator (fun k => F (grid_X pixelscale x k) (grid_Y pixelscale y k)) table_W.
End Quad.
