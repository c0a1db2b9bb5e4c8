(** * What C61, C62 and C64 talk about *)
From Coq Require Import Reals List.
From Verif Require Import Py.
Import ListNotations.
Local Open Scope R_scope.

(** elliptical radius: the major axis has angle phi, the minor axis is q times shorter *)
Definition ell_radius (x0 y0 q phi x y : R) : R :=
  sqrt ((cos phi * (x - x0) + sin phi * (y - y0)) ^ 2 + ((cos phi * (y - y0) - sin phi * (x - x0)) / q) ^ 2).
Definition distance (x0 y0 x y : R) : R := sqrt ((x - x0) ^ 2 + (y - y0) ^ 2).
(** the values of a list of outcomes *)
Fixpoint total (l : list R) : R := match l with [] => 0 | a :: t => a + total t end.
