(** * chi-squared and linear systems, independently of the fitting code *)
From Coq Require Import Reals Arith.
From Coquelicot Require Import Coquelicot.
From Verif Require Import Fsum LM_Model.
Local Open Scope R_scope.

(** the inverse covariance as a matrix *)
Definition wmat (W : weights) : mat := fun i j => match W with Diag w => if Nat.eqb i j then w i else 0 | Full m => m i j end.
(** u^T W v *)
Definition qform (m : nat) (W : weights) (u v : vec) : R := fsum m (fun i => fsum m (fun j => u i * wmat W i j * v j)).
(** chi-squared of a residual *)
Definition chisq (m : nat) (W : weights) (r : vec) : R := qform m W r r.
Definition residual (f : vec -> vec) (X Y : vec) : vec := fun i => Y i - f X i.
Definition sym_psd (m : nat) (W : weights) : Prop :=
  (forall i j, (i < m)%nat -> (j < m)%nat -> wmat W i j = wmat W j i) /\ forall u, 0 <= qform m W u u.
(** linalg.solve solves nonsingular systems of n equations *)
Definition solver_ok (n : nat) (solve : mat -> vec -> vec) : Prop :=
  forall H g, (forall v, (forall i, (i < n)%nat -> fsum n (fun k => H i k * v k) = 0) -> forall k, (k < n)%nat -> v k = 0) ->
  forall i, (i < n)%nat -> fsum n (fun k => H i k * solve H g k) = g i.
(** f X = c + A X *)
Definition is_affine (n m : nat) (f : vec -> vec) (c : vec) (A : mat) : Prop :=
  forall X i, (i < m)%nat -> f X i = c i + fsum n (fun j => A i j * X j).
(** J holds the partial derivatives at X of the m outputs with respect to the n inputs *)
Definition partials (n m : nat) (f : vec -> vec) (X : vec) (J : mat) : Prop :=
  forall i j, (i < m)%nat -> (j < n)%nat -> is_derive (fun t => f (fun k => X k + (if Nat.eqb k j then t else 0)) i) 0 (J i j).
