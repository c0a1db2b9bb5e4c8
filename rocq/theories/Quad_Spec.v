(** * Polynomials and Gauss-Legendre rules *)
From Coq Require Import Reals.
From Coquelicot Require Import Coquelicot.
From Verif Require Import Fsum.
Local Open Scope R_scope.
(** polynomial with d coefficients *)
Definition poly (d : nat) (c : nat -> R) (x : R) : R := fsum d (fun k => c k * x ^ k).
(** degree below d in each variable *)
Definition poly2 (d : nat) (c : nat -> nat -> R) (x y : R) : R := fsum d (fun k => fsum d (fun l => c k l * x ^ k * y ^ l)).
(** the rule integrates monomials of degree below 2n over [-1, 1] exactly *)
Definition gauss_rule (n : nat) (a w : nat -> R) : Prop :=
  forall k, (k < 2 * n)%nat -> fsum n (fun i => w i * a i ^ k) = RInt (fun t => t ^ k) (-1) 1.
(** mean over the pixel *)
Definition pixel_mean (F : R -> R -> R) (p x y : R) : R :=
  RInt (fun u => RInt (fun v => F u v) (y - p / 2) (y + p / 2)) (x - p / 2) (x + p / 2) / p ^ 2.
