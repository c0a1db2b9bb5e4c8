(** * C06: pixel quadrature *)
From Coq Require Import Reals Arith Lia Lra.
From Coquelicot Require Import Coquelicot.
From Verif Require Import Fsum Quad_Model Quad_Spec Quad_Proofs.
Local Open Scope R_scope.

Theorem C06_polynomial : forall n a w, gauss_rule n a w -> (1 <= n)%nat -> forall c p x y, p <> 0 ->
  quad n a w (poly2 (2 * n) c) p x y = pixel_mean (poly2 (2 * n) c) p x y.
Proof. exact quad_poly. Qed.
Print Assumptions C06_polynomial.
Theorem C06_constant : forall n a w, gauss_rule n a w -> (1 <= n)%nat -> forall v p x y, quad n a w (fun _ _ => v) p x y = v.
Proof. exact quad_const. Qed.
Print Assumptions C06_constant.
(** the Gauss-Legendre rules with one, two and three points are such rules *)
Example C06_hyps :
  gauss_rule 1 (fun _ => 0) (fun _ => 2) /\
  gauss_rule 2 (fun i => match i with O => - / sqrt 3 | _ => / sqrt 3 end) (fun _ => 1) /\
  gauss_rule 3 (fun i => match i with O => - sqrt (3 / 5) | 1%nat => 0 | _ => sqrt (3 / 5) end) (fun i => match i with 1%nat => 8 / 9 | _ => 5 / 9 end).
Proof. exact (conj rule1 (conj rule2 rule3)). Qed.
