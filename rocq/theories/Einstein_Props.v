(** * C98: Rein is the Einstein radius of the isothermal and power-law lenses *)
From Coq Require Import Reals Lra.
From Coquelicot Require Import Coquelicot.
From Verif Require Import LensBasic_Model Epl_Model Einstein_Spec Einstein_Proofs.
Local Open Scope R_scope.

(** Inside the ellipse of constant convergence that has the area of a circle of radius l Rein the mass is pi Rein^2 l^(2-t); with l = 1 mass and area agree: the
    mean convergence inside the ellipse of area pi Rein^2 is one. *)
Theorem C98_epl : forall x0 y0 q phi Rein t, 0 < q -> 0 < Rein -> 0 < t < 2 -> forall l, 0 < l -> exists rho,
  (forall th, 0 < rho th /\ on_ellipse (l * Rein / sqrt q) (l * Rein * sqrt q) phi (rho th * cos th) (rho th * sin th)) /\
  area_inside rho (PI * (l * Rein) ^ 2) /\ mass_inside (convergence_epl x0 y0 q phi Rein t 0) x0 y0 rho (PI * Rein ^ 2 * Rpower l (2 - t)).
Proof. exact epl_einstein. Qed.
Print Assumptions C98_epl.
Theorem C98_sie : forall x0 y0 q phi Rein l, 0 < q -> 0 < Rein -> 0 < l -> exists rho,
  (forall th, 0 < rho th /\ on_ellipse (l * Rein / sqrt q) (l * Rein * sqrt q) phi (rho th * cos th) (rho th * sin th)) /\
  area_inside rho (PI * (l * Rein) ^ 2) /\ mass_inside (convergence_sie x0 y0 q phi Rein 0) x0 y0 rho (PI * Rein ^ 2 * l).
Proof. exact sie_einstein. Qed.
Print Assumptions C98_sie.
Theorem C98_sis : forall x0 y0 Rein l, 0 < Rein -> 0 < l -> mass_inside (convergence_sis x0 y0 Rein 0) x0 y0 (fun _ => l * Rein) (PI * Rein ^ 2 * l).
Proof. exact sis_einstein. Qed.
Print Assumptions C98_sis.
Example C98_hyps : 0 < 3 / 4 /\ 0 < 2 /\ 0 < 6 / 5 < 2 /\ 0 < 1.
Proof. lra. Qed.
