(** * C50: multipoles *)
From Coq Require Import Reals ZArith List Lra.
From Verif Require Import Lens_Spec Multipole_Model Multipole_Proofs.
Import ListNotations.
Local Open Scope R_scope.
(** orders_accepted is the assertion of the constructor (every order at least 2). *)
Theorem C50_consistent : forall x0 y0 l x y, orders_accepted l = true -> x <> x0 \/ y <> y0 ->
  lens_consistent (potential_multipole x0 y0 l) (reduced_deflection_angle_multipole x0 y0 l) (convergence_multipole x0 y0 l) x y.
Proof. exact multipole_consistent. Qed.
Print Assumptions C50_consistent.
Theorem C50_orders : forall l, orders_accepted l = true <-> (forall m a p, In (m, a, p) l -> (2 <= m)%Z).
Proof. exact orders_accepted_spec. Qed.
Print Assumptions C50_orders.
Example C50_hyps : orders_accepted [(3%Z, 1 / 10, 1); (4%Z, - 1 / 5, 0)] = true /\ ((1 : R) <> 0 \/ (2 : R) <> 0).
Proof. split; [reflexivity|left; lra]. Qed.
