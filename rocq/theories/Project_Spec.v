(** * Specification for C88: halo densities and their projection along the line of sight *)
From Coq Require Import Reals.
From Coquelicot Require Import Coquelicot.
From Verif Require Import Nfw_Spec.
Local Open Scope R_scope.

(** the truncated profile of Baltz et al. 2009: a factor 1/2 at the truncation radius rt *)
Definition tnfw_density (Ds Rs rt r : R) : R := nfw_density Ds Rs r * (rt ^ 2 / (rt ^ 2 + r ^ 2)).
(** S is the integral of the density [rho] along the line of sight at distance d from the centre *)
Definition projects (rho : R -> R) (d S : R) : Prop :=
  exists I, (forall Z, 0 < Z -> is_RInt (V := R_NormedModule) (fun z => rho (sqrt (d ^ 2 + z ^ 2))) (- Z) Z (I Z)) /\ is_lim I p_infty S.
