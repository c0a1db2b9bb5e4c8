(** * What C108 talks about: the same universe with another Hubble constant *)
From Coq Require Import Reals.
Local Open Scope R_scope.
(** all distances are k times smaller *)
Definition k_times_nearer (k : R) (d d' : R -> R) : Prop := forall z, d' z = d z / k.
(** all densities are k^2 times larger, as 3 H^2 / (8 pi G) asks when H is k times larger *)
Definition denser (k : R) (rho rho' : R -> R) : Prop := forall z, rho' z = k ^ 2 * rho z.
