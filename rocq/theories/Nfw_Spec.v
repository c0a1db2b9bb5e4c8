(** * The NFW density profile *)
From Coq Require Import Reals.
Local Open Scope R_scope.
(** density at radius r of a halo of scale density Ds and scale radius Rs *)
Definition nfw_density (Ds Rs r : R) : R := Ds / (r / Rs * (1 + r / Rs) ^ 2).
