(** * How a shear changes an ellipticity *)
From Coq Require Import Reals.
From Coquelicot Require Import Complex.
Local Open Scope R_scope.

(** the complex ellipticity e = e1 + i e2 behind the reduced shear g = g1 + i g2 is seen as (e + g) / (1 + e g* ) *)
Definition sheared (e g : C) : C := ((e + g) / (1 + e * Cconj g))%C.
(** how much larger (in Re) a galaxy looks behind the reduced shear g and the convergence kappa *)
Definition growth (kappa : R) (e g : C) : R := (1 - Cmod e) / ((1 - Cmod (sheared e g)) * Rabs (1 - kappa) * Cmod (1 + e * Cconj g)%C).
