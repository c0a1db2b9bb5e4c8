(** * Lenses behind the source *)
From Coq Require Import Reals.
From Verif Require Import LensBase_Model.
Local Open Scope R_scope.

(** distances start at 0 and grow with redshift *)
Definition distances_grow (dc : R -> R) : Prop := dc 0 = 0 /\ forall a b, 0 <= a < b -> dc a < dc b.
(** deflection and convergence of one lens are those of the other with the sign reversed, up to a positive factor *)
Definition opposite (l l' : thin_lens) : Prop := exists k, 0 < k /\ forall x y,
  reduced_deflection_angle l x y = (- k * fst (reduced_deflection_angle l' x y), - k * snd (reduced_deflection_angle l' x y)) /\
  convergence l x y = - k * convergence l' x y.
