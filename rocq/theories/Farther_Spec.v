(** * One lens and two sources, the second farther away *)
From Coq Require Import Reals.
From Verif Require Import LensBase_Model.
Local Open Scope R_scope.

(** one lens is the other, k > 1 times as strong *)
Definition stronger (l l' : thin_lens) : Prop := exists k, 1 < k /\ forall x y,
  reduced_deflection_angle l' x y = (k * fst (reduced_deflection_angle l x y), k * snd (reduced_deflection_angle l x y)) /\
  potential l' x y = k * potential l x y /\ convergence l' x y = k * convergence l x y.
(** lens at z_l, sources at z1 and z2 behind it, the second farther away *)
Definition in_order (dc : R -> R) (z_l z1 z2 : R) : Prop := -1 < z_l /\ -1 < z1 /\ -1 < z2 /\ 0 < dc z_l /\ dc z_l < dc z1 /\ dc z1 < dc z2.

