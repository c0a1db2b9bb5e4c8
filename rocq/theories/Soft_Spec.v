(** * What a softening length does away from the centre of a lens *)
From Coq Require Import Reals.
From Verif Require Import Falls_Spec.
Local Open Scope R_scope.

(** length of the difference of two deflections *)
Definition apart (a b : R * R) : R := distance (fst a) (snd a) (fst b) (snd b).
(** the position a distance [s] further out on the ray from the centre through (x, y) *)
Definition further_out (x0 y0 s x y : R) : R * R :=
  let k := (distance x0 y0 x y + s) / distance x0 y0 x y in (x0 + k * (x - x0), y0 + k * (y - y0)).
(** a quantity that depends on the softening tends to its unsoftened value *)
Definition fades (f : R -> R) : Prop :=
  forall eps, 0 < eps -> exists delta, 0 < delta /\ forall s, 0 <= s < delta -> Rabs (f s - f 0) < eps.
