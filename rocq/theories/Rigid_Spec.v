(** * Rigid motions of the plane and what it means to move along with them (C94) *)
From Coq Require Import Reals.
Local Open Scope R_scope.

(** turn a vector by the angle t, counter-clockwise *)
Definition turn (t : R) (v : R * R) : R * R := (fst v * cos t - snd v * sin t, fst v * sin t + snd v * cos t).
(** turn by t about the origin, then shift by (a, b) *)
Definition motion (t a b x y : R) : R * R := (fst (turn t (x, y)) + a, snd (turn t (x, y)) + b).

(** f' is f carried along by the motion: a value at a point, or a vector at a point *)
Definition carried {A} (t a b : R) (f f' : R -> R -> A) (x y : R) : Prop := f' (fst (motion t a b x y)) (snd (motion t a b x y)) = f x y.
Definition carried_vector (t a b : R) (f f' : R -> R -> R * R) (x y : R) : Prop := f' (fst (motion t a b x y)) (snd (motion t a b x y)) = turn t (f x y).
