(** * Mirror images and symmetries of the plane (C106) *)
From Coq Require Import Reals.
From Verif Require Import Rigid_Spec.
Local Open Scope R_scope.

(** the mirror image of a vector in the x axis *)
Definition flip (v : R * R) : R * R := (fst v, - snd v).
(** [f'] is [f] seen in the mirror: a value at a point, or a vector at a point *)
Definition mirrored {A} (f f' : R -> R -> A) (x y : R) : Prop := f' x (- y) = f x y.
Definition mirrored_vector (f f' : R -> R -> R * R) (x y : R) : Prop := f' x (- y) = flip (f x y).

(** reflection in the line through (x0, y0) with position angle p; vectors are reflected in the parallel through the origin *)
Definition reflect_vector (p : R) (v : R * R) : R * R := (fst v * cos (2 * p) + snd v * sin (2 * p), fst v * sin (2 * p) - snd v * cos (2 * p)).
Definition reflect (x0 y0 p x y : R) : R * R := let w := reflect_vector p (x - x0, y - y0) in (x0 + fst w, y0 + snd w).
Definition symmetric {A} (x0 y0 p : R) (f : R -> R -> A) (x y : R) : Prop := f (fst (reflect x0 y0 p x y)) (snd (reflect x0 y0 p x y)) = f x y.
Definition symmetric_vector (x0 y0 p : R) (f : R -> R -> R * R) (x y : R) : Prop := f (fst (reflect x0 y0 p x y)) (snd (reflect x0 y0 p x y)) = reflect_vector p (f x y).
(** rotation by t about (x0, y0) *)
Definition about (x0 y0 t x y : R) : R * R := let w := turn t (x - x0, y - y0) in (x0 + fst w, y0 + snd w).
Definition unturned {A} (x0 y0 t : R) (f : R -> R -> A) (x y : R) : Prop := f (fst (about x0 y0 t x y)) (snd (about x0 y0 t x y)) = f x y.
Definition unturned_vector (x0 y0 t : R) (f : R -> R -> R * R) (x y : R) : Prop := f (fst (about x0 y0 t x y)) (snd (about x0 y0 t x y)) = turn t (f x y).
