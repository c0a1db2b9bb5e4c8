(** * Areas of small figures *)
From Coq Require Import Reals.
From Verif Require Import Calc2.
Local Open Scope R_scope.

(** twice the signed area of a triangle: positive if p, q, r run counter-clockwise *)
Definition cross3 (p q r : R * R) : R := (fst q - fst p) * (snd r - snd p) - (snd q - snd p) * (fst r - fst p).
(** the corner that lies [h] times the vector [u] from the position *)
Definition corner (x y : R) (h : R) (u : R * R) : R * R := (x + h * fst u, y + h * snd u).
(** area of the triangle of shape u, v, w and size h around a position, and of the triangle whose corners are ray traced *)
Definition area (p q r : R * R) : R := Rabs (cross3 p q r) / 2.
Definition image_area (x y : R) (u v w : R * R) (h : R) : R := area (corner x y h u) (corner x y h v) (corner x y h w).
Definition source_area (rt : R -> R -> R * R) (x y : R) (u v w : R * R) (h : R) : R :=
  let traced c := rt (fst (corner x y h c)) (snd (corner x y h c)) in area (traced u) (traced v) (traced w).
(** whether the traced triangle is run through in the same sense *)
Definition orientation (rt : R -> R -> R * R) (x y : R) (u v w : R * R) (h : R) : R :=
  let traced c := rt (fst (corner x y h c)) (snd (corner x y h c)) in
  cross3 (corner x y h u) (corner x y h v) (corner x y h w) * cross3 (traced u) (traced v) (traced w).
(** the deflection has a total derivative at the position *)
Definition differentiable_at (alpha : R -> R -> R * R) (x y : R) : Prop :=
  exists a b c d, D2 (fun u v => fst (alpha u v)) x y a b /\ D2 (fun u v => snd (alpha u v)) x y c d.
