(** * Triangles as sets of points *)
From Coq Require Import Reals List ZArith.
From Verif Require Import Tri_Model.
Import ListNotations.
Local Open Scope R_scope.

(** convex combination of the corners *)
Definition in_triangle (p : tri) (v : pt) : Prop :=
  let '(p0, p1, p2) := p in
  exists a b c, 0 <= a /\ 0 <= b /\ 0 <= c /\ a + b + c = 1 /\
    fst v = a * fst p0 + b * fst p1 + c * fst p2 /\ snd v = a * snd p0 + b * snd p1 + c * snd p2.
(** twice the oriented area *)
Definition orient (p : tri) : R :=
  let '(p0, p1, p2) := p in (fst p1 - fst p0) * (snd p2 - snd p0) - (snd p1 - snd p0) * (fst p2 - fst p0).
Definition nondegenerate (p : tri) : Prop := orient p <> 0.
Definition corner (p : tri) (v : pt) : Prop := let '(p0, p1, p2) := p in v = p0 \/ v = p1 \/ v = p2.
Definition share_corner (p q : tri) : Prop := exists v, corner p v /\ corner q v.
(** the triangles of the lattice spanned by the edges of p: the translates of p and of its mirror image in its first corner *)
Definition lattice_triangle (p : tri) (up : bool) (i j : Z) : tri :=
  let '(p0, p1, p2) := p in
  let ux := fst p1 - fst p0 in let uy := snd p1 - snd p0 in
  let vx := fst p2 - fst p0 in let vy := snd p2 - snd p0 in
  let ox := fst p0 + IZR i * ux + IZR j * vx in
  let oy := snd p0 + IZR i * uy + IZR j * vy in
  if up then ((ox, oy), (ox + ux, oy + uy), (ox + vx, oy + vy))
  else ((ox, oy), (ox - ux, oy - uy), (ox - vx, oy - vy)).
(** l is m with some entries left out *)
Inductive sublist {A} : list A -> list A -> Prop :=
| sub_nil : sublist [] []
| sub_keep x l m : sublist l m -> sublist (x :: l) (x :: m)
| sub_drop x l m : sublist l m -> sublist l (x :: m).
Definition distance (a b : pt) : R := sqrt ((fst a - fst b) ^ 2 + (snd a - snd b) ^ 2).
(** largest coordinate difference below the tolerance *)
Definition same_within (tol : R) (p q : tri) : Prop :=
  let '(p0, p1, p2) := p in let '(q0, q1, q2) := q in
  Rabs (fst p0 - fst q0) < tol /\ Rabs (snd p0 - snd q0) < tol /\ Rabs (fst p1 - fst q1) < tol /\ Rabs (snd p1 - snd q1) < tol /\
  Rabs (fst p2 - fst q2) < tol /\ Rabs (snd p2 - snd q2) < tol.
Definition affine_map (m11 m12 m21 m22 c1 c2 : R) (v : pt) : pt :=
  (m11 * fst v + m12 * snd v + c1, m21 * fst v + m22 * snd v + c2).
