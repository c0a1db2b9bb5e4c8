(** * What C58-C60 talk about *)
From Coq Require Import Reals String Arith.
From Verif Require Import Py Interp2_Spec.
Open Scope R_scope.

(** combine two outcomes; an error of the first or the second is passed on *)
Definition combined {A} (f : A -> A -> A) (r1 r2 : result A) : result A :=
  match r1, r2 with Ok a, Ok b => Ok (f a b) | Raise e, _ => Raise e | _, Raise e => Raise e end.
Definition pair_combo (u v : R) (a b : R * R) : R * R := (u * fst a + v * fst b, u * snd a + v * snd b).
(** the settings under which an n by n map can be evaluated *)
Definition usable (n : nat) (padding mode : string) : Prop :=
  mode = "conv2d"%string \/
  (mode = "fft"%string /\ ((padding = "zero" \/ padding = "tile")%string \/ ((2 <= n)%nat /\ (padding = "reflect" \/ padding = "circular")%string))).
(** centre of pixel i of an axis of N pixels covering a field of view centred at x0 *)
Definition pixel_pos (x0 fov : R) (N i : nat) : R := x0 + centre N i * (fov / 2).
(** a map with a single bright pixel (a, b) *)
Definition bright (a b : nat) (i j : nat) : R := if (Nat.eqb i a && Nat.eqb j b)%bool then 1 else 0.
(** deflection of a point mass at the displacement (dx, dy), up to a constant *)
Definition point_x (dx dy : R) : R := dx / (dx ^ 2 + dy ^ 2).
Definition point_y (dx dy : R) : R := dy / (dx ^ 2 + dy ^ 2).
