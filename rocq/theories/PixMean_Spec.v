(** * What C107 talks about: the mean brightness over a pixel, and rules of quadrature *)
From Coq Require Import Reals Arith.
From Coquelicot Require Import Coquelicot.
From Verif Require Import Fsum Quad_Spec.
Local Open Scope R_scope.

(** integral over a rectangle *)
Definition box (F : R -> R -> R) (a b c d : R) : R := RInt (fun u => RInt (fun v => F u v) c d) a b.
(** the centre of pixel k of n on an axis of pixels of size p centred at x0 *)
Definition pixel_centre (x0 p : R) (n k : nat) : R := x0 + (INR k - (INR n - 1) / 2) * p.
(** continuity at every point of a closed square of side p centred at (x, y) *)
Definition continuous_on_square (F : R -> R -> R) (p x y : R) : Prop :=
  forall u v, x - p / 2 <= u <= x + p / 2 -> y - p / 2 <= v <= y + p / 2 -> continuity_2d_pt F u v.
(** number of points per direction used for a quad_level *)
Definition points (level : option nat) : nat := match level with Some l => Nat.max 1 l | None => 1 end.
(** the points of the rule are inside the pixel, the weights are not negative and add up to the length of [-1, 1] *)
Definition rule_inside (leg : nat -> (nat -> R) * (nat -> R)) (level : option nat) : Prop :=
  match level with Some l => (1 < l)%nat ->
    (forall i, (i < l)%nat -> -1 <= fst (leg l) i <= 1 /\ 0 <= snd (leg l) i) /\ fsum l (snd (leg l)) = 2 | None => True end.
(** a bound on the slope *)
Definition slope_at_most (L : R) (F : R -> R -> R) : Prop := forall x y u v, Rabs (F u v - F x y) <= L * (Rabs (u - x) + Rabs (v - y)).
