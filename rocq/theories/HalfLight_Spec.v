(** * What C92 talks about: the light of an image that is a function of one (elliptical) radius *)
From Coq Require Import Reals.
From Coquelicot Require Import Coquelicot.
Local Open Scope R_scope.

(** light inside the ellipse of radius b and axis ratio q: an annulus between r and r + dr has area 2 pi q r dr *)
Definition light_inside (q : R) (I : R -> R) (b L : R) : Prop :=
  exists F : R -> R, (forall a, 0 < a <= b -> is_RInt (V := R_NormedModule) (fun r => 2 * PI * q * r * I r) a b (F a)) /\ filterlim F (at_right 0) (locally L).
(** the light of the whole image *)
Definition light_total (q : R) (I : R -> R) (L : R) : Prop :=
  exists F : R -> R, (forall b, 0 < b -> light_inside q I b (F b)) /\ is_lim F p_infty L.
