(** * What "accurate to second order" means for a finite difference (C93) *)
From Coq Require Import Reals.
From Coquelicot Require Import Coquelicot.
Local Open Scope R_scope.

(** f has three derivatives within a distance d of x, the second bounded by M2 and the third by M3 *)
Definition smooth_near (f : R -> R) (x d M2 M3 : R) : Prop :=
  forall t, Rabs (t - x) < d -> (forall k, (k <= 3)%nat -> ex_derive_n f k t) /\ Rabs (Derive_n f 2 t) <= M2 /\ Rabs (Derive_n f 3 t) <= M3.

(** the two components of a plane vector field along the horizontal and the vertical line through a point *)
Definition smooth_field_near (alpha : R -> R -> R * R) (x y d M2 M3 : R) : Prop :=
  smooth_near (fun u => fst (alpha u y)) x d M2 M3 /\ smooth_near (fun v => fst (alpha x v)) y d M2 M3 /\
  smooth_near (fun u => snd (alpha u y)) x d M2 M3 /\ smooth_near (fun v => snd (alpha x v)) y d M2 M3.

(** error allowed in a derivative along an axis with n samples at sample k: second order between the ends, first order at the ends *)
Definition fd_error (n k : nat) (h M2 M3 : R) : R := if (Nat.eqb k 0 || Nat.eqb k (n - 1))%bool then M2 * h / 2 else M3 * h ^ 2 / 6.
