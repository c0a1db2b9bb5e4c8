(** * What C120 talks about *)
From Coq Require Import Reals.
From Coquelicot Require Import Coquelicot.
From Verif Require Import PixMap_Spec.
Local Open Scope R_scope.

(** f is twice differentiable on [lo, hi] and its second derivative is at most M *)
Definition bends (f : R -> R) (lo hi M : R) : Prop :=
  exists f1 f2 : R -> R, forall s, lo <= s <= hi -> is_derive f s (f1 s) /\ is_derive f1 s (f2 s) /\ Rabs (f2 s) <= M.
(** an axis of n pixels of size ps centred at x0: its full length, and the part between the outermost pixel centres *)
Definition field_lo (x0 ps : R) (n : nat) : R := x0 - INR n * ps / 2.
Definition field_hi (x0 ps : R) (n : nat) : R := x0 + INR n * ps / 2.
Definition inner_lo (x0 ps : R) (n : nat) : R := pixel_centre x0 ps n 0.
Definition inner_hi (x0 ps : R) (n : nat) : R := pixel_centre x0 ps n (n - 1).
Definition in_field (x0 ps : R) (n : nat) (x : R) : Prop := field_lo x0 ps n <= x <= field_hi x0 ps n.
Definition in_inner (x0 ps : R) (n : nat) (x : R) : Prop := inner_lo x0 ps n <= x <= inner_hi x0 ps n.
(** a scene on a rectangle, its second derivatives along x and y being at most Mx and My *)
Definition scene (f : R -> R -> R) (lx hx ly hy Mx My : R) : Prop :=
  (forall y, ly <= y <= hy -> bends (fun x => f x y) lx hx Mx) /\ (forall x, lx <= x <= hx -> bends (fun y => f x y) ly hy My).
Definition smooth_field (f : R -> R -> R) (x0 y0 ps : R) (h w : nat) (Mx My : R) : Prop :=
  scene f (field_lo x0 ps w) (field_hi x0 ps w) (field_lo y0 ps h) (field_hi y0 ps h) Mx My.
Definition smooth_inner (f : R -> R -> R) (x0 y0 ps : R) (h w : nat) (Mx My : R) : Prop :=
  scene f (inner_lo x0 ps w) (inner_hi x0 ps w) (inner_lo y0 ps h) (inner_hi y0 ps h) Mx My.
(** the map that holds the scene at the pixel centres; rows run along y *)
Definition sampled (f : R -> R -> R) (x0 y0 ps : R) (h w : nat) (i j : nat) : R := f (pixel_centre x0 ps w j) (pixel_centre y0 ps h i).
(** the call returns a number within e of v *)
Definition close_to {A} (r : A) (v e : R) (ok : R -> A) : Prop := exists a, r = ok a /\ Rabs (a - v) <= e.
(** the same for scenes that also change in time *)
Definition scene3 (f : R -> R -> R -> R) (lx hx ly hy lt ht Mx My Mt : R) : Prop :=
  (forall t, lt <= t <= ht -> scene (fun x y => f x y t) lx hx ly hy Mx My) /\
  (forall x y, lx <= x <= hx -> ly <= y <= hy -> bends (fun t => f x y t) lt ht Mt).
(** x is not level with any pixel centre, where the interpolated map has a kink *)
Definition off_grid (x0 ps : R) (n : nat) (x : R) : Prop := forall i, (i < n)%nat -> x <> pixel_centre x0 ps n i.
(** g is the derivative of f along x, and changes by at most K per unit length in either direction *)
Definition slope_x (f g : R -> R -> R) (lx hx ly hy K : R) : Prop :=
  (forall x y, lx <= x <= hx -> ly <= y <= hy -> is_derive (fun s => f s y) x (g x y)) /\
  (forall x y x' y', lx <= x <= hx -> ly <= y <= hy -> lx <= x' <= hx -> ly <= y' <= hy -> Rabs (g x y - g x' y') <= K * (Rabs (x - x') + Rabs (y - y'))).
Definition slope_y (f g : R -> R -> R) (lx hx ly hy K : R) : Prop := slope_x (fun y x => f x y) (fun y x => g x y) ly hy lx hx K.
