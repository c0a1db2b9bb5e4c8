(** * What C63 and C72 talk about *)
From Coq Require Import Reals.
Local Open Scope R_scope.

(** position of the centre of pixel i on an axis of n pixels of size ps centred at x0 *)
Definition pixel_centre (x0 ps : R) (n i : nat) : R := x0 + (INR i - (INR n - 1) / 2) * ps.
(** the position is more than half the field away from the centre *)
Definition beyond (x0 ps : R) (n : nat) (x : R) : Prop := x < x0 - INR n * ps / 2 \/ x0 + INR n * ps / 2 < x.

