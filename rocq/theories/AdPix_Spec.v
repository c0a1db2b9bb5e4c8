(** * Where an interpolated map is smooth *)
From Coq Require Import Reals.
From Verif Require Import PixMap_Spec Ad_Model.
Local Open Scope R_scope.

(** On an axis of n pixels of size ps centred at x0, the position is neither the centre of an inner pixel, where the slope jumps, nor on the
    border of the map. *)
Definition smooth_at (x0 ps : R) (n : nat) (x : R) : Prop :=
  (forall i, (1 <= i <= n - 2)%nat -> x <> pixel_centre x0 ps n i) /\ x <> x0 - INR n * ps / 2 /\ x <> x0 + INR n * ps / 2.
(** maps whose entries are arguments, from argument k on *)
Definition image_args {A} (arg : nat -> A) (k w i j : nat) : A := arg (k + (i * w + j))%nat.
Definition cube_args {A} (arg : nat -> A) (k h w c i j : nat) : A := arg (k + ((c * h + i) * w + j))%nat.
(** none of the position p, the centre c and the pixel size s is differentiated *)
Definition quiet {A} (none : A) (seed : nat -> A) (p c s : nat) : Prop := seed p = none /\ seed c = none /\ seed s = none.
