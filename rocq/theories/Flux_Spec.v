(** * What C137 talks about *)
From Coq Require Import Reals Arith.
From Coquelicot Require Import Coquelicot.
From Verif Require Import Fsum.
Local Open Scope R_scope.

(** F has the integral T over the rectangle, taken first along x and then along y *)
Definition integrates (F : R -> R -> R) (lx hx ly hy T : R) : Prop :=
  exists G : R -> R, (forall y, ly <= y <= hy -> is_RInt (fun x => F x y) lx hx (G y)) /\ is_RInt G ly hy T.
(** the sum of the pixels of an image of h rows of w *)
Definition pixel_sum (h w : nat) (im : nat -> nat -> R) : R := fsum h (fun i => fsum w (fun j => im i j)).
(** a row of n pixels in which the outermost on either side count for 9/8 and their neighbours for 7/8 (less where the two sides share them) *)
Definition rim_sum (n : nat) (g : nat -> R) : R := fsum n g + (g 0%nat - g 1%nat) / 8 + (g (n - 1)%nat - g (n - 2)%nat) / 8.
(** the same for an image *)
Definition rim_sum2 (h w : nat) (im : nat -> nat -> R) : R := rim_sum h (fun i => rim_sum w (fun j => im i j)).
(** pixel i is one of the two outermost on an axis of n *)
Definition near_rim (n i : nat) : Prop := (i < 2)%nat \/ (n <= i + 2)%nat.
(** the two outermost rows and columns on every side are empty *)
Definition dark_rim (h w : nat) (im : nat -> nat -> R) : Prop := forall i j, near_rim h i \/ near_rim w j -> im i j = 0.
(** no pixel of the image is negative *)
Definition no_negative (h w : nat) (im : nat -> nat -> R) : Prop := forall i j, (i < h)%nat -> (j < w)%nat -> 0 <= im i j.
(** on an axis of at least four pixels: the outermost pixels and their neighbours *)
Definition rim_weight (n i : nat) : R :=
  if Nat.eqb i 0 then 9 / 8 else if Nat.eqb i 1 then 7 / 8 else if Nat.eqb i (n - 2) then 7 / 8 else if Nat.eqb i (n - 1) then 9 / 8 else 1.
