(** * The grids on which a pixelated convergence is tabulated *)
From Coq Require Import Reals String Arith.
From Verif Require Import AdPix_Spec.
Local Open Scope R_scope.

(** deflections and potential are tabulated on n by n pixels by the Fourier method and on 2n by 2n by the direct convolution, over the
    same field *)
Definition grid_side (mode : string) (n : nat) : nat := if String.eqb mode "conv2d" then (2 * n)%nat else n.
(** On an axis of n pixels of size ps, tabulated on m points: the position p and the centre c are not differentiated, or the position is
    neither between two slopes of the table nor on its border. *)
Definition fine_at (seed : nat -> option R) (a : nat -> R) (p c : nat) (ps : R) (n m : nat) : Prop :=
  quiet None seed p c c \/ smooth_at (a c) (INR n * ps / INR m) m (a p).
Definition fine_for (req : nat -> bool) (a : nat -> R) (p c : nat) (ps : R) (n m : nat) : Prop :=
  quiet false req p c c \/ smooth_at (a c) (INR n * ps / INR m) m (a p).
(** every argument zero but number k *)
Definition only (k m : nat) : R := if Nat.eqb m k then 1 else 0.
