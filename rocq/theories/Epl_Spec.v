(** * Deflection fields that are almost those of a potential *)
From Coq Require Import Reals Arith.
From Verif Require Import Calc2.
Local Open Scope R_scope.
(** at (x, y): half the divergence, half the curl of the field, and the gradient of the potential *)
Definition half_divergence (alpha : R -> R -> R * R) (x y d : R) : Prop :=
  exists axx axy ayx ayy, D2 (fun u v => fst (alpha u v)) x y axx axy /\ D2 (fun u v => snd (alpha u v)) x y ayx ayy /\ d = (axx + ayy) / 2.
Definition half_curl (alpha : R -> R -> R * R) (x y c : R) : Prop :=
  exists axx axy ayx ayy, D2 (fun u v => fst (alpha u v)) x y axx axy /\ D2 (fun u v => snd (alpha u v)) x y ayx ayy /\ c = (ayx - axy) / 2.
Definition gradient (psi : R -> R -> R) (x y : R) (d : R * R) : Prop := D2 psi x y (fst d) (snd d).
(** size of the first neglected term of the series after n terms: t/2 for n = 1 *)
Fixpoint neglected (t : R) (n : nat) : R :=
  match n with
  | O => 1 - t / 2
  | S m => neglected t m * ((INR m + t / 2) / (INR m + 1 - t / 2))
  end.
(** chunk sizes for which the series is one chunk, or is summed term by term *)
Definition good_chunk (n : nat) (c : option nat) : Prop :=
  match c with None => True | Some c => c = 1%nat \/ ((2 <= c)%nat /\ (n / c = 1)%nat) end.
