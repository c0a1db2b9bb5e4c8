(** * Two images of one source, as an observer sees them *)
From Coq Require Import Reals.
From Verif Require Import LensBase_Model.
Local Open Scope R_scope.

(** two different images P1, P2, off the centre (x0, y0) of a lens of deflection alpha, of one source at S with flux k, seen with fluxes F1 and F2 *)
Definition seen_pair (alpha : R -> R -> R * R) (x0 y0 k : R) (S P1 P2 : R * R) (F1 F2 : R) : Prop :=
  P1 <> P2 /\ P1 <> (x0, y0) /\ P2 <> (x0, y0) /\ raytrace alpha (fst P1) (snd P1) = S /\ raytrace alpha (fst P2) (snd P2) = S /\
  exists m1 m2, magnification alpha (fst P1) (snd P1) = Some m1 /\ magnification alpha (fst P2) (snd P2) = Some m2 /\ F1 = k * m1 /\ F2 = k * m2.
Definition separation (P1 P2 : R * R) : R := sqrt ((fst P1 - fst P2) ^ 2 + (snd P1 - snd P2) ^ 2).
