(** * The centre of light of a microlensed star *)
From Coq Require Import Reals.
From Verif Require Import LensBase_Model LensBasic_Model.
Local Open Scope R_scope.

(** a Point lens at (x0, y0) has exactly the two images P1 and P2 of a source at (sx, sy), magnified m1 and m2 *)
Definition two_images (x0 y0 Rein sx sy : R) (P1 P2 : R * R) (m1 m2 : R) : Prop :=
  let alpha := reduced_deflection_angle_point x0 y0 Rein 0 in P1 <> P2 /\ P1 <> (x0, y0) /\ P2 <> (x0, y0) /\
  (forall P, P <> (x0, y0) -> (raytrace alpha (fst P) (snd P) = (sx, sy) <-> P = P1 \/ P = P2)) /\ magnification alpha (fst P1) (snd P1) = Some m1 /\ magnification alpha (fst P2) (snd P2) = Some m2.
(** the mean position of the light of two images *)
Definition centroid (P1 P2 : R * R) (m1 m2 : R) : R * R := ((m1 * fst P1 + m2 * fst P2) / (m1 + m2), (m1 * snd P1 + m2 * snd P2) / (m1 + m2)).
