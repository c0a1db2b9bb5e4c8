(** * The images one elliptical isothermal lens makes *)
From Coq Require Import Reals List.
From Verif Require Import LensBasic_Model LensBase_Model.
Local Open Scope R_scope.

(** positions off the centre of the lens whose light comes from (bx, by_) *)
Definition seen_at (x0 y0 q phi Rein bx by_ : R) (p : R * R) : Prop :=
  (fst p <> x0 \/ snd p <> y0) /\ raytrace (reduced_deflection_angle_sie x0 y0 q phi Rein 0) (fst p) (snd p) = (bx, by_).
(** a position given along the axes of the lens *)
Definition along (x0 y0 phi u v : R) : R * R := (x0 + u * cos phi - v * sin phi, y0 + u * sin phi + v * cos phi).
