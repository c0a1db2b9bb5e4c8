(** * Where the images of a source can be *)
From Coq Require Import Reals List.
From Verif Require Import RealFun First_Spec.
Import ListNotations.
Local Open Scope R_scope.

Definition dist2 (x y x' y' : R) : R := sqrt ((x - x') ^ 2 + (y - y') ^ 2).
(** the largest deflection by a piece, for a sheet or shear at the source; for a point mass outside its Einstein radius *)
Definition reach (bx by_ : R) (p : piece) : R :=
  match p with
  | Sheet x0 y0 k => k * dist2 bx by_ x0 y0
  | Shear x0 y0 g1 g2 => sqrt (g1 ^ 2 + g2 ^ 2) * dist2 bx by_ x0 y0
  | Isothermal _ _ Rein => Rein
  | Elliptical _ _ q _ Rein _ => let f := sqrt (1 - q ^ 2) in Rein * sqrt q / f * sqrt (atan (f / q) ^ 2 + atanh f ^ 2)
  | PointMass _ _ Rein => Rein
  end.
Definition total_reach (bx by_ : R) (l : list piece) : R := fold_right Rplus 0 (map (reach bx by_) l).
(** how far from the source its images are at most *)
Definition radius (bx by_ : R) (l : list piece) : R := total_reach bx by_ l / (1 - total_focusing l).
Definition inside_a_ring (l : list piece) (x y : R) : Prop := exists x0 y0 Rein, In (PointMass x0 y0 Rein) l /\ dist2 x y x0 y0 < Rein.
(** the centre of a lens is at a distance from a place *)
Definition away (x y d : R) (p : piece) : Prop :=
  match p with
  | Sheet _ _ _ | Shear _ _ _ _ => True
  | Isothermal x0 y0 _ | Elliptical x0 y0 _ _ _ _ | PointMass x0 y0 _ => d <= dist2 x y x0 y0
  end.
(** largest stretch of the deflection at a distance [d] or more from the centre *)
Definition stretch (d : R) (p : piece) : R :=
  match p with
  | Sheet _ _ k => k
  | Shear _ _ g1 g2 => sqrt (g1 ^ 2 + g2 ^ 2)
  | Isothermal _ _ Rein => Rein / d
  | Elliptical _ _ q _ Rein _ => Rein / (sqrt q * d)
  | PointMass _ _ Rein => Rein ^ 2 / d ^ 2
  end.
Definition total_stretch (d : R) (l : list piece) : R := fold_right Rplus 0 (map (stretch d) l).
Definition no_point_mass (l : list piece) : Prop := forall x0 y0 Rein, ~ In (PointMass x0 y0 Rein) l.
