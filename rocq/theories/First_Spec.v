(** * Scenes of lenses in one plane, and what becomes of the light that arrives first *)
From Coq Require Import Reals List.
From Verif Require Import LensBasic_Model LensBase_Model.
Import ListNotations.
Local Open Scope R_scope.

(** what may lie in the plane *)
Inductive piece :=
| Sheet (x0 y0 kappa : R)
| Shear (x0 y0 gamma_1 gamma_2 : R)
| Isothermal (x0 y0 Rein : R)
| Elliptical (x0 y0 q phi Rein s : R)
| PointMass (x0 y0 Rein : R).
(** the lens object of the library; the convergence of a point mass is only used away from it *)
Definition lens_of (z : R) (p : piece) : thin_lens :=
  match p with
  | Sheet x0 y0 k => ThinLens z (reduced_deflection_angle_mass_sheet x0 y0 k) (potential_mass_sheet x0 y0 k) (fun x _ => convergence_mass_sheet k x)
  | Shear x0 y0 g1 g2 => ThinLens z (reduced_deflection_angle_external_shear x0 y0 g1 g2) (potential_external_shear x0 y0 g1 g2) convergence_external_shear
  | Isothermal x0 y0 R0 => ThinLens z (reduced_deflection_angle_sis x0 y0 R0 0) (potential_sis x0 y0 R0 0) (convergence_sis x0 y0 R0 0)
  | Elliptical x0 y0 q phi R0 s => ThinLens z (reduced_deflection_angle_sie x0 y0 q phi R0 s) (potential_sie x0 y0 q phi R0 s) (convergence_sie x0 y0 q phi R0 s)
  | PointMass x0 y0 R0 => ThinLens z (reduced_deflection_angle_point x0 y0 R0 0) (potential_point x0 y0 R0 0)
      (fun x y => match convergence_point x0 y0 x y with Some k => k | None => 0 end)
  end.
(** parameters in their ranges: masses are not negative, a core is absent or not smaller than the 1e-6 of the code *)
Definition ordinary (p : piece) : Prop :=
  match p with
  | Sheet _ _ k => 0 <= k
  | Shear _ _ _ _ => True
  | Isothermal _ _ R0 => 0 < R0
  | Elliptical _ _ q _ R0 s => 0 < q < 1 /\ 0 < R0 /\ (s = 0 \/ 1 / 10 ^ 6 <= s)
  | PointMass _ _ R0 => 0 < R0
  end.
(** what a piece adds to the focusing of a wide beam *)
Definition focusing (p : piece) : R :=
  match p with Sheet _ _ k => k | Shear _ _ g1 g2 => sqrt (g1 ^ 2 + g2 ^ 2) | _ => 0 end.
Definition total_focusing (l : list piece) : R := fold_right Rplus 0 (map focusing l).
(** not at the centre of a lens whose deflection is not defined there *)
Definition off_centre (x y : R) (p : piece) : Prop :=
  match p with
  | Isothermal x0 y0 _ | PointMass x0 y0 _ => x <> x0 \/ y <> y0
  | Elliptical x0 y0 _ _ _ s => s = 0 -> x <> x0 \/ y <> y0
  | _ => True
  end.
Definition clear (l : list piece) (x y : R) : Prop := forall p, In p l -> off_centre x y p.
(** an image of the source at (bx, by_) *)
Definition image (L : thin_lens) (l : list piece) (bx by_ x y : R) : Prop :=
  clear l x y /\ raytrace (reduced_deflection_angle L) x y = (bx, by_).
(** None is the infinite magnification of a caustic *)
Definition not_dimmed (mu : option R) : Prop := match mu with None => True | Some m => 1 <= m end.
(** not mirrored: the matrix of the lens equation has no negative eigenvalue *)
Definition not_mirrored (A : mat2) : Prop := 0 <= m00 A /\ 0 <= m11 A /\ 0 <= m00 A * m11 A - m01 A * m10 A.
(** no image arrives before this one *)
Definition arrives_first (cd : R -> R) (L : thin_lens) (z_s : R) (l : list piece) (bx by_ x y : R) : Prop :=
  image L l bx by_ x y /\ forall x' y', image L l bx by_ x' y' -> time_delay cd L z_s x y true true <= time_delay cd L z_s x' y' true true.
