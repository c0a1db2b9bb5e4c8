(** * What the arrival times behind concentric lenses depend on *)
From Coq Require Import Reals List.
From Verif Require Import LensBase_Model First_Spec.
Import ListNotations.
Local Open Scope R_scope.

(** everything sits at (x0, y0); no elliptical lens has a core *)
Definition centred_at (x0 y0 : R) (p : piece) : Prop :=
  match p with
  | Sheet x y _ | Shear x y _ _ | Isothermal x y _ | PointMass x y _ => x = x0 /\ y = y0
  | Elliptical x y _ _ _ s => x = x0 /\ y = y0 /\ s = 0
  end.
Definition concentric (x0 y0 : R) (l : list piece) : Prop := forall p, In p l -> centred_at x0 y0 p.
Definition add_up (f : piece -> R) (l : list piece) : R := fold_right Rplus 0 (map f l).
(** total convergence of the sheets, components of the total shear, square of the Einstein radius of all stars together *)
Definition sheets : list piece -> R := add_up (fun p => match p with Sheet _ _ k => k | _ => 0 end).
Definition shear_1 : list piece -> R := add_up (fun p => match p with Shear _ _ g _ => g | _ => 0 end).
Definition shear_2 : list piece -> R := add_up (fun p => match p with Shear _ _ _ g => g | _ => 0 end).
Definition star_mass : list piece -> R := add_up (fun p => match p with PointMass _ _ R0 => R0 ^ 2 | _ => 0 end).
(** what an image at (x, y) is ahead by: no property of the isothermal lenses enters *)
Definition lead (k g1 g2 m x0 y0 x y : R) : R :=
  ((1 - k) * ((x - x0) ^ 2 + (y - y0) ^ 2) - g1 * ((x - x0) ^ 2 - (y - y0) ^ 2) - 2 * g2 * ((x - x0) * (y - y0))) / 2 + m * ln (sqrt ((x - x0) ^ 2 + (y - y0) ^ 2)).
