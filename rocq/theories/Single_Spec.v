(** * How strongly a lens without point-like centre can focus *)
From Coq Require Import Reals List.
From Verif Require Import First_Spec.
Local Open Scope R_scope.

(** sheets, shears and elliptical lenses with a core *)
Definition diffuse (p : piece) : Prop :=
  match p with Sheet _ _ _ | Shear _ _ _ _ => True | Elliptical _ _ _ _ _ s => 0 < s | _ => False end.
(** largest stretch of the deflection anywhere; for an elliptical lens it is reached at the centre *)
Definition strength (p : piece) : R :=
  match p with
  | Sheet _ _ k => k
  | Shear _ _ g1 g2 => sqrt (g1 ^ 2 + g2 ^ 2)
  | Elliptical _ _ q _ Rein s => Rein / (sqrt q * (1 + q) * s)
  | _ => 0
  end.
Definition total_strength (l : list piece) : R := fold_right Rplus 0 (map strength l).
