(** * Many shears and sheets in one plane *)
From Coq Require Import Reals List.
From Verif Require Import LensBase_Model First_Spec.
Import ListNotations.
Local Open Scope R_scope.

Definition smooth (p : piece) : Prop := match p with Sheet _ _ _ | Shear _ _ _ _ => True | _ => False end.
Definition sum (f : piece -> R) (l : list piece) : R := fold_right Rplus 0 (map f l).
Definition kappa_in (p : piece) : R := match p with Sheet _ _ k => k | _ => 0 end.
Definition gamma_1_in (p : piece) : R := match p with Shear _ _ g _ => g | _ => 0 end.
Definition gamma_2_in (p : piece) : R := match p with Shear _ _ _ g => g | _ => 0 end.
(** one shear and one sheet at (X, Y), as strong as all of l *)
Definition joined (X Y : R) (l : list piece) : list piece := [Shear X Y (sum gamma_1_in l) (sum gamma_2_in l); Sheet X Y (sum kappa_in l)].
(** B deflects like A but for a constant, and has the potential and the convergence that go with it *)
Definition shifted (A B : thin_lens) (bx by_ c : R) : Prop :=
  forall x y, reduced_deflection_angle B x y = (fst (reduced_deflection_angle A x y) + bx, snd (reduced_deflection_angle A x y) + by_) /\
    potential B x y = potential A x y + bx * x + by_ * y + c /\ convergence B x y = convergence A x y.
