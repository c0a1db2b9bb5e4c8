(** * C141: how the images of an Einstein cross look *)
From Coq Require Import Reals.
From Coquelicot Require Import Coquelicot.
From Verif Require Import LensBase_Model Area_Spec.
Local Open Scope R_scope.

(** small triangles of every shape at the position keep their sense, or are mirrored, when traced to the source *)
Definition keeps_sense (alpha : R -> R -> R * R) (x y : R) : Prop :=
  forall u v w, cross3 u v w <> 0 -> Rbar_locally' 0 (fun h => 0 < orientation (raytrace alpha) x y u v w h).
Definition mirrored (alpha : R -> R -> R * R) (x y : R) : Prop :=
  forall u v w, cross3 u v w <> 0 -> Rbar_locally' 0 (fun h => orientation (raytrace alpha) x y u v w h < 0).
