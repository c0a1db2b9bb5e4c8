(** * Fields of stars, and how many images they can make *)
From Coq Require Import Reals List.
From Verif Require Import LensBase_Model First_Spec.
Import ListNotations.
Local Open Scope R_scope.

(** nothing but point masses, sheets and shears *)
Definition star_field (l : list piece) : Prop :=
  forall p, In p l -> match p with Sheet _ _ _ | Shear _ _ _ _ => True | PointMass _ _ R0 => 0 < R0 | _ => False end.
(** where the stars are *)
Definition stars (l : list piece) : list (R * R) := flat_map (fun p => match p with PointMass x0 y0 _ => [(x0, y0)] | _ => [] end) l.
(** the two components of all shears together *)
Definition shear_of (p : piece) : R * R := match p with Shear _ _ g1 g2 => (g1, g2) | _ => (0, 0) end.
Definition total_shear (l : list piece) : R * R := (fold_right Rplus 0 (map (fun p => fst (shear_of p)) l), fold_right Rplus 0 (map (fun p => snd (shear_of p)) l)).
(** n different positions at most show the source *)
Definition at_most (n : nat) (L : thin_lens) (l : list piece) (bx by_ : R) : Prop :=
  forall ims, NoDup ims -> (forall p, In p ims -> image L l bx by_ (fst p) (snd p)) -> (length ims <= n)%nat.
(** exactly n *)
Definition exactly (n : nat) (L : thin_lens) (l : list piece) (bx by_ : R) : Prop :=
  exists ims, length ims = n /\ NoDup ims /\ forall p, In p ims <-> image L l bx by_ (fst p) (snd p).
