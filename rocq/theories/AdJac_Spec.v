(** * What C138 talks about *)
From Coq Require Import Reals.
From Coquelicot Require Import Coquelicot.
From Verif Require Import RealFun LensBase_Model LensBasic_Model Ad_Model Ad_Spec AdLens_Model AdJac_Model.
Local Open Scope R_scope.

(** the points where every operation of a formula is smooth and no comparison, clamp, arctan2 or index is about to change; of a where only the
    selected branch matters *)
Fixpoint smooth (env : nat -> R) (e : expr) {struct e} : Prop :=
  match e with
  | Var _ | Cst _ => True
  | Add a b | Sub a b | Mul a b => smooth env a /\ smooth env b
  | Neg a | Exp a | Sin a | Cos a | Atan a | Pow a _ | NanToNum a => smooth env a
  | Div a b => smooth env a /\ smooth env b /\ ev env b <> 0
  | Sqrt a | Ln a => smooth env a /\ 0 < ev env a
  | Atanh a | Acos a => smooth env a /\ -1 < ev env a < 1
  | Acosh a => smooth env a /\ 1 < ev env a
  | Atan2 a b => smooth env a /\ smooth env b /\ (0 < ev env b \/ ev env a <> 0)
  | RPow a p => smooth env a /\ smooth env p /\ 0 < ev env a
  | AtLeast b a | AtMost b a => smooth env a /\ ev env a <> b
  | Where (Lt p q) a b =>
      smooth env p /\ smooth env q /\ ev env p <> ev env q /\ (ev env p < ev env q -> smooth env a) /\ (ev env q < ev env p -> smooth env b)
  | Where (Eq p q) a b => smooth env p /\ smooth env q /\ ev env p <> ev env q /\ smooth env b
  | Pick f a b =>
      smooth env a /\ smooth env b /\ locally (ev env a, ev env b) (fun p => f (fst p) (snd p) = f (ev env a) (ev env b)) /\
      smooth env (f (ev env a) (ev env b))
  end.

(** value and tangent of a dual number are those of F at a, along the seeded direction *)
Definition dual_exact (F : (nat -> R) -> R) (d : dual) (a : nat -> R) (seed : nat -> option R) : Prop :=
  exists t, fst d = Fin (F a) /\ tval (snd d) = Fin t /\ is_derive (fun h => F (along a seed h)) 0 t.
Definition dual_exact_mat (M : (nat -> R) -> mat2) (d : dmat) (a : nat -> R) (seed : nat -> option R) : Prop :=
  dual_exact (fun b => m00 (M b)) (fst (fst d)) a seed /\ dual_exact (fun b => m01 (M b)) (snd (fst d)) a seed /\
  dual_exact (fun b => m10 (M b)) (fst (snd d)) a seed /\ dual_exact (fun b => m11 (M b)) (snd (snd d)) a seed.
(** the result has the right values but no tangents at all *)
Definition no_tangent (d : dmat) : Prop := snd (fst (fst d)) = None /\ snd (snd (fst d)) = None /\ snd (fst (snd d)) = None /\ snd (snd (snd d)) = None.
Definition values (d : dmat) (m : mat2) : Prop :=
  fst (fst (fst d)) = Fin (m00 m) /\ fst (snd (fst d)) = Fin (m01 m) /\ fst (fst (snd d)) = Fin (m10 m) /\ fst (snd (snd d)) = Fin (m11 m).
(** the deflection of a lens with given arguments, as a function of the position alone *)
Definition at_position (F : (nat -> R) -> R * R) (b : nat -> R) (x y : R) : R * R := F (moved b x y).
(** [t] is the program that computes the deflection F *)
Definition computes (F : (nat -> R) -> R * R) (t : expr * expr) : Prop := forall b, F b = (ev b (fst t), ev b (snd t)).
(** the matrices of lenses/base.py at the position b 0, b 1 *)
Definition deflection_jacobian (F : (nat -> R) -> R * R) (b : nat -> R) : mat2 := jacfwd (at_position F b) (b 0%nat) (b 1%nat).
Definition lens_jacobian (F : (nat -> R) -> R * R) (b : nat -> R) : mat2 := mat2_sub eye2 (deflection_jacobian F b).

(** lenses and their programs; the arguments 0, 1 are the position, 2, 3 the centre *)
Local Notation "a @ n" := (a n%nat) (at level 9, only parsing).
Local Notation V n := (Var n%nat).
Definition sheet_lens (a : nat -> R) : R * R := reduced_deflection_angle_mass_sheet a@2 a@3 a@4 a@0 a@1.
Definition shear_lens (a : nat -> R) : R * R := reduced_deflection_angle_external_shear a@2 a@3 a@4 a@5 a@0 a@1.
Definition sis_lens (a : nat -> R) : R * R := reduced_deflection_angle_sis a@2 a@3 a@4 a@5 a@0 a@1.
Definition point_lens (a : nat -> R) : R * R := reduced_deflection_angle_point a@2 a@3 a@4 a@5 a@0 a@1.
Definition sie_lens (a : nat -> R) : R * R := reduced_deflection_angle_sie a@2 a@3 a@4 a@5 a@6 a@7 a@0 a@1.
Definition t_sheet := t_deflection_mass_sheet (V 2) (V 3) (V 4) (V 0) (V 1).
Definition t_shear := t_deflection_external_shear (V 2) (V 3) (V 4) (V 5) (V 0) (V 1).
Definition t_sis := t_deflection_sis (V 2) (V 3) (V 4) (V 5) (V 0) (V 1).
Definition t_point := t_deflection_point (V 2) (V 3) (V 4) (V 5) (V 0) (V 1).
Definition t_sie := t_deflection_sie (V 2) (V 3) (V 4) (V 5) (V 6) (V 7) (V 0) (V 1).
