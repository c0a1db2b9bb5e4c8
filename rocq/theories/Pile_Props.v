(** * C158: many shears and sheets in one plane are one shear and one sheet *)
From Coq Require Import Reals Lra List.
From Verif Require Import LensBase_Model First_Spec Pile_Spec Pile_Proofs.
Import ListNotations.
Local Open Scope R_scope.

(** In a SinglePlane, with any other lenses, ExternalShears and MassSheets at any places can be replaced by one of each at any one place (X, Y), with the sums of their parameters: convergence stays, the
    deflection changes by a constant, the potential by the linear function that belongs to it, and so the source by a constant shift. *)
Theorem C158_anywhere : forall z others X Y l, Forall smooth l -> let A := singleplane z (others ++ map (lens_of z) (joined X Y l)) in let B := singleplane z (others ++ map (lens_of z) l) in
  exists bx by_ c, shifted A B bx by_ c /\
    forall x y, raytrace (reduced_deflection_angle B) x y = (fst (raytrace (reduced_deflection_angle A) x y) - bx, snd (raytrace (reduced_deflection_angle A) x y) - by_).
Proof. intros z others X Y l H A B. destruct (pile_scene z others X Y l H) as (bx & by_ & c & Q). exists bx, by_, c. split; [exact Q|exact (shifted_rays A B bx by_ c Q)]. Qed.
Print Assumptions C158_anywhere.
(** If the sums are not of equal strength there is a place where no shift remains: the deflection is the same and the potential differs by a constant. *)
Theorem C158_centre : forall z others l, Forall smooth l -> sum kappa_in l ^ 2 <> sum gamma_1_in l ^ 2 + sum gamma_2_in l ^ 2 ->
  exists X Y c, shifted (singleplane z (others ++ map (lens_of z) (joined X Y l))) (singleplane z (others ++ map (lens_of z) l)) 0 0 c.
Proof. exact centre_scene. Qed.
Print Assumptions C158_centre.
(** There is only one such place. *)
Theorem C158_unique : forall z l, Forall smooth l -> sum kappa_in l ^ 2 <> sum gamma_1_in l ^ 2 + sum gamma_2_in l ^ 2 ->
  exists X Y c, shifted (singleplane z (map (lens_of z) (joined X Y l))) (singleplane z (map (lens_of z) l)) 0 0 c /\
    forall X' Y', (forall x y, reduced_deflection_angle (singleplane z (map (lens_of z) (joined X' Y' l))) x y = reduced_deflection_angle (singleplane z (map (lens_of z) l)) x y) -> X' = X /\ Y' = Y.
Proof. exact centre. Qed.
Print Assumptions C158_unique.

(** A case: two shears and two sheets at four places. *)
Example C158_hyps : let l := [Shear 1 0 (1 / 10) 0; Sheet 0 2 (1 / 5); Shear 3 1 0 (1 / 20); Sheet (-1) 0 (1 / 10)] in
  Forall smooth l /\ sum kappa_in l = 3 / 10 /\ sum gamma_1_in l = 1 / 10 /\ sum gamma_2_in l = 1 / 20 /\ sum kappa_in l ^ 2 <> sum gamma_1_in l ^ 2 + sum gamma_2_in l ^ 2.
Proof. split; [repeat constructor|]. unfold sum. cbn [map fold_right kappa_in gamma_1_in gamma_2_in]. repeat split; lra. Qed.
