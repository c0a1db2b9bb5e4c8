(** * C136: how many images a field of stars can make *)
From Coq Require Import Reals Lra Lia List.
From Verif Require Import LensBase_Model First_Spec Stars_Spec Stars_Proofs Stars2_Proofs.
Import ListNotations.
Local Open Scope R_scope.

(** Stars at different places in a shear, with any number of mass sheets. *)
Theorem C136_sheared : forall z l, star_field l -> NoDup (stars l) -> stars l <> [] -> total_shear l <> (0, 0) ->
  forall bx by_, at_most ((length (stars l) + 1) ^ 2) (singleplane z (map (lens_of z) l)) l bx by_.
Proof. exact field_sheared. Qed.
Print Assumptions C136_sheared.
(** Two stars or more without shear. *)
Theorem C136_unsheared : forall z l, star_field l -> NoDup (stars l) -> (2 <= length (stars l))%nat -> total_shear l = (0, 0) ->
  forall bx by_, at_most (length (stars l) ^ 2 + 1) (singleplane z (map (lens_of z) l)) l bx by_.
Proof. exact field_unsheared. Qed.
Print Assumptions C136_unsheared.
(** The bounds are reached by one star in a shear and by two stars. *)
Theorem C136_one_star : forall z x0 y0 R0 g, 0 < R0 -> g <> 0 -> -1 < g < 1 ->
  let l := [PointMass x0 y0 R0; Shear x0 y0 g 0] in exactly 4 (singleplane z (map (lens_of z) l)) l x0 y0.
Proof. exact star_in_shear. Qed.
Print Assumptions C136_one_star.
Theorem C136_two_stars : forall z R0 a, 0 < R0 -> 0 < a -> a ^ 2 < 2 * R0 ^ 2 ->
  let l := [PointMass (- a) 0 R0; PointMass a 0 R0] in exactly 5 (singleplane z (map (lens_of z) l)) l 0 0.
Proof. exact two_stars. Qed.
Print Assumptions C136_two_stars.

Example C136_hyps :
  (let l := [PointMass 0 0 1; Sheet 0 0 (1 / 3); PointMass 2 1 (1 / 2); Shear 1 0 (1 / 10) (1 / 5); PointMass 0 3 2] in star_field l /\ NoDup (stars l) /\ stars l <> [] /\ total_shear l <> (0, 0)) /\
  (let l := [PointMass 0 0 1; Sheet 0 0 (1 / 3); PointMass 2 1 (1 / 2); Shear 1 0 (1 / 10) 0; Shear 3 5 (- (1 / 10)) 0] in star_field l /\ NoDup (stars l) /\ (2 <= length (stars l))%nat /\ total_shear l = (0, 0)) /\
  1 ^ 2 < 2 * 1 ^ 2.
Proof.
  split; [|split; [|lra]]; cbv zeta.
  - split; [intros p I; cbn [In] in I; repeat (destruct I as [<-|I]; [cbn; lra || exact Logic.I|]); destruct I|]. split; [|split; [discriminate|]].
    + repeat constructor; cbn; intros Q; repeat (destruct Q as [Q|Q]; [injection Q; lra|]); exact Q.
    + intros Q. unfold total_shear in Q. cbn in Q. injection Q. lra.
  - split; [intros p I; cbn [In] in I; repeat (destruct I as [<-|I]; [cbn; lra || exact Logic.I|]); destruct I|]. split; [|split; [cbn; lia|]].
    + repeat constructor; cbn; intros Q; repeat (destruct Q as [Q|Q]; [injection Q; lra|]); exact Q.
    + unfold total_shear. apply injective_projections; cbn; lra.
Qed.
