(** * C145: arrival times behind concentric lenses *)
From Coq Require Import Reals Lra List.
From Verif Require Import Cosmo_Model LensBase_Model First_Spec Delay_Spec Conc_Spec Conc_Proofs.
Import ListNotations.
Local Open Scope R_scope.

(** Any number of SIS, SIE (without core), Point, MassSheet and ExternalShear lenses at one position, as one SinglePlane: the delay between two images of a source is given by their positions, the total
    convergence and shear and the total mass of the Points; the strengths, shapes and orientations of the isothermal lenses and the position of the source do not enter. *)
Theorem C145_delays : forall cd z zs x0 y0 l bx by_ x y x' y', concentric x0 y0 l -> let L := singleplane z (map (lens_of z) l) in image L l bx by_ x y -> image L l bx by_ x' y' ->
  let lead := lead (sheets l) (shear_1 l) (shear_2 l) (star_mass l) x0 y0 in
  time_delay cd L zs x' y' true true - time_delay cd L zs x y true true = delay_unit cd z zs * (lead x y - lead x' y').
Proof. exact delays. Qed.
Print Assumptions C145_delays.
(** So two models that agree in those totals and show images at the same two positions predict the same delay. *)
Theorem C145_same : forall cd z zs x0 y0 l l2 bx by_ bx2 by2 x y x' y', concentric x0 y0 l -> concentric x0 y0 l2 -> sheets l = sheets l2 -> shear_1 l = shear_1 l2 -> shear_2 l = shear_2 l2 -> star_mass l = star_mass l2 ->
  let L := singleplane z (map (lens_of z) l) in let L2 := singleplane z (map (lens_of z) l2) in
  image L l bx by_ x y -> image L l bx by_ x' y' -> image L2 l2 bx2 by2 x y -> image L2 l2 bx2 by2 x' y' ->
  time_delay cd L zs x' y' true true - time_delay cd L zs x y true true = time_delay cd L2 zs x' y' true true - time_delay cd L2 zs x y true true.
Proof. exact same_delays. Qed.
Print Assumptions C145_same.
(** Without a net shear and with sheets below the critical density the image farther from the lens arrives first. *)
Theorem C145_farther_first : forall cd z zs x0 y0 l bx by_ x y x' y', concentric x0 y0 l -> shear_1 l = 0 -> shear_2 l = 0 -> sheets l < 1 -> 0 < delay_unit cd z zs ->
  let L := singleplane z (map (lens_of z) l) in image L l bx by_ x y -> image L l bx by_ x' y' -> x <> x0 \/ y <> y0 ->
  (x - x0) ^ 2 + (y - y0) ^ 2 < (x' - x0) ^ 2 + (y' - y0) ^ 2 -> time_delay cd L zs x' y' true true < time_delay cd L zs x y true true.
Proof. exact farther_first. Qed.
Print Assumptions C145_farther_first.

(** The hypotheses can be met: an SIS of radius 2 shows a source at distance 1 at 3 and at -1. (The unit of the delays is positive by C103_unit.) *)
Example C145_hyps : let l := [Isothermal 0 0 2] in concentric 0 0 l /\ shear_1 l = 0 /\ shear_2 l = 0 /\ sheets l < 1 /\
  image (singleplane 0 (map (lens_of 0) l)) l 1 0 3 0 /\ image (singleplane 0 (map (lens_of 0) l)) l 1 0 (-1) 0 /\ (-1 - 0) ^ 2 + (0 - 0) ^ 2 < (3 - 0) ^ 2 + (0 - 0) ^ 2.
Proof.
  intros l. destruct sis_two_images as [A B]. fold l in A, B. split; [intros p [<-|[]]; split; reflexivity|]. unfold shear_1, shear_2, sheets, add_up. cbn [l map fold_right]. repeat split; try ring; try lra; try (apply A || apply B).
Qed.
