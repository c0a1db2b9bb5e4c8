(** * C129: a lens below the critical strength makes exactly one image, a lens above it several *)
From Coq Require Import Reals List.
From Verif Require Import LensBase_Model First_Spec Single_Spec Single_Proofs.
Import ListNotations.
Local Open Scope R_scope.

(** Any number of sheets, shears and elliptical lenses with a core in one plane. *)
Theorem C129_one_image : forall z l, (forall p, In p l -> ordinary p) -> (forall p, In p l -> diffuse p) -> total_strength l < 1 ->
  let L := singleplane z (map (lens_of z) l) in
  forall bx by_, exists x y, image L l bx by_ x y /\ forall x' y', image L l bx by_ x' y' -> x' = x /\ y' = y.
Proof. exact one_image. Qed.
Print Assumptions C129_one_image.
(** Everywhere the magnification is finite, at least one, bounded by the strength, and nothing is mirrored. *)
Theorem C129_brightness : forall z l, (forall p, In p l -> ordinary p) -> (forall p, In p l -> diffuse p) -> total_strength l < 1 ->
  let L := singleplane z (map (lens_of z) l) in
  forall x y, (exists m, magnification (reduced_deflection_angle L) x y = Some m /\ 1 <= m <= / (1 - total_strength l) ^ 2) /\
    not_mirrored (jacfwd (raytrace (reduced_deflection_angle L)) x y).
Proof. exact bounded_brightness. Qed.
Print Assumptions C129_brightness.
(** The bound is sharp: just above it a source behind the lens has three images. *)
Theorem C129_several : forall z x0 y0 q phi Rein s, let p := Elliptical x0 y0 q phi Rein s in ordinary p -> diffuse p -> 1 < strength p ->
  let L := singleplane z (map (lens_of z) [p]) in
  exists x1 y1 x2 y2 x3 y3, (image L [p] x0 y0 x1 y1 /\ image L [p] x0 y0 x2 y2 /\ image L [p] x0 y0 x3 y3) /\
    (x1, y1) <> (x2, y2) /\ (x2, y2) <> (x3, y3) /\ (x1, y1) <> (x3, y3).
Proof. exact several_images. Qed.
Print Assumptions C129_several.

Example C129_hyps : ((forall p, In p weak_scene -> ordinary p) /\ (forall p, In p weak_scene -> diffuse p) /\ total_strength weak_scene < 1) /\
  (ordinary (Elliptical 0 0 (1 / 4) 0 1 (1 / 10)) /\ diffuse (Elliptical 0 0 (1 / 4) 0 1 (1 / 10)) /\ 1 < strength (Elliptical 0 0 (1 / 4) 0 1 (1 / 10))).
Proof. exact weak_scene_fits. Qed.
