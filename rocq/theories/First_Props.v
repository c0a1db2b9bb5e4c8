(** * C128: every source has an image, and the first to arrive is neither dimmed nor mirrored *)
From Coq Require Import Reals List.
From Verif Require Import LensBase_Model Cosmo_Model First_Spec First4_Proofs.
Import ListNotations.
Local Open Scope R_scope.

(** Any number of sheets, shears, isothermal spheres, elliptical lenses with or without core, and point masses in one plane. *)
Theorem C128_an_image : forall cd z z_s l bx by_, (forall p, In p l -> ordinary p) -> total_focusing l < 1 ->
  0 < angular_diameter_distance cd z -> 0 < angular_diameter_distance cd z_s -> 0 < angular_diameter_distance_z1z2 cd z z_s -> 0 < 1 + z ->
  exists x y, arrives_first cd (singleplane z (map (lens_of z) l)) z_s l bx by_ x y.
Proof. exact scene_first. Qed.
Print Assumptions C128_an_image.
Theorem C128_first_is_bright : forall cd z z_s l bx by_, (forall p, In p l -> ordinary p) -> total_focusing l < 1 ->
  0 < angular_diameter_distance cd z -> 0 < angular_diameter_distance cd z_s -> 0 < angular_diameter_distance_z1z2 cd z z_s -> 0 < 1 + z ->
  let L := singleplane z (map (lens_of z) l) in
  forall x y, arrives_first cd L z_s l bx by_ x y ->
    not_dimmed (magnification (reduced_deflection_angle L) x y) /\ not_mirrored (jacfwd (raytrace (reduced_deflection_angle L)) x y).
Proof. exact scene_bright. Qed.
Print Assumptions C128_first_is_bright.
(** The bound on the focusing cannot be dropped. *)
Theorem C128_critical_sheet : forall z x0 y0 bx by_ x y, bx <> x0 \/ by_ <> y0 -> ~ image (singleplane z [lens_of z (Sheet x0 y0 1)]) [Sheet x0 y0 1] bx by_ x y.
Proof. exact critical_sheet. Qed.
Print Assumptions C128_critical_sheet.

Example C128_hyps : (forall p, In p some_scene -> ordinary p) /\ total_focusing some_scene < 1 /\
  0 < angular_diameter_distance (fun z => z) (1 / 2) /\ 0 < angular_diameter_distance (fun z => z) 1 /\ 0 < angular_diameter_distance_z1z2 (fun z => z) (1 / 2) 1 /\ 0 < 1 + 1 / 2.
Proof. exact some_scene_fits. Qed.
