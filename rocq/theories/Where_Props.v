(** * C131: where the images of a source are, and that a source far from the lenses has only one *)
From Coq Require Import Reals List.
From Verif Require Import LensBase_Model First_Spec Where_Spec Where_Proofs.
Import ListNotations.
Local Open Scope R_scope.

(** Every image lies within a known distance of its source, or inside the Einstein ring of a point mass. *)
Theorem C131_where : forall z l, (forall p, In p l -> ordinary p) -> total_focusing l < 1 ->
  let L := singleplane z (map (lens_of z) l) in
  forall bx by_ x y, image L l bx by_ x y -> dist2 x y bx by_ <= radius bx by_ l \/ inside_a_ring l x y.
Proof. exact (fun z l H F bx by_ x y => image_near bx by_ x y z l H F). Qed.
Print Assumptions C131_where.
(** A source far from every centre has at most one image outside the Einstein rings of the point masses. *)
Theorem C131_far : forall z l bx by_ d, (forall p, In p l -> ordinary p) -> total_focusing l < 1 ->
  0 < d -> (forall p, In p l -> away bx by_ (radius bx by_ l + d) p) -> total_stretch d l < 1 ->
  let L := singleplane z (map (lens_of z) l) in
  forall x y x' y', image L l bx by_ x y -> image L l bx by_ x' y' -> ~ inside_a_ring l x y -> ~ inside_a_ring l x' y' -> x' = x /\ y' = y.
Proof. exact (fun z l bx by_ d => far_one z bx by_ d l). Qed.
Print Assumptions C131_far.
(** Without point masses it has exactly one. *)
Theorem C131_far_one : forall z l bx by_ d, (forall p, In p l -> ordinary p) -> no_point_mass l -> total_focusing l < 1 ->
  0 < d -> (forall p, In p l -> away bx by_ (radius bx by_ l + d) p) -> total_stretch d l < 1 ->
  let L := singleplane z (map (lens_of z) l) in
  exists x y, image L l bx by_ x y /\ dist2 x y bx by_ <= radius bx by_ l /\ forall x' y', image L l bx by_ x' y' -> x' = x /\ y' = y.
Proof. exact (fun z l bx by_ d => far_exactly_one z bx by_ d l). Qed.
Print Assumptions C131_far_one.

Example C131_hyps : (forall p, In p (PointMass 0 0 1 :: far_scene) -> ordinary p) /\ no_point_mass far_scene /\ total_focusing (PointMass 0 0 1 :: far_scene) < 1 /\
  (forall p, In p (PointMass 0 0 1 :: far_scene) -> away 100 0 (radius 100 0 (PointMass 0 0 1 :: far_scene) + 70) p) /\
  (forall p, In p far_scene -> away 100 0 (radius 100 0 far_scene + 70) p) /\ total_stretch 70 (PointMass 0 0 1 :: far_scene) < 1 /\ total_stretch 70 far_scene < 1.
Proof. exact far_scene_fits. Qed.
