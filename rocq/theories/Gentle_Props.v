(** * C132: weak lenses on several planes make exactly one image of every source *)
From Coq Require Import Reals List Sorting.
From Verif Require Import Py LensBase_Model Multiplane_Model CosmoTable_Model Tri_Spec First_Spec Single_Spec Gentle_Spec Gentle_Proofs.
Import ListNotations.
Local Open Scope R_scope.

(** Any lenses: how much two rays are bent apart in all. *)
Theorem C132_together : forall cd z_s lenses ks, in_front cd z_s lenses -> Forall2 gentle ks lenses -> forall x y x' y',
  exists a a', multiplane_effective_deflection cd cd lenses z_s x y = Ok a /\ multiplane_effective_deflection cd cd lenses z_s x' y' = Ok a' /\
  distance a a' <= build_up ks * distance (x, y) (x', y').
Proof. exact close_deflection. Qed.
Print Assumptions C132_together.
(** Any lenses that together stay below one: every source has exactly one image. *)
Theorem C132_one_image : forall cd z_s lenses ks, in_front cd z_s lenses -> Forall2 gentle ks lenses -> build_up ks < 1 ->
  forall bx by_, exists x y, multiplane_raytrace cd cd lenses z_s x y = Ok (bx, by_) /\
  forall x' y', multiplane_raytrace cd cd lenses z_s x' y' = Ok (bx, by_) -> x' = x /\ y' = y.
Proof. exact one_image_planes. Qed.
Print Assumptions C132_one_image.
(** Planes of sheets, shears and elliptical lenses with a core are such lenses. *)
Theorem C132_gentle : forall z l, (forall p, In p l -> ordinary p) -> (forall p, In p l -> diffuse p) -> gentle (total_strength l) (singleplane z (map (lens_of z) l)).
Proof. exact plane_gentle. Qed.
Print Assumptions C132_gentle.
(** In a FlatLambdaCDM universe. *)
Theorem C132_flat : forall h0 Om0 z_s ps, 0 < h0 -> 0 < Om0 < 1 -> / 1000 <= Rpower (Om0 / (1 - Om0)) (1 / 3) -> (1 + z_s) * Rpower (Om0 / (1 - Om0)) (1 / 3) <= 10 ->
  ps <> [] -> StronglySorted Rle (map fst ps) -> (forall P, In P ps -> 0 < fst P < z_s) -> all_ordinary ps -> build_up (strengths ps) < 1 ->
  let cd := fun z => flat_comoving_distance z h0 Om0 in
  forall bx by_, exists x y, multiplane_raytrace cd cd (map plane_of ps) z_s x y = Ok (bx, by_) /\
  forall x' y', multiplane_raytrace cd cd (map plane_of ps) z_s x' y' = Ok (bx, by_) -> x' = x /\ y' = y.
Proof. exact flat_one_image. Qed.
Print Assumptions C132_flat.
(** The magnification is finite and bounded on both sides everywhere, and nothing is mirrored. *)
Theorem C132_brightness : forall cd z_s ps rt, all_ordinary ps -> in_front cd z_s (map plane_of ps) -> build_up (strengths ps) < 1 ->
  (forall x y, multiplane_raytrace cd cd (map plane_of ps) z_s x y = Ok (rt x y)) -> let g := build_up (strengths ps) in
  forall x y, (exists m, pixel_magnification rt x y = Some m /\ / (1 + g) ^ 2 <= m <= / (1 - g) ^ 2) /\ not_mirrored (jacfwd rt x y).
Proof. exact bright_planes. Qed.
Print Assumptions C132_brightness.

Example C132_hyps : all_ordinary weak_planes /\ build_up (strengths weak_planes) < 1 /\ in_front (fun z => z) 2 (map plane_of weak_planes) /\
  StronglySorted Rle (map fst weak_planes) /\ (forall P, In P weak_planes -> 0 < fst P < 2) /\
  (/ 1000 <= Rpower (1 / 2 / (1 - 1 / 2)) (1 / 3) /\ (1 + 2) * Rpower (1 / 2 / (1 - 1 / 2)) (1 / 3) <= 10).
Proof. exact weak_planes_fit. Qed.
