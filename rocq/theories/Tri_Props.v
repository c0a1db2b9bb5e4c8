(** * C19 - C25: triangles and the search for images *)
From Coq Require Import Reals List Arith Lia Lra ZArith.
From Verif Require Import Py LM_Model Tri_Model Tri_Spec Tri_Proofs Tri2_Proofs Tri3_Proofs.
Import ListNotations.
Local Open Scope R_scope.

Theorem C19_contains : forall p v, nondegenerate p -> (triangle_contains p v = true <-> in_triangle p v).
Proof. exact contains_iff. Qed.
Print Assumptions C19_contains.
(** the quotients of a degenerate triangle are NaN or infinite *)
Theorem C19_degenerate : forall p v, ~ nondegenerate p -> triangle_contains p v = false.
Proof. exact contains_degenerate. Qed.
Print Assumptions C19_degenerate.
Example C19_hyps : nondegenerate ((0, 0), (1, 0), (0, 1)) /\ nondegenerate ((0, 0), (0, 1), (1, 0)).
Proof. unfold nondegenerate, orient. cbn [fst snd]. lra. Qed.

Theorem C20_union : forall p v, in_triangle p v <-> exists q, In q (triangle_upsample p) /\ in_triangle q v.
Proof. exact upsample_union. Qed.
Print Assumptions C20_union.
Theorem C20_area : forall p, length (triangle_upsample p) = 4%nat /\
  (forall q, In q (triangle_upsample p) -> triangle_area q = triangle_area p / 4) /\ triangle_area p = 1 / 2 * Rabs (orient p).
Proof. intros p. split; [destruct p as [[p0 p1] p2]; reflexivity|]. split; [exact (upsample_area p)|exact (area_orient p)]. Qed.
Print Assumptions C20_area.

Theorem C21_ring : forall p, nondegenerate p ->
  NoDup (triangle_neighbors p) /\ length (triangle_neighbors p) = 13%nat /\
  (forall q, In q (triangle_neighbors p) <-> exists u i j, q = lattice_triangle p u i j /\ share_corner p q).
Proof. exact neighbors_lattice. Qed.
Print Assumptions C21_ring.
Theorem C21_area : forall p q, In q (triangle_neighbors p) -> triangle_area q = triangle_area p.
Proof. exact neighbors_area. Qed.
Print Assumptions C21_area.
Example C21_hyps : nondegenerate ((0, 0), (3, 1), (1, 2)).
Proof. unfold nondegenerate, orient. cbn [fst snd]. lra. Qed.

Theorem C22_points : forall x epsilon,
  sublist (remove_duplicate_points x epsilon) x /\
  (forall a t, x = a :: t -> exists t', remove_duplicate_points x epsilon = a :: t') /\
  (forall i j, (i < length (remove_duplicate_points x epsilon))%nat -> (j < length (remove_duplicate_points x epsilon))%nat -> i <> j ->
     epsilon <= distance (nth i (remove_duplicate_points x epsilon) (0, 0)) (nth j (remove_duplicate_points x epsilon) (0, 0))) /\
  (forall a, In a x -> In a (remove_duplicate_points x epsilon) \/ exists b, In b (remove_duplicate_points x epsilon) /\ distance a b < epsilon) /\
  remove_duplicate_points (remove_duplicate_points x epsilon) epsilon = remove_duplicate_points x epsilon.
Proof. exact dedup_points. Qed.
Print Assumptions C22_points.
Theorem C22_triangles : forall l d,
  sublist (remove_triangle_duplicates l) l /\
  (forall a t, l = a :: t -> exists t', remove_triangle_duplicates l = a :: t') /\
  (forall i j, (i < length (remove_triangle_duplicates l))%nat -> (j < length (remove_triangle_duplicates l))%nat -> i <> j ->
     ~ same_within (1 / 10 ^ 6) (nth i (remove_triangle_duplicates l) d) (nth j (remove_triangle_duplicates l) d)) /\
  (forall a, In a l -> In a (remove_triangle_duplicates l) \/ exists b, In b (remove_triangle_duplicates l) /\ same_within (1 / 10 ^ 6) a b) /\
  remove_triangle_duplicates (remove_triangle_duplicates l) = remove_triangle_duplicates l.
Proof. exact dedup_triangles. Qed.
Print Assumptions C22_triangles.

(** for every root finder; the tolerance is that of allclose: epsilon plus 1e-5 of the size of the component *)
Theorem C23_images : forall raytrace rootfind s epsilon x0 y0 fov n max_depth r, 
  forward_raytrace raytrace rootfind s epsilon x0 y0 fov n max_depth = Ok r ->
  (forall e, In e r -> Rabs (fst (raytrace e) - fst s) <= epsilon + 1 / 10 ^ 5 * Rabs (fst s) /\
                       Rabs (snd (raytrace e) - snd s) <= epsilon + 1 / 10 ^ 5 * Rabs (snd s)) /\
  (forall i j, (i < length r)%nat -> (j < length r)%nat -> i <> j -> epsilon <= distance (nth i r (0, 0)) (nth j r (0, 0))).
Proof. exact forward_good. Qed.
Print Assumptions C23_images.

Theorem C24_cover : forall x0 y0 fov n, 0 < fov -> (2 <= n)%nat -> forall vx vy, Rabs (vx - x0) <= fov / 2 -> Rabs (vy - y0) <= fov / 2 ->
  exists p, In p (initial_triangles x0 y0 fov n) /\ in_triangle p (vx, vy).
Proof. exact initial_cover. Qed.
Print Assumptions C24_cover.
(** [stage d] are the triangles kept at depth d: those located among the initial ones, then among the refinement of the previous stage *)
Theorem C24_invariant : forall m11 m12 m21 m22 c1 c2, m11 * m22 - m12 * m21 <> 0 -> forall xi x0 y0 fov n, 0 < fov -> (2 <= n)%nat ->
  Rabs (fst xi - x0) <= fov / 2 -> Rabs (snd xi - y0) <= fov / 2 -> forall d,
  let raytrace := affine_map m11 m12 m21 m22 c1 c2 in
  stage raytrace (raytrace xi) x0 y0 fov n d <> [] /\
  forall p, In p (stage raytrace (raytrace xi) x0 y0 fov n d) -> nondegenerate p /\ in_triangle p xi /\ triangle_area p = area0 fov n / 4 ^ d.
Proof. exact stage_facts. Qed.
Print Assumptions C24_invariant.
(** so the search returns as soon as it is allowed to reach triangles smaller than epsilon^2, whatever positions the root finder reports *)
Theorem C24_returns : forall m11 m12 m21 m22 c1 c2, m11 * m22 - m12 * m21 <> 0 -> forall xi x0 y0 fov n, 0 < fov -> (2 <= n)%nat ->
  Rabs (fst xi - x0) <= fov / 2 -> Rabs (snd xi - y0) <= fov / 2 -> forall rootfind epsilon max_depth,
  let raytrace := affine_map m11 m12 m21 m22 c1 c2 in
  (forall g, exists l, rootfind (raytrace xi) g = Ok l /\ length l = length g) ->
  ((fov / INR (n - 1)) ^ 2 / 2 / 4 ^ max_depth < epsilon ^ 2 ->
     exists l, forward_raytrace raytrace rootfind (raytrace xi) epsilon x0 y0 fov n max_depth = Ok l) /\
  (epsilon ^ 2 <= (fov / INR (n - 1)) ^ 2 / 2 / 4 ^ max_depth ->
     forward_raytrace raytrace rootfind (raytrace xi) epsilon x0 y0 fov n max_depth = Raise NameError).
Proof. exact affine_returns. Qed.
Print Assumptions C24_returns.
(** and with a root finder that finds the image, exactly the image is reported *)
Theorem C24_exact : forall m11 m12 m21 m22 c1 c2, m11 * m22 - m12 * m21 <> 0 -> forall xi x0 y0 fov n, 0 < fov -> (2 <= n)%nat ->
  Rabs (fst xi - x0) <= fov / 2 -> Rabs (snd xi - y0) <= fov / 2 -> forall rootfind epsilon max_depth,
  let raytrace := affine_map m11 m12 m21 m22 c1 c2 in
  0 < epsilon -> (forall g, rootfind (raytrace xi) g = Ok (repeat xi (length g))) -> (fov / INR (n - 1)) ^ 2 / 2 / 4 ^ max_depth < epsilon ^ 2 ->
  forward_raytrace raytrace rootfind (raytrace xi) epsilon x0 y0 fov n max_depth = Ok [xi].
Proof. exact affine_exact. Qed.
Print Assumptions C24_exact.
Example C24_hyps : (1 - 3/10) * (1 + 1/10) - 2/10 * (2/10) <> 0 /\ (0 < 5) /\ (2 <= 6)%nat /\ Rabs (1 - 0) <= 5 / 2 /\ Rabs (-2 - 0) <= 5 / 2 /\
  (5 / INR (6 - 1)) ^ 2 / 2 / 4 ^ 3 < (1 / 10) ^ 2 /\ 0 < 1 / 10.
Proof.
  replace (INR (6 - 1)) with 5 by (cbn; lra). repeat split; try lra; try lia.
  - rewrite Rabs_right; lra.
  - rewrite Rabs_left; lra.
Qed.

(** C25 is false: without an image in the field the first triangle is taken from an empty list, whatever the root finder,
    and with too small a depth the result is read before it is assigned *)
Theorem C25_refuted : exists raytrace s epsilon x0 y0 fov n max_depth, 0 < epsilon /\ 0 < fov /\ (2 <= n)%nat /\ forall rootfind,
  forward_raytrace raytrace rootfind s epsilon x0 y0 fov n max_depth = Raise IndexError.
Proof.
  exists (affine_map 1 0 0 1 0 0), (affine_map 1 0 0 1 0 0 (10, 0)), (1 / 100), 0, 0, 5, 100%nat, 25%nat.
  repeat (split; [lra || lia|]). intros rootfind. apply outside_crash; try lra; try lia. left. cbn [fst]. rewrite Rabs_right; lra.
Qed.
Print Assumptions C25_refuted.
Theorem C25_outside_crash : forall m11 m12 m21 m22 c1 c2 xi x0 y0 fov n, m11 * m22 - m12 * m21 <> 0 -> 0 < fov -> (2 <= n)%nat ->
  fov / 2 < Rabs (fst xi - x0) \/ fov / 2 < Rabs (snd xi - y0) -> forall rootfind epsilon max_depth,
  forward_raytrace (affine_map m11 m12 m21 m22 c1 c2) rootfind (affine_map m11 m12 m21 m22 c1 c2 xi) epsilon x0 y0 fov n max_depth = Raise IndexError.
Proof. exact outside_crash. Qed.
Print Assumptions C25_outside_crash.
Theorem C25_depth_refuted : exists raytrace s epsilon x0 y0 fov n max_depth, 0 < epsilon /\ 0 < fov /\ (2 <= n)%nat /\ 
  forall rootfind, (forall g, exists l, rootfind s g = Ok l /\ length l = length g) ->
  forward_raytrace raytrace rootfind s epsilon x0 y0 fov n max_depth = Raise NameError.
Proof.
  exists (affine_map 1 0 0 1 0 0), (affine_map 1 0 0 1 0 0 (0, 0)), (1 / 100), 0, 0, 5, 6%nat, 3%nat.
  repeat (split; [lra || lia|]). intros rootfind H. apply affine_returns; try exact H; try lra; try lia.
  - cbn [fst]. rewrite Rminus_0_r, Rabs_R0. lra.
  - cbn [snd]. rewrite Rminus_0_r, Rabs_R0. lra.
  - unfold area0. replace (INR (6 - 1)) with 5 by (cbn; lra). lra.
Qed.
Print Assumptions C25_depth_refuted.
(** what holds: for an invertible affine lens with the image in the field and sufficient depth the call returns *)
Theorem C25_inside_partial : forall m11 m12 m21 m22 c1 c2, m11 * m22 - m12 * m21 <> 0 -> forall xi x0 y0 fov n, 0 < fov -> (2 <= n)%nat ->
  Rabs (fst xi - x0) <= fov / 2 -> Rabs (snd xi - y0) <= fov / 2 -> forall rootfind epsilon max_depth,
  let raytrace := affine_map m11 m12 m21 m22 c1 c2 in
  (forall g, exists l, rootfind (raytrace xi) g = Ok l /\ length l = length g) ->
  (fov / INR (n - 1)) ^ 2 / 2 / 4 ^ max_depth < epsilon ^ 2 ->
  exists l, forward_raytrace raytrace rootfind (raytrace xi) epsilon x0 y0 fov n max_depth = Ok l.
Proof. intros. apply affine_returns; assumption. Qed.
Print Assumptions C25_inside_partial.
