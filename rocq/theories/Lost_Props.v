(** * C117: forward_raytrace and the images in its field of view *)
From Coq Require Import Reals List Arith Lia Lra Psatz.
From Verif Require Import Py Calc2 LM_Model LM_Spec LM_Proofs LensBase_Model LensBasic_Model Tri_Model Tri_Spec Root_Spec Root_Proofs Lost2_Proofs Lost3_Proofs Weak3_Proofs Weak4_Proofs Weak5_Proofs.
Import ListNotations.
Local Open Scope R_scope.

(** A Point lens in the middle of the field, the source at distance b to the right.  When the spacing h of the grid is larger
    than 2 Rein^2 / b no position reported, whatever the number of subdivisions, is within two Einstein radii of the lens ... *)
Theorem C117_missed : forall Rein b fov m epsilon solve, 0 < Rein -> 0 < fov -> (1 <= m)%nat -> 0 < epsilon -> solver_ok 2 solve ->
  let h := fov / INR (2 * m - 1) in 2 * Rein ^ 2 <= b * h -> 2 * Rein + 3 * h + 167 * epsilon <= b ->
  let ray := fun p : pt => LensBase_Model.raytrace (reduced_deflection_angle_point 0 0 Rein 0) (fst p) (snd p) in
  forall max_depth l, forward_raytrace ray (forward_raytrace_rootfind solve ray) (b, 0) epsilon 0 0 fov (2 * m) max_depth = Ok l ->
  forall e, In e l -> 2 * Rein <= fst e.
Proof. intros Rein b fov m epsilon solve HR Hf Hm He Hs h Hb Hr ray. exact (point_right Rein HR b fov m epsilon solve Hf Hm He Hs Hb Hr). Qed.
Print Assumptions C117_missed.
(** ... where the second image is: on the other side of the lens, inside its Einstein radius *)
Theorem C117_present : forall Rein b, 0 < Rein -> 0 < b ->
  let ray := fun p : pt => LensBase_Model.raytrace (reduced_deflection_angle_point 0 0 Rein 0) (fst p) (snd p) in
  let xi := (b - sqrt (b ^ 2 + 4 * Rein ^ 2)) / 2 in ray (xi, 0) = (b, 0) /\ - Rein < xi < 0.
Proof. exact second_image. Qed.
Print Assumptions C117_present.
(** With the default settings (field 5, 100 divisions, tolerance 1/1000, depth 25): an image inside the field, and every
    position reported is more than a tenth of an arcsecond away from it *)
Theorem C117_refuted : exists Rein s xi,
  let ray := fun p : pt => LensBase_Model.raytrace (reduced_deflection_angle_point 0 0 Rein 0) (fst p) (snd p) in
  ray xi = s /\ Rabs (fst xi) <= 5 / 2 /\ Rabs (snd xi) <= 5 / 2 /\ forall solve, solver_ok 2 solve ->
  ~ exists l, forward_raytrace ray (forward_raytrace_rootfind solve ray) s (1 / 1000) 0 0 5 100 25 = Ok l /\ exists e, In e l /\ distance e xi <= 1 / 10.
Proof. exact default_misses. Qed.
Print Assumptions C117_refuted.
Example C117_hyps : solver_ok 2 cramer2 /\ 2 * (1 / 10) ^ 2 <= 2 * (5 / INR (2 * 50 - 1)) /\ 2 * (1 / 10) + 3 * (5 / INR (2 * 50 - 1)) + 167 * (1 / 1000) <= 2.
Proof. split; [exact cramer2_ok|]. replace (INR (2 * 50 - 1)) with 99 by (cbn; lra). lra. Qed.

(** What does hold, for any lens whatsoever (a sum of planes included): let the map to the source plane be, up to a fixed invertible
    matrix N, a small perturbation of the identity over a square somewhat larger than the field (the perturbation changes by at most
    1/30 of the distance between two positions), let it stretch distances by a factor between a and b, and be differentiable.  Then
    every image at least half a cell inside the field is found, and nothing else is reported *)
Theorem C117_found : forall (ray : pt -> pt) n11 n12 n21 n22, n11 * n22 - n12 * n21 <> 0 ->
  forall x0 y0 fov rho n k a b epsilon (xi : pt) solve, 0 < fov -> (2 <= n)%nat -> 0 <= k <= 1 / 30 -> 0 < a -> 0 <= b -> 0 < epsilon -> solver_ok 2 solve ->
  let inside := fun p : pt => Rabs (fst p - x0) <= rho /\ Rabs (snd p - y0) <= rho in
  let rest := fun p : pt => (n11 * fst (ray p) + n12 * snd (ray p) + 0 - fst p, n21 * fst (ray p) + n22 * snd (ray p) + 0 - snd p) in
  (forall p q, inside p -> inside q -> distance (rest p) (rest q) <= k * distance p q) ->
  (forall p q, inside p -> inside q -> a * distance p q <= distance (ray p) (ray q) <= b * distance p q) ->
  (forall p, inside p -> exists xx xy yx yy, D2 (fun u v => fst (ray (u, v))) (fst p) (snd p) xx xy /\ D2 (fun u v => snd (ray (u, v))) (fst p) (snd p) yx yy) ->
  let h := fov / INR (n - 1) in fov / 2 + 6 * h + 100 * (b / a) * epsilon < rho ->
  Rabs (fst xi - x0) + h / 2 < fov / 2 -> Rabs (snd xi - y0) + h / 2 < fov / 2 ->
  forall max_depth, let w := h / 2 ^ max_depth in w ^ 2 / 2 < epsilon ^ 2 -> b * (sqrt 2 * w) < epsilon -> 1 / 10 ^ 6 <= w ->
  exists x t, forward_raytrace ray (forward_raytrace_rootfind solve ray) (ray xi) epsilon x0 y0 fov n max_depth = Ok (x :: t) /\
  forall e, In e (x :: t) -> distance e xi <= 2 * (b / a) * epsilon.
Proof.
  intros ray n11 n12 n21 n22 HN x0 y0 fov rho n k a b epsilon xi solve Hf Hn Hk Ha Hb He Hs inside rest HS HB HD h Hr Hx Hy md w.
  exact (weak_found ray n11 n12 n21 n22 HN x0 y0 fov rho n k a b epsilon xi solve Hf Hn Hk Ha Hb He Hs HS HB HD Hr Hx Hy md).
Qed.
Print Assumptions C117_found.
(** in particular the image of a Point lens outside the field: no position of the enlarged field within six Einstein radii *)
Theorem C117_outside : forall Rein x0 y0 fov rho n epsilon (xi : pt) solve, 0 < Rein -> 0 < fov -> (2 <= n)%nat -> 0 < epsilon -> solver_ok 2 solve ->
  (forall x y, Rabs (x - x0) <= rho -> Rabs (y - y0) <= rho -> 36 * Rein ^ 2 <= x ^ 2 + y ^ 2) ->
  let h := fov / INR (n - 1) in fov / 2 + 6 * h + 106 * epsilon <= rho ->
  Rabs (fst xi - x0) + h / 2 < fov / 2 -> Rabs (snd xi - y0) + h / 2 < fov / 2 ->
  let ray := fun p : pt => LensBase_Model.raytrace (reduced_deflection_angle_point 0 0 Rein 0) (fst p) (snd p) in
  forall max_depth, 2 * (h / 2 ^ max_depth) <= epsilon -> 1 / 10 ^ 6 <= h / 2 ^ max_depth ->
  exists x t, forward_raytrace ray (forward_raytrace_rootfind solve ray) (ray xi) epsilon x0 y0 fov n max_depth = Ok (x :: t) /\
  forall e, In e (x :: t) -> distance e xi <= 3 * epsilon.
Proof.
  intros Rein x0 y0 fov rho n epsilon xi solve HR Hf Hn He Hs far h Hr Hx Hy ray md.
  exact (point_found Rein x0 y0 fov rho n epsilon xi solve HR Hf Hn He Hs far md Hr Hx Hy).
Qed.
Print Assumptions C117_outside.
Example C117_outside_hyps : let h := 2 / INR (21 - 1) in (forall x y, Rabs (x - 3) <= 9 / 5 -> Rabs (y - 0) <= 9 / 5 -> 36 * (1 / 10) ^ 2 <= x ^ 2 + y ^ 2) /\
  2 / 2 + 6 * h + 106 * (1 / 1000) <= 9 / 5 /\ Rabs (16 / 5 - 3) + h / 2 < 2 / 2 /\ 2 * (h / 2 ^ 8) <= 1 / 1000 /\ 1 / 10 ^ 6 <= h / 2 ^ 8.
Proof.
  intros h. assert (E : h = 1 / 10) by (unfold h; replace (INR (21 - 1)) with 20 by (cbn; lra); lra). rewrite E. repeat split; try lra.
  - intros x y X _. assert (A := Rle_abs (- (x - 3))). rewrite Rabs_Ropp in A. assert (B := pow2_ge_0 y). assert (6 / 5 <= x) by lra. nra.
  - rewrite Rabs_right; lra.
Qed.
