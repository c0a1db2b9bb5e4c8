(** * C110: the root finder of the image search *)
From Coq Require Import Reals List Arith Lia Lra.
From Verif Require Import Py LM_Model LM_Spec LM_Proofs Tri_Model Tri_Spec Root_Spec Root_Proofs Root2_Proofs.
Import ListNotations.
Local Open Scope R_scope.

(** any lens, any solver: one position per guess, and none that maps further from the source than its guess *)
Theorem C110_never_worse : forall solve raytrace s guesses,
  exists l, forward_raytrace_rootfind solve raytrace s guesses = Ok l /\ length l = length guesses /\
  forall k, (k < length guesses)%nat -> distance (raytrace (nth k l (0, 0))) s <= distance (raytrace (nth k guesses (0, 0))) s.
Proof. exact root_closer. Qed.
Print Assumptions C110_never_worse.
(** any lens: a guess that is an image is returned unchanged, whatever the other guesses *)
Theorem C110_image_kept : forall solve raytrace s, solver_ok 2 solve -> forall guesses k, (k < length guesses)%nat -> raytrace (nth k guesses (0, 0)) = s ->
  exists l, forward_raytrace_rootfind solve raytrace s guesses = Ok l /\ nth k l (0, 0) = nth k guesses (0, 0).
Proof. exact root_fixed. Qed.
Print Assumptions C110_image_kept.
(** a lens that is affine in the field, such as a sheet with shear: all guesses, from any distance, end near the image *)
Theorem C110_near : forall m11 m12 m21 m22 c1 c2 solve xi a b, solver_ok 2 solve -> 0 < a ->
  let raytrace := affine_map m11 m12 m21 m22 c1 c2 in stretches raytrace a b -> forall guesses,
  exists l, forward_raytrace_rootfind solve raytrace (raytrace xi) guesses = Ok l /\ length l = length guesses /\
  forall k, (k < length guesses)%nat -> distance (nth k l (0, 0)) xi <= reach a (distance (nth k guesses (0, 0)) xi).
Proof. intros m11 m12 m21 m22 c1 c2 solve xi a b Hs Ha raytrace Hst. exact (near_image m11 m12 m21 m22 c1 c2 solve xi a b Hs Ha Hst). Qed.
Print Assumptions C110_near.
(** the search as users call it, with its own root finder, reports exactly one position, and it is at the image *)
Theorem C110_search : forall solve m11 m12 m21 m22 c1 c2 a b xi x0 y0 fov n epsilon max_depth, let raytrace := affine_map m11 m12 m21 m22 c1 c2 in
  solver_ok 2 solve -> 0 < a -> stretches raytrace a b -> 0 < fov -> (2 <= n)%nat -> Rabs (fst xi - x0) <= fov / 2 -> Rabs (snd xi - y0) <= fov / 2 ->
  0 < epsilon -> b * reach a (2 * epsilon) < epsilon -> 2 * reach a (2 * epsilon) < epsilon -> (fov / INR (n - 1)) ^ 2 / 2 / 4 ^ max_depth < epsilon ^ 2 ->
  exists x, forward_raytrace raytrace (forward_raytrace_rootfind solve raytrace) (raytrace xi) epsilon x0 y0 fov n max_depth = Ok [x] /\
    distance x xi <= reach a (2 * epsilon).
Proof. exact search_finds. Qed.
Print Assumptions C110_search.
(** shear 3/10, -4/10: the smallest and largest stretch are 1/2 and 3/2 *)
Example C110_hyps : solver_ok 2 cramer2 /\ stretches (affine_map (7/10) (-4/10) (-4/10) (13/10) 1 2) (1/2) (3/2) /\ Rabs (1 - 0) <= 5 / 2 /\ Rabs (-2 - 0) <= 5 / 2 /\
  (3/2) * reach (1/2) (2 * (1/1000)) < 1/1000 /\ 2 * reach (1/2) (2 * (1/1000)) < 1/1000 /\ (5 / INR (6 - 1)) ^ 2 / 2 / 4 ^ 10 < (1/1000) ^ 2.
Proof.
  assert (R1 : reach (1/2) (2 * (1/1000)) < 2 / 10 ^ 4).
  { unfold reach. apply Rmax_lub_lt.
    - assert (S : sqrt 2 < 142 / 100). { apply Rsqr_incrst_0; [|apply sqrt_pos|lra]. rewrite Rsqr_sqrt by lra. unfold Rsqr. lra. }
      replace (1 + 1 / (11 * (1 / 2) ^ 2)) with (15 / 11) by field. lra.
    - assert (P : 100 <= (1 + 10 ^ 9 * (1 / 2) ^ 2) ^ 41).
      { apply Rle_trans with ((1 + 10 ^ 9 * (1 / 2) ^ 2) ^ 1); [lra|]. apply Rle_pow; [lra|lia]. }
      apply Rmult_lt_reg_r with ((1 + 10 ^ 9 * (1 / 2) ^ 2) ^ 41); [lra|]. unfold Rdiv at 1. rewrite Rmult_assoc, Rinv_l by lra. lra. }
  split; [exact cramer2_ok|]. split.
  { intros p q. assert (D := dist_nonneg p q). set (x := fst p - fst q). set (y := snd p - snd q).
    assert (E : distance (affine_map (7 / 10) (-4 / 10) (-4 / 10) (13 / 10) 1 2 p) (affine_map (7 / 10) (-4 / 10) (-4 / 10) (13 / 10) 1 2 q) ^ 2 =
      (7/10 * x - 4/10 * y) ^ 2 + (- (4/10) * x + 13/10 * y) ^ 2) by (rewrite dist_sq; unfold affine_map, x, y; cbn [fst snd]; field).
    assert (E0 := dist_sq p q). fold x y in E0. assert (Q1 := pow2_ge_0 (x - 2 * y)). assert (Q2 := pow2_ge_0 (2 * x + y)).
    split; (apply Rsqr_incr_0_var; [unfold Rsqr; nra|]); [apply dist_nonneg|lra]. }
  replace (INR (6 - 1)) with 5 by (cbn; lra). repeat split; try lra; [rewrite Rabs_right; lra|rewrite Rabs_left; lra].
Qed.
