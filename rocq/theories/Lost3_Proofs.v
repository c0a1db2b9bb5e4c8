(** * The second image of a Point lens *)
From Coq Require Import Reals List Arith Lia Lra Psatz.
From Verif Require Import Py LM_Model LM_Spec LensBase_Model LensBasic_Model Tri_Model Tri_Spec Tri2_Proofs Root_Spec Root_Proofs Lost2_Proofs.
Import ListNotations.
Local Open Scope R_scope.

Lemma second_image Rein b : 0 < Rein -> 0 < b -> let ray := fun p : pt => LensBase_Model.raytrace (reduced_deflection_angle_point 0 0 Rein 0) (fst p) (snd p) in
  let xi := (b - sqrt (b ^ 2 + 4 * Rein ^ 2)) / 2 in ray (xi, 0) = (b, 0) /\ - Rein < xi < 0.
Proof.
  intros HR Hb ray xi. assert (R2 : 0 < Rein ^ 2) by (apply pow_lt, HR). assert (B2 : 0 < b ^ 2) by (apply pow_lt, Hb).
  assert (P : 0 <= b ^ 2 + 4 * Rein ^ 2) by lra. assert (Q := pow2_sqrt _ P). assert (S0 := sqrt_pos (b ^ 2 + 4 * Rein ^ 2)). set (r := sqrt (b ^ 2 + 4 * Rein ^ 2)) in *.
  assert (X1 : - Rein < xi < 0) by (unfold xi; split; nra). split; [|exact X1].
  change (pray Rein (xi, 0) = (b, 0)). assert (X2 : 0 < xi ^ 2) by nra. rewrite pray_eq by lra. replace (xi ^ 2 + 0 ^ 2) with (xi ^ 2) by ring.
  assert (E : xi ^ 2 = b * xi + Rein ^ 2). { unfold xi. clear - Q. nra. }
  f_equal; [|field; lra]. replace (xi - Rein ^ 2 * xi / xi ^ 2) with ((xi ^ 2 - Rein ^ 2) / xi) by (field; lra). rewrite E. field. lra.
Qed.
Lemma default_misses : exists Rein s xi,
  let ray := fun p : pt => LensBase_Model.raytrace (reduced_deflection_angle_point 0 0 Rein 0) (fst p) (snd p) in
  ray xi = s /\ Rabs (fst xi) <= 5 / 2 /\ Rabs (snd xi) <= 5 / 2 /\ forall solve, solver_ok 2 solve ->
  ~ exists l, forward_raytrace ray (forward_raytrace_rootfind solve ray) s (1 / 1000) 0 0 5 100 25 = Ok l /\ exists e, In e l /\ distance e xi <= 1 / 10.
Proof.
  destruct (second_image (1 / 10) 2 ltac:(lra) ltac:(lra)) as [E X]. set (x := (2 - sqrt (2 ^ 2 + 4 * (1 / 10) ^ 2)) / 2) in *.
  exists (1 / 10), (2, 0), (x, 0). split; [exact E|]. cbn [fst snd]. split; [rewrite Rabs_left; lra|]. split; [rewrite Rabs_R0; lra|].
  intros solve Hs (l & El & e & He & D). assert (N : INR (2 * 50 - 1) = 99) by (cbn; lra).
  assert (F := point_right (1 / 10) ltac:(lra) 2 5 50 (1 / 1000) solve ltac:(lra) ltac:(lia) ltac:(lra) Hs ltac:(rewrite N; lra) ltac:(rewrite N; lra) 25 l El e He).
  destruct (distance_components e (x, 0)) as [D1 _]. cbn [fst] in D1. apply Rle_trans with (r3 := 1 / 10) in D1; [|exact D]. apply Rabs_le_between' in D1 || idtac.
  assert (D2 := Rle_abs (fst e - x)). lra.
Qed.
