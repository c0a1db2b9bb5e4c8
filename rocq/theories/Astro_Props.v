(** * C152: the light of a star behind a Point lens: where its centre is and how bright it is *)
From Coq Require Import Reals Lra.
From Verif Require Import LensBase_Model LensBasic_Model Astro_Spec Astro_Proofs.
Local Open Scope R_scope.

(** Every star not exactly behind a Point lens (s = 0) has exactly two images, both with a finite magnification. *)
Theorem C152_images : forall x0 y0 Rein sx sy, 0 < Rein -> (sx, sy) <> (x0, y0) -> exists P1 P2 m1 m2, two_images x0 y0 Rein sx sy P1 P2 m1 m2.
Proof. exact images_exist. Qed.
Print Assumptions C152_images.
(** The mean of the image positions, weighted with what magnification returns, is the star moved away from the lens by its own offset times Rein^2 / (distance^2 + 2 Rein^2). *)
Theorem C152_centroid : forall x0 y0 Rein sx sy, 0 < Rein -> (sx, sy) <> (x0, y0) -> forall P1 P2 m1 m2, two_images x0 y0 Rein sx sy P1 P2 m1 m2 ->
  centroid P1 P2 m1 m2 = (sx + Rein ^ 2 / ((sx - x0) ^ 2 + (sy - y0) ^ 2 + 2 * Rein ^ 2) * (sx - x0), sy + Rein ^ 2 / ((sx - x0) ^ 2 + (sy - y0) ^ 2 + 2 * Rein ^ 2) * (sy - y0)).
Proof. exact centroid_at. Qed.
Print Assumptions C152_centroid.
(** The shift is never above Rein / sqrt 8, and reaches this exactly at the distance sqrt 2 Rein. *)
Theorem C152_largest : forall x0 y0 Rein sx sy P1 P2 m1 m2, 0 < Rein -> (sx, sy) <> (x0, y0) -> two_images x0 y0 Rein sx sy P1 P2 m1 m2 ->
  let C := centroid P1 P2 m1 m2 in let d := sqrt ((fst C - sx) ^ 2 + (snd C - sy) ^ 2) in d <= Rein / sqrt 8 /\ (d = Rein / sqrt 8 <-> (sx - x0) ^ 2 + (sy - y0) ^ 2 = 2 * Rein ^ 2).
Proof. exact largest_of. Qed.
Print Assumptions C152_largest.
(** While the star passes the lens on a straight line of direction (c, s) at the distance b0, the shift stays on one ellipse through the origin. *)
Theorem C152_ellipse : forall x0 y0 Rein b0 c s t P1 P2 m1 m2, 0 < Rein -> 0 < b0 -> c ^ 2 + s ^ 2 = 1 -> let sx := x0 + t * c - b0 * s in let sy := y0 + t * s + b0 * c in two_images x0 y0 Rein sx sy P1 P2 m1 m2 ->
  let C := centroid P1 P2 m1 m2 in let X := (fst C - sx) * c + (snd C - sy) * s in let Y := - (fst C - sx) * s + (snd C - sy) * c in
  let a := Rein ^ 2 / (2 * sqrt (b0 ^ 2 + 2 * Rein ^ 2)) in let b := b0 * Rein ^ 2 / (2 * (b0 ^ 2 + 2 * Rein ^ 2)) in (X / a) ^ 2 + ((Y - b) / b) ^ 2 = 1.
Proof. exact ellipse_of. Qed.
Print Assumptions C152_ellipse.
(** A star closer to the lens is brighter: the light curve of a straight passage has one peak, at the closest approach. *)
Theorem C152_closer : forall x0 y0 Rein sx sy P1 P2 m1 m2 sx' sy' P1' P2' m1' m2', 0 < Rein -> (sx, sy) <> (x0, y0) -> (sx', sy') <> (x0, y0) ->
  two_images x0 y0 Rein sx sy P1 P2 m1 m2 -> two_images x0 y0 Rein sx' sy' P1' P2' m1' m2' -> (sx - x0) ^ 2 + (sy - y0) ^ 2 < (sx' - x0) ^ 2 + (sy' - y0) ^ 2 -> m1' + m2' < m1 + m2.
Proof. exact closer_brighter. Qed.
Print Assumptions C152_closer.
(** The total magnification A gives the distance back: distance^2 = 2 Rein^2 (A / sqrt (A^2 - 1) - 1). *)
Theorem C152_distance : forall x0 y0 Rein sx sy P1 P2 m1 m2, 0 < Rein -> (sx, sy) <> (x0, y0) -> two_images x0 y0 Rein sx sy P1 P2 m1 m2 ->
  (sx - x0) ^ 2 + (sy - y0) ^ 2 = 2 * Rein ^ 2 * ((m1 + m2) / sqrt ((m1 + m2) ^ 2 - 1) - 1).
Proof. exact distance_of. Qed.
Print Assumptions C152_distance.

(** The hypotheses can be met: a lens at (1, 2) with Rein = 2 and stars at (4, 2) and (9, 2). *)
Example C152_hyps : 0 < 2 /\ (4, 2) <> (1, 2) /\ (3 / 5) ^ 2 + (4 / 5) ^ 2 = 1 /\ (4 - 1) ^ 2 + (2 - 2) ^ 2 < (9 - 1) ^ 2 + (2 - 2) ^ 2 /\ (exists P1 P2 m1 m2, two_images 1 2 2 4 2 P1 P2 m1 m2) /\ (exists P1 P2 m1 m2, two_images 1 2 2 9 2 P1 P2 m1 m2).
Proof.
  split; [lra|]. split; [intros E; injection E; lra|]. split; [lra|]. split; [lra|]. split; apply images_exist; try lra; intros E; injection E; lra.
Qed.
