(** * C155: the light of a source behind an SIS: where its centre is and how bright it is *)
From Coq Require Import Reals List Lra.
From Verif Require Import LensBase_Model LensBasic_Model Invert_Spec Glow_Spec Glow_Proofs.
Local Open Scope R_scope.

(** Every source not exactly behind an SIS (s = 0) has a finite list of images, all of finite magnification. *)
Theorem C155_images : forall x0 y0 Rein sx sy, 0 < Rein -> (sx, sy) <> (x0, y0) -> exists l, all_images (reduced_deflection_angle_sis x0 y0 Rein 0) x0 y0 (sx, sy) l.
Proof. exact sis_all. Qed.
Print Assumptions C155_images.
(** With b the distance from the lens, the total magnification is the larger of 1 + Rein/b and 2 Rein/b. The centre of the light is at twice the offset of the source if it is within Rein, else one Rein further out: it is displaced by min(b, Rein). *)
Theorem C155_light : forall x0 y0 Rein sx sy l, 0 < Rein -> (sx, sy) <> (x0, y0) -> all_images (reduced_deflection_angle_sis x0 y0 Rein 0) x0 y0 (sx, sy) l -> let b := separation (sx, sy) (x0, y0) in
  light l = Rmax (1 + Rein / b) (2 * Rein / b) /\ light_centre l = (x0 + Rmin 2 (1 + Rein / b) * (sx - x0), y0 + Rmin 2 (1 + Rein / b) * (sy - y0)) /\ separation (light_centre l) (sx, sy) = Rmin b Rein.
Proof. exact sis_light_sep. Qed.
Print Assumptions C155_light.
(** The closer the source, the brighter. *)
Theorem C155_closer : forall x0 y0 Rein sx sy sx' sy' l l', 0 < Rein -> (sx, sy) <> (x0, y0) -> (sx', sy') <> (x0, y0) -> all_images (reduced_deflection_angle_sis x0 y0 Rein 0) x0 y0 (sx, sy) l ->
  all_images (reduced_deflection_angle_sis x0 y0 Rein 0) x0 y0 (sx', sy') l' -> (sx - x0) ^ 2 + (sy - y0) ^ 2 < (sx' - x0) ^ 2 + (sy' - y0) ^ 2 -> light l' < light l.
Proof. exact sis_closer. Qed.
Print Assumptions C155_closer.
(** The total magnification A gives the distance back: the larger of Rein/(A - 1) and 2 Rein/A. *)
Theorem C155_distance : forall x0 y0 Rein sx sy l, 0 < Rein -> (sx, sy) <> (x0, y0) -> all_images (reduced_deflection_angle_sis x0 y0 Rein 0) x0 y0 (sx, sy) l -> 1 < light l /\ separation (sx, sy) (x0, y0) = Rmax (Rein / (light l - 1)) (2 * Rein / light l).
Proof. exact sis_distance. Qed.
Print Assumptions C155_distance.

(** The hypotheses can be met: an SIS at (1, 2) with Rein = 2 and sources at (2, 2), inside Rein, and (9, 2), outside. *)
Example C155_hyps : (2, 2) <> (1, 2) /\ (9, 2) <> (1, 2) /\ (2 - 1) ^ 2 + (2 - 2) ^ 2 < (9 - 1) ^ 2 + (2 - 2) ^ 2 /\
  (exists l, all_images (reduced_deflection_angle_sis 1 2 2 0) 1 2 (2, 2) l) /\ (exists l, all_images (reduced_deflection_angle_sis 1 2 2 0) 1 2 (9, 2) l).
Proof.
  split; [intros E; injection E; lra|]. split; [intros E; injection E; lra|]. split; [lra|]. split; apply sis_all; try lra; intros E; injection E; lra.
Qed.
