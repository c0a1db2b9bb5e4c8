(** * C85: images and magnifications of SIS and Point lenses *)
From Coq Require Import Reals Lra.
From Verif Require Import LensBase_Model LensBasic_Model Images_Proofs.
Open Scope R_scope.

(** A lens at (x0, y0) without softening; the source at distance b > 0 in the direction (c, s).
    SIS: the images (off the centre) are at b + Rein and, only when b < Rein, at b - Rein along that direction *)
Theorem C85_sis_images : forall x0 y0 Rein, 0 < Rein -> forall b c s, 0 < b -> c ^ 2 + s ^ 2 = 1 -> forall x y, (x <> x0 \/ y <> y0) ->
  (raytrace (reduced_deflection_angle_sis x0 y0 Rein 0) x y = (x0 + b * c, y0 + b * s) <->
   (x = x0 + (b + Rein) * c /\ y = y0 + (b + Rein) * s) \/ (b < Rein /\ x = x0 + (b - Rein) * c /\ y = y0 + (b - Rein) * s)).
Proof. exact sis_images. Qed.
Print Assumptions C85_sis_images.
(** and are magnified Rein/b + 1 and Rein/b - 1 times: 2 Rein/b in all *)
Theorem C85_sis_magnifications : forall x0 y0 Rein, 0 < Rein -> forall b c s, 0 < b -> c ^ 2 + s ^ 2 = 1 -> b < Rein ->
  magnification (reduced_deflection_angle_sis x0 y0 Rein 0) (x0 + (b + Rein) * c) (y0 + (b + Rein) * s) = Some (Rein / b + 1) /\
  magnification (reduced_deflection_angle_sis x0 y0 Rein 0) (x0 + (b - Rein) * c) (y0 + (b - Rein) * s) = Some (Rein / b - 1).
Proof. exact sis_image_mags. Qed.
Print Assumptions C85_sis_magnifications.
(** Point: always the two images (b +- sqrt (b^2 + 4 Rein^2)) / 2 *)
Theorem C85_point_images : forall x0 y0 Rein, 0 < Rein -> forall b c s, 0 < b -> c ^ 2 + s ^ 2 = 1 -> forall x y, (x <> x0 \/ y <> y0) ->
  (raytrace (reduced_deflection_angle_point x0 y0 Rein 0) x y = (x0 + b * c, y0 + b * s) <->
   (x = x0 + (b + sqrt (b ^ 2 + 4 * Rein ^ 2)) / 2 * c /\ y = y0 + (b + sqrt (b ^ 2 + 4 * Rein ^ 2)) / 2 * s) \/
   (x = x0 + (b - sqrt (b ^ 2 + 4 * Rein ^ 2)) / 2 * c /\ y = y0 + (b - sqrt (b ^ 2 + 4 * Rein ^ 2)) / 2 * s)).
Proof. exact point_images. Qed.
Print Assumptions C85_point_images.
(** with the classical total magnification (u^2 + 2) / (u sqrt (u^2 + 4)), u = b / Rein, and difference 1 *)
Theorem C85_point_magnifications : forall x0 y0 Rein, 0 < Rein -> forall b c s, 0 < b -> c ^ 2 + s ^ 2 = 1 -> exists m1 m2,
  magnification (reduced_deflection_angle_point x0 y0 Rein 0) (x0 + (b + sqrt (b ^ 2 + 4 * Rein ^ 2)) / 2 * c) (y0 + (b + sqrt (b ^ 2 + 4 * Rein ^ 2)) / 2 * s) = Some m1 /\
  magnification (reduced_deflection_angle_point x0 y0 Rein 0) (x0 + (b - sqrt (b ^ 2 + 4 * Rein ^ 2)) / 2 * c) (y0 + (b - sqrt (b ^ 2 + 4 * Rein ^ 2)) / 2 * s) = Some m2 /\
  m1 + m2 = ((b / Rein) ^ 2 + 2) / ((b / Rein) * sqrt ((b / Rein) ^ 2 + 4)) /\ m1 - m2 = 1.
Proof. exact point_image_mags. Qed.
Print Assumptions C85_point_magnifications.
(** the Einstein ring of either lens, and only it, is infinitely magnified *)
Theorem C85_einstein_ring : forall x0 y0 Rein, 0 < Rein -> forall x y, (x <> x0 \/ y <> y0) ->
  (magnification (reduced_deflection_angle_sis x0 y0 Rein 0) x y = None <-> (x - x0) ^ 2 + (y - y0) ^ 2 = Rein ^ 2) /\
  (magnification (reduced_deflection_angle_point x0 y0 Rein 0) x y = None <-> (x - x0) ^ 2 + (y - y0) ^ 2 = Rein ^ 2).
Proof. exact einstein_ring. Qed.
Print Assumptions C85_einstein_ring.
Example C85_hyps : 0 < 2 /\ 0 < 1 /\ (3 / 5) ^ 2 + (4 / 5) ^ 2 = 1 /\ 1 < 2.
Proof. lra. Qed.
