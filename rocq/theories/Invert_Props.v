(** * C153: two images and their fluxes give the lens *)
From Coq Require Import Reals Lra.
From Verif Require Import LensBase_Model LensBasic_Model Invert_Spec Invert_Proofs Invert2_Proofs.
Local Open Scope R_scope.

(** Behind an SIS (s = 0) the source is half-way between its two images, Rein is half their separation, and the lens divides the line between them in the ratio of the fluxes, nearer to the fainter image. *)
Theorem C153_sis : forall x0 y0 Rein, 0 < Rein -> forall k S P1 P2 F1 F2, 0 < k -> seen_pair (reduced_deflection_angle_sis x0 y0 Rein 0) x0 y0 k S P1 P2 F1 F2 ->
  0 < F1 /\ 0 < F2 /\ S = ((fst P1 + fst P2) / 2, (snd P1 + snd P2) / 2) /\ Rein = separation P1 P2 / 2 /\ x0 = (F2 * fst P1 + F1 * fst P2) / (F1 + F2) /\ y0 = (F2 * snd P1 + F1 * snd P2) / (F1 + F2).
Proof. exact sis_read. Qed.
Print Assumptions C153_sis.
(** Behind a Point lens (s = 0) the lens divides the line in the ratio of the square roots of the fluxes. *)
Theorem C153_point : forall x0 y0 Rein, 0 < Rein -> forall k S P1 P2 F1 F2, 0 < k -> seen_pair (reduced_deflection_angle_point x0 y0 Rein 0) x0 y0 k S P1 P2 F1 F2 -> let f1 := sqrt F1 in let f2 := sqrt F2 in
  0 < F1 /\ 0 < F2 /\ x0 = (f2 * fst P1 + f1 * fst P2) / (f1 + f2) /\ y0 = (f2 * snd P1 + f1 * snd P2) / (f1 + f2) /\ Rein = separation P1 P2 * sqrt (f1 * f2) / (f1 + f2) /\ S = (fst P1 + fst P2 - x0, snd P1 + snd P2 - y0).
Proof. exact point_read. Qed.
Print Assumptions C153_point.
(** So a fit of an SIS to the positions and fluxes of two images has at most one solution: lens, source and flux of the source are the same. *)
Theorem C153_sis_unique : forall x0 y0 Rein k S x0' y0' Rein' k' S' P1 P2 F1 F2, 0 < Rein -> 0 < Rein' -> 0 < k -> 0 < k' ->
  seen_pair (reduced_deflection_angle_sis x0 y0 Rein 0) x0 y0 k S P1 P2 F1 F2 -> seen_pair (reduced_deflection_angle_sis x0' y0' Rein' 0) x0' y0' k' S' P1 P2 F1 F2 -> x0 = x0' /\ y0 = y0' /\ Rein = Rein' /\ k = k' /\ S = S'.
Proof. exact sis_unique. Qed.
Print Assumptions C153_sis_unique.
(** The same for a Point lens. *)
Theorem C153_point_unique : forall x0 y0 Rein k S x0' y0' Rein' k' S' P1 P2 F1 F2, 0 < Rein -> 0 < Rein' -> 0 < k -> 0 < k' ->
  seen_pair (reduced_deflection_angle_point x0 y0 Rein 0) x0 y0 k S P1 P2 F1 F2 -> seen_pair (reduced_deflection_angle_point x0' y0' Rein' 0) x0' y0' k' S' P1 P2 F1 F2 -> x0 = x0' /\ y0 = y0' /\ Rein = Rein' /\ k = k' /\ S = S'.
Proof. exact point_unique. Qed.
Print Assumptions C153_point_unique.
(** The two fluxes always differ. *)
Theorem C153_unequal : forall x0 y0 Rein k S P1 P2 F1 F2, 0 < Rein -> 0 < k ->
  (seen_pair (reduced_deflection_angle_sis x0 y0 Rein 0) x0 y0 k S P1 P2 F1 F2 -> F1 <> F2) /\ (seen_pair (reduced_deflection_angle_point x0 y0 Rein 0) x0 y0 k S P1 P2 F1 F2 -> F1 <> F2).
Proof. exact (fun x0 y0 Rein k S P1 P2 F1 F2 H K => conj (sis_unequal x0 y0 Rein k S P1 P2 F1 F2 H K) (point_unequal x0 y0 Rein k S P1 P2 F1 F2 H K)). Qed.
Print Assumptions C153_unequal.
(** Any two positions with unequal fluxes are the images of some source behind an SIS and also of one behind a Point lens: positions and fluxes of two images cannot tell these lenses apart. *)
Theorem C153_both_fit : forall P1 P2 F1 F2, P1 <> P2 -> 0 < F1 -> 0 < F2 -> F1 <> F2 ->
  (exists x0 y0 Rein k S, 0 < Rein /\ 0 < k /\ seen_pair (reduced_deflection_angle_sis x0 y0 Rein 0) x0 y0 k S P1 P2 F1 F2) /\
  (exists x0 y0 Rein k S, 0 < Rein /\ 0 < k /\ seen_pair (reduced_deflection_angle_point x0 y0 Rein 0) x0 y0 k S P1 P2 F1 F2).
Proof. exact both_fit. Qed.
Print Assumptions C153_both_fit.
(** But where the lens is seen does: the two fits never have the same centre. *)
Theorem C153_apart : forall x0 y0 Rein k S x0' y0' Rein' k' S' P1 P2 F1 F2, 0 < Rein -> 0 < Rein' -> 0 < k -> 0 < k' ->
  seen_pair (reduced_deflection_angle_sis x0 y0 Rein 0) x0 y0 k S P1 P2 F1 F2 -> seen_pair (reduced_deflection_angle_point x0' y0' Rein' 0) x0' y0' k' S' P1 P2 F1 F2 -> (x0, y0) <> (x0', y0').
Proof. exact fits_apart. Qed.
Print Assumptions C153_apart.

(** The hypotheses can be met: an SIS at (1, 2) with Rein = 2 and a source of flux 3 at distance 1 in the direction (3/5, 4/5); a Point lens at the same place and a source at (4, 6). *)
Example C153_hyps : (exists S P1 P2 F1 F2, seen_pair (reduced_deflection_angle_sis 1 2 2 0) 1 2 3 S P1 P2 F1 F2) /\ (exists P1 P2 F1 F2, seen_pair (reduced_deflection_angle_point 1 2 2 0) 1 2 3 (4, 6) P1 P2 F1 F2).
Proof.
  split; [do 5 eexists; apply (sis_pair_exists 1 2 2 1 (3 / 5) (4 / 5) 3); lra|]. apply point_pair_exists; [lra|]. intros E. injection E. lra.
Qed.
