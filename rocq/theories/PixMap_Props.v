(** * C63, C72: interpolated maps *)
From Coq Require Import Reals Lra Lia String.
From Verif Require Import Py Interp2_Spec PixMap_Model PixMap_Spec PixMap_Proofs.
Local Open Scope R_scope.

Theorem C63_pixel_centres : forall h w image x0 y0 pixelscale scale padding i j, 0 < pixelscale -> is_padding2 padding -> (i < h)%nat -> (j < w)%nat ->
  px_brightness 2 h w image x0 y0 pixelscale scale padding (pixel_centre x0 pixelscale w j) (pixel_centre y0 pixelscale h i) = Ok (scale * image i j).
Proof. exact px_centre. Qed.
Print Assumptions C63_pixel_centres.
Theorem C63_outside : forall h w image x0 y0 pixelscale scale x y, (1 <= h)%nat -> (1 <= w)%nat -> 0 < pixelscale ->
  beyond x0 pixelscale w x \/ beyond y0 pixelscale h y -> px_brightness 2 h w image x0 y0 pixelscale scale "zeros" x y = Ok 0.
Proof. exact px_outside. Qed.
Print Assumptions C63_outside.
Theorem C63_time_centres : forall d h w cube x0 y0 pixelscale t_end scale k i j, 0 < pixelscale -> 0 < t_end -> (k < d)%nat -> (i < h)%nat -> (j < w)%nat ->
  pt_brightness 3 d h w cube x0 y0 pixelscale t_end scale (pixel_centre x0 pixelscale w j) (pixel_centre y0 pixelscale h i) ((INR k + 1 / 2) * t_end / INR d) =
  Ok (scale * cube k i j).
Proof. exact pt_centre. Qed.
Print Assumptions C63_time_centres.
Theorem C63_time_outside : forall d h w cube x0 y0 pixelscale t_end scale x y t, (1 <= d)%nat -> (1 <= h)%nat -> (1 <= w)%nat -> 0 < pixelscale -> 0 < t_end ->
  beyond x0 pixelscale w x \/ beyond y0 pixelscale h y \/ t < 0 \/ t_end < t -> pt_brightness 3 d h w cube x0 y0 pixelscale t_end scale x y t = Ok 0.
Proof. exact pt_outside. Qed.
Print Assumptions C63_time_outside.
(** a 2 by 3 image centred at (1, -1): a pixel on each side and a point outside *)
Example C63_hyps : is_padding2 "clamp" /\ pixel_centre 1 (1 / 2) 3 0 = 1 / 2 /\ pixel_centre (-1) (1 / 2) 2 1 = - (3 / 4) /\ beyond 1 (1 / 2) 3 2 /\ ~ beyond 1 (1 / 2) 3 (3 / 2).
Proof.
  unfold is_padding2, pixel_centre, beyond. cbn [INR]. split; [tauto|]. split; [lra|]. split; [lra|]. split; [right; lra|]. intros [H|H]; lra.
Qed.

Theorem C72_pixel_centres : forall h w deflection_map x0 y0 pixelscale i j, 0 < pixelscale -> (i < h)%nat -> (j < w)%nat ->
  pd_reduced_deflection_angle h w deflection_map x0 y0 pixelscale (pixel_centre x0 pixelscale w j) (pixel_centre y0 pixelscale h i) =
  Ok (deflection_map 0%nat i j, deflection_map 1%nat i j).
Proof. exact pd_centre. Qed.
Print Assumptions C72_pixel_centres.
Theorem C72_outside : forall h w deflection_map x0 y0 pixelscale x y, (1 <= h)%nat -> (1 <= w)%nat -> 0 < pixelscale ->
  beyond x0 pixelscale w x \/ beyond y0 pixelscale h y -> pd_reduced_deflection_angle h w deflection_map x0 y0 pixelscale x y = Ok (0, 0).
Proof. exact pd_outside. Qed.
Print Assumptions C72_outside.
Theorem C72_refused : forall x y, pd_potential x y = Raise NotImplementedError /\ pd_convergence x y = Raise NotImplementedError.
Proof. exact pd_refused. Qed.
Print Assumptions C72_refused.
(** the map has to be given with its two components along the first of three axes *)
Theorem C72_shape : forall ndim, (new_pixelated_deflection ndim = Ok tt <-> ndim = 3%nat) /\ (ndim <> 3%nat -> new_pixelated_deflection ndim = Raise ValueError).
Proof. exact pd_shape. Qed.
Print Assumptions C72_shape.
Example C72_hyps : pixel_centre 0 1 4 3 = 3 / 2 /\ pixel_centre 0 1 3 1 = 0 /\ beyond 0 1 4 (- (9 / 4)).
Proof. unfold pixel_centre, beyond. cbn [INR]. split; [lra|]. split; [lra|]. left; lra. Qed.

(** the constructors also accept images with a channel axis, which no query can be evaluated on *)
Theorem C79_refuted : forall h w image x0 y0 pixelscale scale padding x y,
  new_pixelated 3 = Ok tt /\ px_brightness 3 h w image x0 y0 pixelscale scale padding x y = Raise ValueError.
Proof. exact px_channels. Qed.
Print Assumptions C79_refuted.
Theorem C79_time_refuted : forall d h w cube x0 y0 pixelscale t_end scale x y t,
  new_pixelated_time 4 = Ok tt /\ pt_brightness 4 d h w cube x0 y0 pixelscale t_end scale x y t = Raise ValueError.
Proof. exact pt_channels. Qed.
Print Assumptions C79_time_refuted.
(** without a channel axis every query has a value *)
Theorem C79_partial : forall h w image x0 y0 pixelscale scale padding x y, is_padding2 padding ->
  new_pixelated 2 = Ok tt /\ exists v, px_brightness 2 h w image x0 y0 pixelscale scale padding x y = Ok v.
Proof. exact px_plain. Qed.
Print Assumptions C79_partial.
Example C79_hyps : is_padding2 "extrapolate".
Proof. left; reflexivity. Qed.
