(** * C58-C60: PixelatedConvergence *)
From Coq Require Import Reals Lra Lia Arith String.
From Verif Require Import Py Fsum Interp2_Spec PixConv_Model PixConv_Spec PixConv_Proofs PixConv2_Proofs PixConv3_Proofs.
Local Open Scope R_scope.

(** for every instance, in particular every size, padding and mode; an error does not depend on the map *)
Theorem C58_deflection_linear : forall L x0 y0 u v A B scale x y,
  pc_reduced_deflection_angle L x0 y0 (fun i j => u * A i j + v * B i j) scale x y =
  combined (pair_combo u v) (pc_reduced_deflection_angle L x0 y0 A scale x y) (pc_reduced_deflection_angle L x0 y0 B scale x y).
Proof. exact obj_deflection_lin. Qed.
Print Assumptions C58_deflection_linear.
Theorem C58_potential_linear : forall L x0 y0 u v A B scale x y,
  pc_potential L x0 y0 (fun i j => u * A i j + v * B i j) scale x y =
  combined (fun a b => u * a + v * b) (pc_potential L x0 y0 A scale x y) (pc_potential L x0 y0 B scale x y).
Proof. exact obj_potential_lin. Qed.
Print Assumptions C58_potential_linear.
Theorem C58_deflection_scale : forall L x0 y0 A scale x y,
  pc_reduced_deflection_angle L x0 y0 A scale x y = bind (pc_reduced_deflection_angle L x0 y0 A 1 x y) (fun a => Ok (scale * fst a, scale * snd a)).
Proof. exact obj_deflection_scale. Qed.
Print Assumptions C58_deflection_scale.
Theorem C58_potential_scale : forall L x0 y0 A scale x y,
  pc_potential L x0 y0 A scale x y = bind (pc_potential L x0 y0 A 1 x y) (fun a => Ok (scale * a)).
Proof. exact obj_potential_scale. Qed.
Print Assumptions C58_potential_scale.
Theorem C58_zero_map : forall L x0 y0 A scale x y, (forall i j, A i j = 0) ->
  (forall a, pc_reduced_deflection_angle L x0 y0 A scale x y = Ok a -> a = (0, 0)) /\ (forall p, pc_potential L x0 y0 A scale x y = Ok p -> p = 0).
Proof. exact obj_zero_map. Qed.
Print Assumptions C58_zero_map.
(** the statements above are about values: every documented setting gives one (a 1 by 1 map with reflect or circular padding does not) *)
Theorem C58_defined : forall pixelscale n padding mode window L x0 y0 A scale x y, usable n padding mode ->
  new_pixconv pixelscale 2 (n, n) padding mode window = Ok L ->
  (exists a, pc_reduced_deflection_angle L x0 y0 A scale x y = Ok a) /\ (exists p, pc_potential L x0 y0 A scale x y = Ok p).
Proof. exact obj_total. Qed.
Print Assumptions C58_defined.
Example C58_hyps : usable 3 "reflect" "fft" /\ exists L, new_pixconv (1 / 20) 2 (3, 3)%nat "reflect" "fft" (1 / 8) = Ok L.
Proof. split; [right; split; [reflexivity|right; split; [lia|left; reflexivity]]|apply new_ok; left; reflexivity]. Qed.

(** for every map size and every pixel the deflection at the bright pixel itself points to increasing x and y *)
Theorem C59_refuted : forall n pixelscale window a b x0 y0, (1 <= n)%nat -> 0 < pixelscale -> (a < n)%nat -> (b < n)%nat ->
  exists L ax ay, new_pixconv pixelscale 2 (n, n) "zero" "fft" window = Ok L /\
  pc_reduced_deflection_angle L x0 y0 (bright a b) 1 (pixel_pos x0 (INR n * pixelscale) n b) (pixel_pos y0 (INR n * pixelscale) n a) = Ok (ax, ay) /\
  0 < ax /\ 0 < ay.
Proof. exact bright_own_pixel. Qed.
Print Assumptions C59_refuted.
(** also in the other convolution mode *)
Theorem C59_conv2d_refuted : forall n pixelscale window padding x0 y0, (2 <= n)%nat -> 0 < pixelscale ->
  exists L ax ay, new_pixconv pixelscale 2 (n, n) padding "conv2d" window = Ok L /\
  pc_reduced_deflection_angle L x0 y0 (bright (n - 1) (n - 1)) 1 (pixel_pos x0 (INR n * pixelscale) n (n - 1)) (pixel_pos y0 (INR n * pixelscale) n (n - 1)) = Ok (ax, ay) /\
  0 < ax.
Proof. exact conv_own_positive. Qed.
Print Assumptions C59_conv2d_refuted.
(** what holds instead: every mass acts from a position displaced by (shift n + 1/2) pixels in both directions, where shift n is 0 when
    2n is a fast transform length ... *)
Theorem C59_displaced_partial : forall n pixelscale window L x0 y0 A scale i j, (1 <= n)%nat -> 0 < pixelscale ->
  new_pixconv pixelscale 2 (n, n) "zero" "fft" window = Ok L -> (i < n)%nat -> (j < n)%nat ->
  let fov := INR n * pixelscale in let d := shift n in
  let total f := pixelscale ^ 2 / PI * (scale * fsum n (fun a => fsum n (fun b => if (reach n d i a && reach n d j b)%bool
     then A a b * f (displaced pixelscale d j b) (displaced pixelscale d i a) else 0))) in
  pc_reduced_deflection_angle L x0 y0 A scale (pixel_pos x0 fov n j) (pixel_pos y0 fov n i) = Ok (total point_x, total point_y) /\
  pc_potential L x0 y0 A scale (pixel_pos x0 fov n j) (pixel_pos y0 fov n i) = Ok (total (fun X Y => ln (sqrt (X ^ 2 + Y ^ 2)))).
Proof. exact fft_value. Qed.
Print Assumptions C59_displaced_partial.
Theorem C59_shift_partial : forall n, next_fast_len (2 * n) = (2 * n)%nat -> shift n = 0%nat.
Proof. exact shift_fast. Qed.
Print Assumptions C59_shift_partial.
(** ... and the antisymmetry is about that displaced position *)
Theorem C59_antisymmetric_partial : forall n pixelscale window L x0 y0 a b scale i j i' j', (1 <= n)%nat -> 0 < pixelscale ->
  new_pixconv pixelscale 2 (n, n) "zero" "fft" window = Ok L ->
  (a < n)%nat -> (b < n)%nat -> (i < n)%nat -> (j < n)%nat -> (i' < n)%nat -> (j' < n)%nat ->
  (i + i' + 2 * shift n + 1 = 2 * a)%nat -> (j + j' + 2 * shift n + 1 = 2 * b)%nat ->
  let fov := INR n * pixelscale in exists ax ay,
  pc_reduced_deflection_angle L x0 y0 (bright a b) scale (pixel_pos x0 fov n j) (pixel_pos y0 fov n i) = Ok (ax, ay) /\
  pc_reduced_deflection_angle L x0 y0 (bright a b) scale (pixel_pos x0 fov n j') (pixel_pos y0 fov n i') = Ok (- ax, - ay).
Proof. exact bright_antisymmetric. Qed.
Print Assumptions C59_antisymmetric_partial.
Example C59_hyps : next_fast_len (2 * 4) = 8%nat /\ (1 + 2 + 2 * shift 4 + 1 = 2 * 2)%nat /\ shift 13 = 1%nat /\ exists L, new_pixconv (1 / 20) 2 (4, 4)%nat "zero" "fft" (1 / 8) = Ok L.
Proof. split; [reflexivity|]. split; [reflexivity|]. split; [reflexivity|]. apply new_ok. left. reflexivity. Qed.

(** for every size: a map with one bright corner pixel, seen at the centre of that pixel *)
Theorem C60_refuted : forall n pixelscale window window' x0 y0, (1 <= n)%nat -> 0 < pixelscale ->
  exists Lf Lc ax ay bx b_y, new_pixconv pixelscale 2 (n, n) "zero" "fft" window = Ok Lf /\ new_pixconv pixelscale 2 (n, n) "zero" "conv2d" window' = Ok Lc /\
  let x := pixel_pos x0 (INR n * pixelscale) n 0 in let y := pixel_pos y0 (INR n * pixelscale) n 0 in
  pc_reduced_deflection_angle Lf x0 y0 (bright 0 0) 1 x y = Ok (ax, ay) /\ pc_reduced_deflection_angle Lc x0 y0 (bright 0 0) 1 x y = Ok (bx, b_y) /\ bx <= 0 < ax.
Proof. exact modes_differ. Qed.
Print Assumptions C60_refuted.
(** the two modes hold the same numbers, but conv2d spreads its uncropped array of twice the size over the same field of view *)
Theorem C60_same_numbers_partial : forall n pixelscale window window' Lf Lc x0 y0 A scale i j, (1 <= n)%nat -> 0 < pixelscale ->
  new_pixconv pixelscale 2 (n, n) "zero" "fft" window = Ok Lf -> new_pixconv pixelscale 2 (n, n) "zero" "conv2d" window' = Ok Lc ->
  (i < n)%nat -> (j < n)%nat -> (i + offset n < 2 * n)%nat -> (j + offset n < 2 * n)%nat ->
  let fov := INR n * pixelscale in
  pc_reduced_deflection_angle Lf x0 y0 A scale (pixel_pos x0 fov n j) (pixel_pos y0 fov n i) =
  pc_reduced_deflection_angle Lc x0 y0 A scale (pixel_pos x0 fov (2 * n) (j + offset n)) (pixel_pos y0 fov (2 * n) (i + offset n)) /\
  pc_potential Lf x0 y0 A scale (pixel_pos x0 fov n j) (pixel_pos y0 fov n i) =
  pc_potential Lc x0 y0 A scale (pixel_pos x0 fov (2 * n) (j + offset n)) (pixel_pos y0 fov (2 * n) (i + offset n)).
Proof. exact modes_agree. Qed.
Print Assumptions C60_same_numbers_partial.
(** no pixel is lost when 2n is a fast transform length *)
Theorem C60_offset_partial : forall n, (1 <= n)%nat -> next_fast_len (2 * n) = (2 * n)%nat -> forall i, (i < n)%nat -> (i + offset n < 2 * n)%nat.
Proof. exact offset_fast. Qed.
Print Assumptions C60_offset_partial.
Example C60_hyps : (3 + offset 4 < 2 * 4)%nat /\ (exists L, new_pixconv (1 / 20) 2 (4, 4)%nat "zero" "fft" (1 / 8) = Ok L) /\ (exists L, new_pixconv (1 / 20) 2 (4, 4)%nat "zero" "conv2d" (1 / 8) = Ok L).
Proof. split; [vm_compute; lia|]. split; apply new_ok; [left|right]; reflexivity. Qed.
