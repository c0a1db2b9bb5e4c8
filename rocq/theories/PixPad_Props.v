(** * C89-C91: padding, convolution_mode and convergence of PixelatedConvergence *)
From Coq Require Import Reals Lra Lia Arith Bool String.
From Verif Require Import Py Fsum PixMap_Spec PixConv_Model PixConv_Spec PixConv2_Proofs PixPad_Spec PixPad_Proofs.
Local Open Scope R_scope.

(** with "circular" padding, moving the map cyclically does not move the deflection *)
Theorem C89_circular_refuted : exists L, new_pixconv 1 2 (2, 2)%nat "circular" "fft" 0 = Ok L /\
  pc_reduced_deflection_angle L 0 0 (moved 2 1 1 (bright 0 0)) 1 (pixel_pos 0 2 2 1) (pixel_pos 0 2 2 1) <>
  pc_reduced_deflection_angle L 0 0 (bright 0 0) 1 (pixel_pos 0 2 2 0) (pixel_pos 0 2 2 0).
Proof. exact circular_fails. Qed.
Print Assumptions C89_circular_refuted.
(** with "tile" padding neither, when twice the map size is not a fast transform length (here 26, transformed at length 27) *)
Theorem C89_tile_refuted : exists L, new_pixconv 1 2 (13, 13)%nat "tile" "fft" 0 = Ok L /\
  pc_reduced_deflection_angle L 0 0 (moved 13 1 0 (bright 0 0)) 1 (pixel_pos 0 13 13 0) (pixel_pos 0 13 13 0) <>
  pc_reduced_deflection_angle L 0 0 (bright 0 0) 1 (pixel_pos 0 13 13 0) (pixel_pos 0 13 13 1).
Proof. exact tile_fails. Qed.
Print Assumptions C89_tile_refuted.
(** it does with "tile" when it is *)
Theorem C89_tile_partial : forall n pixelscale window L x0 y0 A scale i j u v, (1 <= n)%nat -> 0 < pixelscale ->
  next_fast_len (2 * n) = (2 * n)%nat -> new_pixconv pixelscale 2 (n, n) "tile" "fft" window = Ok L -> (i < n)%nat -> (j < n)%nat ->
  let fov := INR n * pixelscale in let i' := Nat.modulo (i + u) n in let j' := Nat.modulo (j + v) n in
  pc_reduced_deflection_angle L x0 y0 (moved n u v A) scale (pixel_pos x0 fov n j) (pixel_pos y0 fov n i) = pc_reduced_deflection_angle L x0 y0 A scale (pixel_pos x0 fov n j') (pixel_pos y0 fov n i') /\
  pc_potential L x0 y0 (moved n u v A) scale (pixel_pos x0 fov n j) (pixel_pos y0 fov n i) = pc_potential L x0 y0 A scale (pixel_pos x0 fov n j') (pixel_pos y0 fov n i').
Proof. exact tile_moves. Qed.
Print Assumptions C89_tile_partial.
(** what each padding computes: the pull of every mass of the padded map at its periodic displacement, tapered near the edge of the kernel unless the padding is zero *)
Theorem C89_values_partial : forall n pixelscale window padding L x0 y0 A scale i j, (1 <= n)%nat -> 0 < pixelscale -> usable n padding "fft" ->
  new_pixconv pixelscale 2 (n, n) padding "fft" window = Ok L -> (i < n)%nat -> (j < n)%nat ->
  let fov := INR n * pixelscale in let s := next_fast_len (2 * n) in let w := if String.eqb padding "zero" then 0 else window in
  let total f := pixelscale ^ 2 / PI * (scale * fsum s (fun a => fsum s (fun b =>
     match stands_at padding n a, stands_at padding n b, displacement pixelscale n s i a, displacement pixelscale n s j b with
     | Some a', Some b', Some Y, Some X => A a' b' * f X Y | _, _, _, _ => 0 end))) in
  pc_reduced_deflection_angle L x0 y0 A scale (pixel_pos x0 fov n j) (pixel_pos y0 fov n i) =
    Ok (total (fun X Y => taper pixelscale n w X Y * point_x X Y), total (fun X Y => taper pixelscale n w X Y * point_y X Y)) /\
  pc_potential L x0 y0 A scale (pixel_pos x0 fov n j) (pixel_pos y0 fov n i) = Ok (total (fun X Y => ln (sqrt (X ^ 2 + Y ^ 2)))).
Proof. exact (fun n ps w padding => padded_value n ps w padding). Qed.
Print Assumptions C89_values_partial.
Example C89_hyps : next_fast_len (2 * 3) = 6%nat /\ usable 3 "circular" "fft" /\ stands_at "circular" 3 4 = Some 1%nat /\ exists L, new_pixconv (1 / 20) 2 (3, 3)%nat "tile" "fft" (1 / 8) = Ok L.
Proof. split; [reflexivity|]. split; [right; split; [reflexivity|right; split; [lia|right; reflexivity]]|]. split; [reflexivity|]. apply new_ok. left. reflexivity. Qed.

(** C90: the windows of the kernels are those of the mode the object was built with *)
Theorem C90_refuted : exists L L' L'' ax ay ax' ay', new_pixconv 1 2 (1, 1)%nat "tile" "fft" (1 / 8) = Ok L /\
  set_convolution_mode L "conv2d" = Ok L' /\ new_pixconv 1 2 (1, 1)%nat "tile" "conv2d" (1 / 8) = Ok L'' /\
  pc_reduced_deflection_angle L' 0 0 (bright 0 0) 1 (pixel_pos 0 (INR 1 * 1) 2 0) (pixel_pos 0 (INR 1 * 1) 2 0) = Ok (ax, ay) /\ ax = 0 /\
  pc_reduced_deflection_angle L'' 0 0 (bright 0 0) 1 (pixel_pos 0 (INR 1 * 1) 2 0) (pixel_pos 0 (INR 1 * 1) 2 0) = Ok (ax', ay') /\ ax' < 0.
Proof. exact set_mode_fails. Qed.
Print Assumptions C90_refuted.
(** with zero padding, changing the mode gives the object that would have been built *)
Theorem C90_zero_partial : forall pixelscale n mode mode' window L L' L'', new_pixconv pixelscale 2 (n, n) "zero" mode window = Ok L ->
  set_convolution_mode L mode' = Ok L' -> new_pixconv pixelscale 2 (n, n) "zero" mode' window = Ok L'' -> L' = L''.
Proof. exact set_mode_zero. Qed.
Print Assumptions C90_zero_partial.
(** with any padding, changing it back restores the object; exactly the two documented modes are accepted *)
Theorem C90_back_partial : forall pixelscale n padding mode window L mode' L', new_pixconv pixelscale 2 (n, n) padding mode window = Ok L ->
  set_convolution_mode L mode' = Ok L' -> set_convolution_mode L' mode = Ok L.
Proof. exact set_mode_back. Qed.
Print Assumptions C90_back_partial.
Theorem C90_modes_partial : forall L mode, ((exists L', set_convolution_mode L mode = Ok L' /\ pc_mode L' = mode) <-> (mode = "fft" \/ mode = "conv2d")%string) /\
  (~ (mode = "fft" \/ mode = "conv2d")%string -> set_convolution_mode L mode = Raise ValueError).
Proof. intros. split; [apply set_mode_known|apply set_mode_unknown]. Qed.
Print Assumptions C90_modes_partial.
Example C90_hyps : exists L L', new_pixconv 1 2 (3, 3)%nat "zero" "fft" (1 / 8) = Ok L /\ set_convolution_mode L "conv2d" = Ok L'.
Proof. destruct (new_ok 1 3 "zero" "fft" (1 / 8) (or_introl eq_refl)) as [L HL]. exists L. eexists. split; [exact HL|reflexivity]. Qed.

Theorem C91_pixel_centres : forall pixelscale n padding mode window L x0 y0 A scale i j, 0 < pixelscale ->
  new_pixconv pixelscale 2 (n, n) padding mode window = Ok L -> (i < n)%nat -> (j < n)%nat ->
  pc_convergence L x0 y0 A scale (pixel_centre x0 pixelscale n j) (pixel_centre y0 pixelscale n i) = Ok (scale * A i j).
Proof. exact conv_at. Qed.
Print Assumptions C91_pixel_centres.
Theorem C91_outside : forall pixelscale n padding mode window L x0 y0 A scale x y, 0 < pixelscale -> (1 <= n)%nat ->
  new_pixconv pixelscale 2 (n, n) padding mode window = Ok L -> beyond x0 pixelscale n x \/ beyond y0 pixelscale n y ->
  pc_convergence L x0 y0 A scale x y = Ok 0.
Proof. exact conv_outside. Qed.
Print Assumptions C91_outside.
(** between the outermost pixel centres, between the values of the pixels closer than one pixel on both axes *)
Theorem C91_between : forall pixelscale n padding mode window L x0 y0 A scale x y lo hi, 0 < pixelscale -> (1 <= n)%nat ->
  new_pixconv pixelscale 2 (n, n) padding mode window = Ok L ->
  pixel_centre x0 pixelscale n 0 <= x <= pixel_centre x0 pixelscale n (n - 1) -> pixel_centre y0 pixelscale n 0 <= y <= pixel_centre y0 pixelscale n (n - 1) ->
  (forall i j, (i < n)%nat -> (j < n)%nat -> Rabs (pixel_centre y0 pixelscale n i - y) < pixelscale -> Rabs (pixel_centre x0 pixelscale n j - x) < pixelscale -> lo <= scale * A i j <= hi) ->
  exists v, pc_convergence L x0 y0 A scale x y = Ok v /\ lo <= v <= hi.
Proof. exact conv_between. Qed.
Print Assumptions C91_between.
(** the maps it applies to: exactly the square two-dimensional ones *)
Theorem C91_constructor : forall pixelscale ndim rows cols padding mode window,
  (exists L, new_pixconv pixelscale ndim (rows, cols) padding mode window = Ok L) <-> ndim = 2%nat /\ rows = cols /\ (mode = "fft"%string \/ mode = "conv2d"%string).
Proof. exact constructor. Qed.
Print Assumptions C91_constructor.
Example C91_hyps : (exists L, new_pixconv (1 / 2) 2 (3, 3)%nat "zero" "fft" (1 / 8) = Ok L) /\ pixel_centre 0 (1 / 2) 3 0 <= 1 / 8 <= pixel_centre 0 (1 / 2) 3 2 /\ beyond 0 (1 / 2) 3 2.
Proof. split; [apply new_ok; left; reflexivity|]. unfold pixel_centre, beyond. cbn [INR]. split; [split; lra|right; lra]. Qed.
