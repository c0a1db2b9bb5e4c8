(** * C65-C68, C80: LensSource *)
From Coq Require Import Reals Lra Lia Arith List String.
From Verif Require Import Py Fsum Quad_Model Quad_Spec PixConv_Model PixConv_Spec PixConv_Proofs Sim_Model Sim_Spec Sim_Proofs Sim2_Proofs.
Import ListNotations.
Local Open Scope R_scope.

(** a constant scene, with the PSF in conv2d mode on any field, or in fft mode on a square field with a PSF of equal half widths, or a 1 x 1 PSF *)
Theorem C65_constant_partial : forall leg ps px py up lv kr kc psf ray src ll x0 y0 so lo le chunk,
  (1 <= px)%nat -> (1 <= py)%nat -> (1 <= up)%nat -> (1 <= kr)%nat -> (1 <= kc)%nat -> chunk <> Some 0%nat ->
  forall mode conv k, fsum kr (fun u => fsum kc (psf u)) <> 0 ->
  mode = "conv2d"%string \/ (mode = "fft"%string /\ px = py /\ (kr / 2 = kc / 2)%nat) \/ (kr = 1%nat /\ kc = 1%nat) ->
  rules_ok leg lv -> (forall x y, scene_brightness ray src ll so lo le x y = k) ->
  exists im, call ray (new_sim leg ps px (Some py) up lv mode (kr, kc)) src ll kr kc psf x0 y0 so lo le conv chunk = Ok im /\ rows im = py /\ cols im = px /\
  forall i j, (i < py)%nat -> (j < px)%nat -> at_ im i j = k.
Proof. exact new_constant. Qed.
Print Assumptions C65_constant_partial.
(** without PSF, in every mode *)
Theorem C65_no_psf : forall leg ps px py up lv kr kc psf ray src ll x0 y0 so lo le chunk,
  (1 <= px)%nat -> (1 <= py)%nat -> (1 <= up)%nat -> (1 <= kr)%nat -> (1 <= kc)%nat -> chunk <> Some 0%nat ->
  forall mode k, rules_ok leg lv -> (forall x y, scene_brightness ray src ll so lo le x y = k) ->
  exists im, call ray (new_sim leg ps px (Some py) up lv mode (kr, kc)) src ll kr kc psf x0 y0 so lo le false chunk = Ok im /\ rows im = py /\ cols im = px /\
  forall i j, (i < py)%nat -> (j < px)%nat -> at_ im i j = k.
Proof. exact new_constant_off. Qed.
Print Assumptions C65_no_psf.
(** false with the default fft mode on every square field of at least 2 x 2 pixels for a PSF of 3 rows and 1 column: the last pixel of the first row is 0 whatever the scene *)
Theorem C65_refuted : forall leg ps n psf ray src ll x0 y0 so lo le chunk k, (2 <= n)%nat -> chunk <> Some 0%nat -> k <> 0 -> exists im,
  call ray (new_sim leg ps n None 1 None "fft" (3, 1)%nat) src ll 3 1 psf x0 y0 so lo le true chunk = Ok im /\ (0 < rows im)%nat /\ (n - 1 < cols im)%nat /\ at_ im 0 (n - 1) <> k.
Proof. exact fft_not_constant. Qed.
Print Assumptions C65_refuted.
(** two-point rule, two sub-pixels, Gaussian-like even PSF, constant source 3 and lens light 4 *)
Example C65_hyps : let leg := fun _ : nat => (fun i : nat => match i with 0%nat => - / sqrt 3 | _ => / sqrt 3 end, fun _ : nat => 1) in
  rules_ok leg None /\ fsum 3 (fun u => fsum 2 (fun v => INR (u + v) + 1)) <> 0 /\ (3 / 2 = 2 / 2)%nat /\
  forall x y, scene_brightness (fun x y => (x * x, y)) (Some (fun _ _ => 3)) (Some (fun _ _ => 4)) true true true x y = 7.
Proof. repeat split; [cbn; lra|intros; unfold scene_brightness; cbn; ring]. Qed.

(** every pixel is the mean over its sub-pixels of the plain convolution of the scene with the normalised PSF centred on its middle pixel; in particular nothing wraps around *)
Theorem C66_conv2d : forall leg ps px py up lv kr kc psf ray src ll x0 y0 so lo le chunk,
  (1 <= px)%nat -> (1 <= py)%nat -> (1 <= up)%nat -> (1 <= kr)%nat -> (1 <= kc)%nat -> chunk <> Some 0%nat ->
  fsum kr (fun u => fsum kc (psf u)) <> 0 ->
  exists im, call ray (new_sim leg ps px (Some py) up lv "conv2d" (kr, kc)) src ll kr kc psf x0 y0 so lo le true chunk = Ok im /\ rows im = py /\ cols im = px /\
  forall i j, (i < py)%nat -> (j < px)%nat ->
  at_ im i j = pixel_value up px py x0 y0 (ps / INR up) (blurred kr kc psf (ps / INR up) (sub_mean leg lv (scene_brightness ray src ll so lo le) (ps / INR up))) i j.
Proof. exact new_conv2d. Qed.
Print Assumptions C66_conv2d.
Theorem C66_fft_partial : forall leg ps px py up lv kr kc psf ray src ll x0 y0 so lo le chunk,
  (1 <= px)%nat -> (1 <= py)%nat -> (1 <= up)%nat -> (1 <= kr)%nat -> (1 <= kc)%nat -> chunk <> Some 0%nat ->
  fsum kr (fun u => fsum kc (psf u)) <> 0 -> px = py -> (kr / 2 = kc / 2)%nat ->
  exists im, call ray (new_sim leg ps px (Some py) up lv "fft" (kr, kc)) src ll kr kc psf x0 y0 so lo le true chunk = Ok im /\ rows im = py /\ cols im = px /\
  forall i j, (i < py)%nat -> (j < px)%nat ->
  at_ im i j = pixel_value up px py x0 y0 (ps / INR up) (blurred kr kc psf (ps / INR up) (sub_mean leg lv (scene_brightness ray src ll so lo le) (ps / INR up))) i j.
Proof. exact new_fft. Qed.
Print Assumptions C66_fft_partial.
(** the image before the PSF, the PSF being switched off *)
Theorem C66_no_psf : forall leg ps px py up lv kr kc psf ray src ll x0 y0 so lo le chunk,
  (1 <= px)%nat -> (1 <= py)%nat -> (1 <= up)%nat -> (1 <= kr)%nat -> (1 <= kc)%nat -> chunk <> Some 0%nat -> forall mode,
  exists im, call ray (new_sim leg ps px (Some py) up lv mode (kr, kc)) src ll kr kc psf x0 y0 so lo le false chunk = Ok im /\ rows im = py /\ cols im = px /\
  forall i j, (i < py)%nat -> (j < px)%nat ->
  at_ im i j = pixel_value up px py x0 y0 (ps / INR up) (sub_mean leg lv (scene_brightness ray src ll so lo le) (ps / INR up)) i j.
Proof. exact new_plain. Qed.
Print Assumptions C66_no_psf.
(** the modes differ on square fields when the PSF has different half widths, and on fields that are not square *)
Theorem C66_refuted : forall leg ps n, (2 <= n)%nat -> exists im1 im2, let one := Some (fun _ _ : R => 1) in
  call (fun x y => (x, y)) (new_sim leg ps n None 1 None "fft" (3, 1)%nat) one None 3 1 (fun _ _ => 1) 0 0 true true true true None = Ok im1 /\
  call (fun x y => (x, y)) (new_sim leg ps n None 1 None "conv2d" (3, 1)%nat) one None 3 1 (fun _ _ => 1) 0 0 true true true true None = Ok im2 /\
  (0 < rows im1)%nat /\ (0 < rows im2)%nat /\ cols im1 = n /\ cols im2 = n /\ at_ im1 0 (n - 1) = 0 /\ at_ im2 0 (n - 1) = 1.
Proof. exact modes_differ. Qed.
Print Assumptions C66_refuted.
Theorem C66_field_refuted : forall leg psf ray src ll x0 y0 so lo le chunk, chunk <> Some 0%nat -> fsum 3 (fun u => fsum 3 (psf u)) <> 0 -> exists im1 im2,
  call ray (new_sim leg 1 4 (Some 8%nat) 1 None "fft" (3, 3)%nat) src ll 3 3 psf x0 y0 so lo le true chunk = Ok im1 /\
  call ray (new_sim leg 1 4 (Some 8%nat) 1 None "conv2d" (3, 3)%nat) src ll 3 3 psf x0 y0 so lo le true chunk = Ok im2 /\ rows im1 = 5%nat /\ rows im2 = 8%nat.
Proof. exact tall_differ. Qed.
Print Assumptions C66_field_refuted.
Example C66_hyps : fsum 5 (fun u => fsum 4 (fun v => INR (u * v) + 1)) <> 0 /\ (5 / 2 = 4 / 2)%nat /\ (Some 3%nat <> Some 0%nat).
Proof. split; [cbn; lra|]. split; [reflexivity|discriminate]. Qed.

Theorem C67_shape_partial : forall leg ps px py up lv kr kc psf ray src ll x0 y0 so lo le chunk,
  (1 <= px)%nat -> (1 <= py)%nat -> (1 <= up)%nat -> (1 <= kr)%nat -> (1 <= kc)%nat -> chunk <> Some 0%nat -> forall mode conv,
  fsum kr (fun u => fsum kc (psf u)) <> 0 -> conv = false \/ mode = "conv2d"%string \/ (kr = 1%nat /\ kc = 1%nat) \/ (mode = "fft"%string /\ px = py /\ (kr / 2 = kc / 2)%nat) ->
  exists im, call ray (new_sim leg ps px (Some py) up lv mode (kr, kc)) src ll kr kc psf x0 y0 so lo le conv chunk = Ok im /\ rows im = py /\ cols im = px.
Proof. exact new_shape_ok. Qed.
Print Assumptions C67_shape_partial.
(** in fft mode the shape is right exactly when the padded transform of the other axis happens to be long enough *)
Theorem C67_fft_shape : forall leg ps px py up lv kr kc psf ray src ll x0 y0 so lo le chunk,
  (1 <= px)%nat -> (1 <= py)%nat -> (1 <= up)%nat -> (1 <= kr)%nat -> (1 <= kc)%nat -> chunk <> Some 0%nat -> (kr <> 1 \/ kc <> 1)%nat ->
  (exists im, call ray (new_sim leg ps px (Some py) up lv "fft" (kr, kc)) src ll kr kc psf x0 y0 so lo le true chunk = Ok im /\ rows im = py /\ cols im = px) <->
  (py * up + kr / 2 <= next_fast_len (px * up + 2 * (kc / 2)) /\ px * up + kc / 2 <= next_fast_len (py * up + 2 * (kr / 2)))%nat.
Proof. exact new_fft_shape. Qed.
Print Assumptions C67_fft_shape.
Theorem C67_refuted : exists ps px py up kr kc, (1 <= px)%nat /\ (1 <= py)%nat /\ (1 <= up)%nat /\ (1 <= kr)%nat /\ (1 <= kc)%nat /\
  forall leg psf ray src ll x0 y0 so lo le chunk, chunk <> Some 0%nat -> exists im,
  call ray (new_sim leg ps px (Some py) up None "fft" (kr, kc)) src ll kr kc psf x0 y0 so lo le true chunk = Ok im /\ rows im <> py.
Proof.
  exists 1, 4%nat, 8%nat, 1%nat, 3%nat, 3%nat. repeat split; try lia. intros leg psf ray src ll x0 y0 so lo le chunk C.
  destruct (tall_shape leg psf ray src ll x0 y0 so lo le chunk C) as (im & E & H & _). exists im. split; [exact E|]. rewrite H. discriminate.
Qed.
Print Assumptions C67_refuted.
Example C67_hyps : (6 * 2 + 5 / 2 <= next_fast_len (7 * 2 + 2 * (4 / 2)) /\ 7 * 2 + 4 / 2 <= next_fast_len (6 * 2 + 2 * (5 / 2)))%nat.
Proof. split; vm_compute; lia. Qed.

(** in any state of the simulator, in every mode and for every shape *)
Theorem C68_additive : forall ray S src ll kr kc psf x0 y0 so lo le conv chunk, chunk <> Some 0%nat ->
  call ray S src ll kr kc psf x0 y0 so lo le conv chunk =
  combined (img_combo 1 1) (call ray S src ll kr kc psf x0 y0 so false le conv chunk) (call ray S src ll kr kc psf x0 y0 false lo le conv chunk).
Proof. exact call_additive. Qed.
Print Assumptions C68_additive.
Theorem C68_both_off : forall ray S src ll kr kc psf x0 y0 le conv chunk im, call ray S src ll kr kc psf x0 y0 false false le conv chunk = Ok im -> forall i j, at_ im i j = 0.
Proof. exact call_off. Qed.
Print Assumptions C68_both_off.
Theorem C68_linear : forall ray S u v s1 s2 s l1 l2 l kr kc psf x0 y0 so lo le conv chunk, chunk <> Some 0%nat -> light_combo u v s1 s2 s -> light_combo u v l1 l2 l ->
  call ray S s l kr kc psf x0 y0 so lo le conv chunk =
  combined (img_combo u v) (call ray S s1 l1 kr kc psf x0 y0 so lo le conv chunk) (call ray S s2 l2 kr kc psf x0 y0 so lo le conv chunk).
Proof. exact call_linear. Qed.
Print Assumptions C68_linear.
Theorem C68_no_deflection : forall ray S src ll kr kc psf x0 y0 so lo conv chunk, chunk <> Some 0%nat -> (forall x y, ray x y = (x, y)) ->
  call ray S src ll kr kc psf x0 y0 so lo true conv chunk = call ray S src ll kr kc psf x0 y0 so lo false conv chunk.
Proof. exact call_no_deflection. Qed.
Print Assumptions C68_no_deflection.
Theorem C68_psf_scale : forall ray S src ll kr kc psf k x0 y0 so lo le conv chunk, k <> 0 -> fsum kr (fun u => fsum kc (psf u)) <> 0 ->
  call ray S src ll kr kc (fun i j => k * psf i j) x0 y0 so lo le conv chunk = call ray S src ll kr kc psf x0 y0 so lo le conv chunk.
Proof. exact call_psf_scaled. Qed.
Print Assumptions C68_psf_scale.
Theorem C68_chunk : forall ray S src ll kr kc psf x0 y0 so lo le conv n, (1 <= n)%nat ->
  call ray S src ll kr kc psf x0 y0 so lo le conv (Some n) = call ray S src ll kr kc psf x0 y0 so lo le conv None.
Proof. exact call_chunk. Qed.
Print Assumptions C68_chunk.
Example C68_hyps : light_combo 2 3 (Some (fun x y => x)) (Some (fun x y => y * y)) (Some (fun x y => 2 * x + 3 * (y * y))) /\ light_combo 2 3 None None None.
Proof. split; [intros x y; reflexivity|exact I]. Qed.

(** after any assignments to the settings, accepted or refused, the simulator is the one built from scratch with the last accepted value of each *)
Theorem C80_setters : forall leg l ps px py up quad mode shape,
  fold_left (assign leg) l (new_sim leg ps px (Some py) up quad mode shape) =
  new_sim leg (latest new_scale ps l) (latest new_x px l) (Some (latest new_y py l)) (latest new_up up l) (latest new_quad quad l) (latest new_mode mode l) (latest new_shape shape l).
Proof. exact setters. Qed.
Print Assumptions C80_setters.
(** refused values *)
Theorem C80_refused : forall leg S, set leg S (SetUpsample 0) = Raise AssertionError /\ set leg S (SetQuad (Some 0%nat)) = Raise AssertionError /\
  forall m, m <> "fft"%string -> m <> "conv2d"%string -> set leg S (SetMode m) = Raise AssertionError.
Proof. exact set_refused. Qed.
Print Assumptions C80_refused.
Example C80_hyps : latest new_x 3%nat [SetX 5; SetUpsample 0; SetX 7; SetY 2] = 7%nat /\ latest new_up 1%nat [SetUpsample 4; SetUpsample 0] = 4%nat.
Proof. split; reflexivity. Qed.
