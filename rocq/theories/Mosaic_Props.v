(** * C151: fields of view can be cut, joined and binned *)
From Coq Require Import Reals Lra Lia String.
From Verif Require Import Py Fsum Sim_Model Sim_Spec PixMean_Spec PsfEffect_Spec Mosaic_Proofs.
Local Open Scope R_scope.

(** Two LensSource simulators of one scene with the same pixelscale, upsampling, quadrature and PSF, but fields of any size at any place, agree in every pixel whose centre they share, also where the PSF reaches beyond
    one of the fields. *)
Theorem C151_overlap : forall leg ps up lv kr kc psf ray src ll so lo le conv, (1 <= up)%nat -> (1 <= kr)%nat -> (1 <= kc)%nat ->
  forall px py mode chunk x0 y0 px' py' mode' chunk' x0' y0', (1 <= px)%nat -> (1 <= py)%nat -> (1 <= px')%nat -> (1 <= py')%nat -> chunk <> Some 0%nat -> chunk' <> Some 0%nat ->
  (conv = true -> total kr kc psf <> 0 /\ mode_agrees mode px py kr kc /\ mode_agrees mode' px' py' kr kc) -> exists im im',
  call ray (new_sim leg ps px (Some py) up lv mode (kr, kc)) src ll kr kc psf x0 y0 so lo le conv chunk = Ok im /\
  call ray (new_sim leg ps px' (Some py') up lv mode' (kr, kc)) src ll kr kc psf x0' y0' so lo le conv chunk' = Ok im' /\
  rows im = py /\ cols im = px /\ rows im' = py' /\ cols im' = px' /\
  forall i j i' j', (i < py)%nat -> (j < px)%nat -> (i' < py')%nat -> (j' < px')%nat ->
  pixel_centre x0 ps px j = pixel_centre x0' ps px' j' -> pixel_centre y0 ps py i = pixel_centre y0' ps py' i' -> at_ im i j = at_ im' i' j'.
Proof. exact overlap. Qed.
Print Assumptions C151_overlap.
(** The image with pixels k times as large and upsample_factor k times as high is the fine image averaged over blocks of k by k pixels, with the PSF (given on the same sub-pixels) or without. *)
Theorem C151_binned : forall leg ps up lv kr kc psf ray src ll so lo le conv, (1 <= up)%nat -> (1 <= kr)%nat -> (1 <= kc)%nat ->
  forall k px py mode chunk mode' chunk' x0 y0, (1 <= k)%nat -> (1 <= px)%nat -> (1 <= py)%nat -> chunk <> Some 0%nat -> chunk' <> Some 0%nat ->
  (conv = true -> total kr kc psf <> 0 /\ mode_agrees mode px py kr kc /\ mode_agrees mode' (px * k) (py * k) kr kc) -> exists im im',
  call ray (new_sim leg (INR k * ps) px (Some py) (k * up) lv mode (kr, kc)) src ll kr kc psf x0 y0 so lo le conv chunk = Ok im /\
  call ray (new_sim leg ps (px * k) (Some (py * k)%nat) up lv mode' (kr, kc)) src ll kr kc psf x0 y0 so lo le conv chunk' = Ok im' /\
  rows im = py /\ cols im = px /\ rows im' = (py * k)%nat /\ cols im' = (px * k)%nat /\
  forall i j, (i < py)%nat -> (j < px)%nat -> at_ im i j = fsum k (fun a => fsum k (fun b => at_ im' (i * k + a)%nat (j * k + b)%nat)) / INR (k * k).
Proof. exact binned. Qed.
Print Assumptions C151_binned.

(** The hypotheses can be met: a PSF of 3 by 3 ones in conv2d mode; the last column of a field of 4 pixels around 0 is the first of a field of 2 pixels around 2 (pixelscale 1). *)
Example C151_hyps : total 3 3 (fun _ _ => 1) <> 0 /\ mode_agrees "conv2d" 4 4 3 3 /\ mode_agrees "fft" 8 8 3 3 /\ pixel_centre 0 1 4 3 = pixel_centre 2 1 2 0.
Proof.
  split; [unfold total; cbn; lra|]. split; [left; reflexivity|]. split; [right; repeat split; reflexivity|]. unfold pixel_centre. cbn. lra.
Qed.
