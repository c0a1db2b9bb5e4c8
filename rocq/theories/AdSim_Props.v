(** * C114: the derivatives of a simulated image *)
From Coq Require Import Reals Lra Lia Arith List String.
From Coquelicot Require Import Coquelicot.
From Verif Require Import RealFun Py Geo_Model LensBase_Model LensBasic_Model Light_Model Sim_Model Ad_Model Ad_Spec Rev_Model Rev_Spec AdSim_Model AdSim_Spec AdSim2_Proofs AdSim3_Proofs AdSim4_Proofs.
Import ListNotations.
Local Open Scope R_scope.

(** whatever is differentiated, and whatever lens and lights: if the light of every sample is differentiated exactly, so is every pixel *)
Theorem C114_any_scene : forall (a : nat -> R) (seed : nat -> option R) (S : sim) (ray : (nat -> R) -> R -> R -> R * R) (t_ray : expr -> expr -> expr * expr)
  (X0 Y0 : (nat -> R) -> R) (x0 y0 : expr) (src ll : option ((nat -> R) -> R -> R -> R)) (t_src t_ll : option t_light) (source_on lens_on lensed : bool) (chunk : option nat)
  (kr kc : nat) (psf : (nat -> R) -> nat -> nat -> R) (t_psf : nat -> nat -> expr) (psf_convolve : bool),
  let Exact F t := ad_exact F t a seed in
  chunk <> Some 0%nat ->
  light_follows Exact ray t_ray S X0 Y0 x0 y0 src t_src source_on lensed ->
  light_follows Exact ray t_ray S X0 Y0 x0 y0 ll t_ll lens_on false ->
  psf_follows Exact a kr kc psf t_psf psf_convolve ->
  image_follows Exact (fun b => call (ray b) S (at_env src b) (at_env ll b) kr kc (psf b) (X0 b) (Y0 b) source_on lens_on lensed psf_convolve chunk)
    (t_call t_ray S t_src t_ll kr kc t_psf x0 y0 source_on lens_on lensed psf_convolve chunk).
Proof. exact any_scene. Qed.
Print Assumptions C114_any_scene.
(** the same for backpropagation from any pixel *)
Theorem C114_any_scene_backward : forall (a : nat -> R) (req : nat -> bool) (S : sim) (ray : (nat -> R) -> R -> R -> R * R) (t_ray : expr -> expr -> expr * expr)
  (X0 Y0 : (nat -> R) -> R) (x0 y0 : expr) (src ll : option ((nat -> R) -> R -> R -> R)) (t_src t_ll : option t_light) (source_on lens_on lensed : bool) (chunk : option nat)
  (kr kc : nat) (psf : (nat -> R) -> nat -> nat -> R) (t_psf : nat -> nat -> expr) (psf_convolve : bool),
  let Both F t := both_ways F t a req in
  chunk <> Some 0%nat ->
  light_follows Both ray t_ray S X0 Y0 x0 y0 src t_src source_on lensed ->
  light_follows Both ray t_ray S X0 Y0 x0 y0 ll t_ll lens_on false ->
  psf_follows Both a kr kc psf t_psf psf_convolve ->
  image_follows (fun F t => grad_exact F t a req) (fun b => call (ray b) S (at_env src b) (at_env ll b) kr kc (psf b) (X0 b) (Y0 b) source_on lens_on lensed psf_convolve chunk)
    (t_call t_ray S t_src t_ll kr kc t_psf x0 y0 source_on lens_on lensed psf_convolve chunk).
Proof. exact any_scene_backward. Qed.
Print Assumptions C114_any_scene_backward.
(** An isothermal ellipsoid in front of a Sersic source, with Sersic light of its own.  The derivative of every pixel with respect to any
    parameter of the lens and of the lights, the position of the image and any pixel of the PSF is exact, provided that no sample is at the centre of the
    unsoftened lens or of its light, and no ray ends at the centre of the source *)
Theorem C114_sie_sersic : forall (leg : nat -> (nat -> R) * (nat -> R)) (c : settings) (a : nat -> R) (seed : nat -> option R) (req : nat -> bool) (k_mode k_mode' : bool) (s s_src s_ll : R)
  (source_on lens_on lensed psf_convolve : bool) (chunk : option nat) (kr kc : nat),
  let S := rebuilt leg c in
  chunk <> Some 0%nat -> 0 <= s -> 0 <= s_src -> 0 <= s_ll -> 0 < a 4%nat <= 1 -> sersic_fine 7 a -> sersic_fine 14 a ->
  at_samples S (fun gx gy => let x := gx + a 0%nat in let y := gy + a 1%nat in
    ((x <> a 2%nat \/ y <> a 3%nat) \/ 0 < s) /\
    (let p := if lensed then sie_lens s a x y else (x, y) in fst p <> a 7%nat \/ snd p <> a 8%nat) /\
    (x <> a 14%nat \/ y <> a 15%nat)) ->
  psf_sum kr kc (free_psf kc a) <> 0 ->
  let image b := call (sie_lens s b) S (Some (sersic_light k_mode s_src 7 b)) (Some (sersic_light k_mode' s_ll 14 b)) kr kc (free_psf kc b) (b 0%nat) (b 1%nat) source_on lens_on lensed psf_convolve chunk in
  let program := t_call (t_sie_lens s) S (Some (t_sersic_light k_mode s_src 7)) (Some (t_sersic_light k_mode' s_ll 14)) kr kc (t_free_psf kc) (Var 0) (Var 1) source_on lens_on lensed psf_convolve chunk in
  (a 4%nat < 1 \/ seed 4%nat = None -> image_follows (fun F t => ad_exact F t a seed) image program) /\
  (a 4%nat < 1 \/ req 4%nat = false -> image_follows (fun F t => grad_exact F t a req) image program).
Proof. exact sie_sersic_image. Qed.
Print Assumptions C114_sie_sersic.
(** A sample exactly at the centre of the light of the lens, softened or not: with a PSF applied by Fourier transform, the derivative of every pixel of
    the image with respect to the position of that light is NaN; backpropagation does not give a number either *)
Theorem C114_sample_at_centre_fft : forall (leg : nat -> (nat -> R) * (nat -> R)) (c : settings) (t_ray : expr -> expr -> expr * expr) (t_src : option t_light) (source_on lensed : bool) (chunk : option nat)
  (kr kc : nat) (t_psf : nat -> nat -> expr) (a : nat -> R) (k_mode : bool) (s : R) (i j k : nat) (seed : nat -> option R) (req : nat -> bool) (T : timage),
  let S := rebuilt leg c in
  chunk <> Some 0%nat -> (i < snd (n_pix (bld S)))%nat -> (j < fst (n_pix (bld S)))%nat -> (k < depth (bld S))%nat -> a 16%nat <> 0 ->
  grid_x (bld S) i j k + a 0%nat = a 14%nat -> grid_y (bld S) i j k + a 1%nat = a 15%nat ->
  seed 14%nat <> None -> req 14%nat = true ->
  pixels_x c = pixels_y c -> (fst (psf_shape c) / 2 = snd (psf_shape c) / 2)%nat -> psf_mode c = "fft"%string -> (kr <> 1 \/ kc <> 1)%nat ->
  t_call t_ray S t_src (Some (t_sersic_light k_mode s 14)) kr kc t_psf (Var 0) (Var 1) source_on true lensed true chunk = Ok T ->
  forall u v, snd (jvp a seed (t_at T u v)) = Some NaN /\ bad (grad a req (t_at T u v) 14).
Proof. exact fft_spoils. Qed.
Print Assumptions C114_sample_at_centre_fft.
(** without a PSF it is the pixel that contains the sample *)
Theorem C114_sample_at_centre : forall (leg : nat -> (nat -> R) * (nat -> R)) (c : settings) (t_ray : expr -> expr -> expr * expr) (t_src : option t_light) (source_on lensed : bool) (chunk : option nat)
  (kr kc : nat) (t_psf : nat -> nat -> expr) (a : nat -> R) (k_mode : bool) (s : R) (i j k : nat) (seed : nat -> option R) (req : nat -> bool) (T : timage),
  let S := rebuilt leg c in
  chunk <> Some 0%nat -> (i < snd (n_pix (bld S)))%nat -> (j < fst (n_pix (bld S)))%nat -> (k < depth (bld S))%nat -> a 16%nat <> 0 ->
  grid_x (bld S) i j k + a 0%nat = a 14%nat -> grid_y (bld S) i j k + a 1%nat = a 15%nat ->
  seed 14%nat <> None -> req 14%nat = true -> (fst (psf_shape c) <= 1)%nat -> (snd (psf_shape c) <= 1)%nat ->
  t_call t_ray S t_src (Some (t_sersic_light k_mode s 14)) kr kc t_psf (Var 0) (Var 1) source_on true lensed false chunk = Ok T ->
  let e := t_at T (i / upsample_factor c) (j / upsample_factor c) in snd (jvp a seed e) = Some NaN /\ bad (grad a req e 14).
Proof. exact plain_spoils_all. Qed.
Print Assumptions C114_sample_at_centre.

(** two by two pixels around the centre of the lens; three by three pixels, the middle one on the light *)
Example C114_hyps : forall leg : nat -> (nat -> R) * (nat -> R),
  (let c := {| pixelscale := 1; pixels_x := 2; pixels_y := 2; upsample_factor := 1; quad_level := None; psf_shape := (1, 1)%nat; psf_mode := "fft" |} in
   let a n := nth n [0; 0; 0; 0; 1 / 2; 0; 1 / 10; 100; 0; 1; 0; 1; 1; 1; 100; 0; 1; 0; 1; 1; 1; 1] 0 in
   0 < a 4%nat < 1 /\ sersic_fine 7 a /\ sersic_fine 14 a /\ psf_sum 1 1 (free_psf 1 a) <> 0 /\
   at_samples (rebuilt leg c) (fun gx gy => let x := gx + a 0%nat in let y := gy + a 1%nat in
     ((x <> a 2%nat \/ y <> a 3%nat) \/ 0 < 0) /\
     (let p := sie_lens 0 a x y in fst p <> a 7%nat \/ snd p <> a 8%nat) /\ (x <> a 14%nat \/ y <> a 15%nat))) /\
  (let c := {| pixelscale := 1; pixels_x := 3; pixels_y := 3; upsample_factor := 1; quad_level := None; psf_shape := (3, 3)%nat; psf_mode := "fft" |} in
   let S := rebuilt leg c in grid_x (bld S) 2 2 0 = 0 /\ grid_y (bld S) 2 2 0 = 0 /\
   exists T, t_call (t_sie_lens 0) S None (Some (t_sersic_light false (1 / 10) 14)) 3 3 (t_free_psf 3) (Var 0) (Var 1) true true true true None = Ok T /\ (t_rows T = 3 /\ t_cols T = 3)%nat).
Proof. exact sim_hyps. Qed.
