(** * C109: what a PSF does to a simulated image *)
From Coq Require Import Reals Arith Lia Lra String.
From Verif Require Import Py Fsum Sim_Model Sim_Spec PixMean_Spec PsfEffect_Spec PsfEffect_Proofs.
Local Open Scope R_scope.

(** the overall factor of the PSF does not matter: any simulator in any state, any mode and shape *)
Theorem C109_factor : forall ray S src ll kr kc psf c x0 y0 so lo le conv chunk, c <> 0 -> total kr kc psf <> 0 ->
  call ray S src ll kr kc (fun i j => c * psf i j) x0 y0 so lo le conv chunk = call ray S src ll kr kc psf x0 y0 so lo le conv chunk.
Proof. exact call_scaled. Qed.
Print Assumptions C109_factor.
(** a PSF with a single pixel (u, v): the image without PSF of a field displaced by the distance of (u, v) from the middle pixel; for the middle pixel nothing happens *)
Theorem C109_single : forall leg ps px py up lv mode kr kc ray src ll so lo le chunk,
  (1 <= px)%nat -> (1 <= py)%nat -> (1 <= up)%nat -> (1 <= kr)%nat -> (1 <= kc)%nat -> chunk <> Some 0%nat -> mode_agrees mode px py kr kc ->
  forall psf u v x0 y0, single_pixel kr kc psf u v -> exists im im0,
  call ray (new_sim leg ps px (Some py) up lv mode (kr, kc)) src ll kr kc psf x0 y0 so lo le true chunk = Ok im /\
  call ray (new_sim leg ps px (Some py) up lv mode (kr, kc)) src ll kr kc psf (x0 - (INR v - INR (kc / 2)) * (ps / INR up)) (y0 - (INR u - INR (kr / 2)) * (ps / INR up)) so lo le false chunk = Ok im0 /\
  rows im = py /\ cols im = px /\ rows im0 = py /\ cols im0 = px /\ forall i j, (i < py)%nat -> (j < px)%nat -> at_ im i j = at_ im0 i j.
Proof. exact run_single. Qed.
Print Assumptions C109_single.
(** a PSF without negative entries keeps the image between the bounds of the scene, at the edges of the field too *)
Theorem C109_bounds : forall leg ps px py up lv mode kr kc ray src ll so lo le chunk,
  (1 <= px)%nat -> (1 <= py)%nat -> (1 <= up)%nat -> (1 <= kr)%nat -> (1 <= kc)%nat -> chunk <> Some 0%nat -> mode_agrees mode px py kr kc ->
  forall psf x0 y0 a b, 0 < ps -> rule_inside leg lv -> (forall u v, (u < kr)%nat -> (v < kc)%nat -> 0 <= psf u v) -> total kr kc psf <> 0 ->
  (forall x y, a <= scene_brightness ray src ll so lo le x y <= b) ->
  exists im, call ray (new_sim leg ps px (Some py) up lv mode (kr, kc)) src ll kr kc psf x0 y0 so lo le true chunk = Ok im /\ rows im = py /\ cols im = px /\
  forall i j, (i < py)%nat -> (j < px)%nat -> a <= at_ im i j <= b.
Proof. exact run_range. Qed.
Print Assumptions C109_bounds.
(** the PSF p + q gives the mean of the images for p and for q, weighted with the sums of p and q *)
Theorem C109_sum : forall leg ps px py up lv mode kr kc ray src ll so lo le chunk,
  (1 <= px)%nat -> (1 <= py)%nat -> (1 <= up)%nat -> (1 <= kr)%nat -> (1 <= kc)%nat -> chunk <> Some 0%nat -> mode_agrees mode px py kr kc ->
  forall psf1 psf2 x0 y0, total kr kc psf1 <> 0 -> total kr kc psf2 <> 0 -> total kr kc (fun u v => psf1 u v + psf2 u v) <> 0 ->
  exists im im1 im2,
  call ray (new_sim leg ps px (Some py) up lv mode (kr, kc)) src ll kr kc (fun u v => psf1 u v + psf2 u v) x0 y0 so lo le true chunk = Ok im /\
  call ray (new_sim leg ps px (Some py) up lv mode (kr, kc)) src ll kr kc psf1 x0 y0 so lo le true chunk = Ok im1 /\
  call ray (new_sim leg ps px (Some py) up lv mode (kr, kc)) src ll kr kc psf2 x0 y0 so lo le true chunk = Ok im2 /\
  (rows im = py /\ rows im1 = py /\ rows im2 = py) /\ (cols im = px /\ cols im1 = px /\ cols im2 = px) /\
  forall i j, (i < py)%nat -> (j < px)%nat ->
  at_ im i j = (total kr kc psf1 * at_ im1 i j + total kr kc psf2 * at_ im2 i j) / (total kr kc psf1 + total kr kc psf2).
Proof. exact run_mix. Qed.
Print Assumptions C109_sum.
(** the PSF conserves the flux of a scene which is dark within half a PSF of the edges of the field *)
Theorem C109_flux : forall leg ps px py up lv mode kr kc ray src ll so lo le chunk,
  (1 <= px)%nat -> (1 <= py)%nat -> (1 <= up)%nat -> (1 <= kr)%nat -> (1 <= kc)%nat -> chunk <> Some 0%nat -> mode_agrees mode px py kr kc ->
  forall psf x0 y0, 0 < ps -> rule_inside leg lv -> total kr kc psf <> 0 ->
  dark_outside (scene_brightness ray src ll so lo le) x0 y0 ((INR (px * up) / 2 - INR (kc / 2)) * (ps / INR up)) ((INR (py * up) / 2 - INR (kr / 2)) * (ps / INR up)) ->
  exists im im0,
  call ray (new_sim leg ps px (Some py) up lv mode (kr, kc)) src ll kr kc psf x0 y0 so lo le true chunk = Ok im /\
  call ray (new_sim leg ps px (Some py) up lv mode (kr, kc)) src ll kr kc psf x0 y0 so lo le false chunk = Ok im0 /\
  rows im = py /\ cols im = px /\ rows im0 = py /\ cols im0 = px /\
  fsum py (fun i => fsum px (fun j => at_ im i j)) = fsum py (fun i => fsum px (fun j => at_ im0 i j)).
Proof. exact run_flux. Qed.
Print Assumptions C109_flux.
(** a PSF of 3 x 3 pixels on a field of 5 x 5, one with its light in a corner, a bounded scene, and a disc of radius 3/2 in the middle of a field of 5 x 5 pixels of size 1 *)
Example C109_hyps : let p := fun u v : nat => 1 + INR (u * v) in let corner := fun u v : nat => if (Nat.eqb u 2 && Nat.eqb v 0)%bool then 7 else 0 in
  let disc := fun x y : R => if Rlt_dec (x * x + y * y) (9 / 4) then 1 else 0 in
  mode_agrees "fft" 5 5 3 3 /\ mode_agrees "conv2d" 4 5 3 2 /\ total 3 3 p <> 0 /\ (forall u v, (u < 3)%nat -> (v < 3)%nat -> 0 <= p u v) /\ single_pixel 3 3 corner 2 0 /\
  (forall x y, 0 <= scene_brightness (fun x y => (x, y)) (Some disc) None true true true x y <= 1) /\
  dark_outside (scene_brightness (fun x y => (x, y)) (Some disc) None true true true) 0 0 ((INR (5 * 1) / 2 - INR (3 / 2)) * (1 / INR 1)) ((INR (5 * 1) / 2 - INR (3 / 2)) * (1 / INR 1)).
Proof.
  cbv zeta. split; [right; repeat split|]. split; [left; reflexivity|]. split; [unfold total; cbn; lra|]. split; [intros u v _ _; assert (Z := pos_INR (u * v)); lra|]. split.
  { unfold single_pixel. split; [lia|]. split; [lia|]. split; [cbn; lra|]. intros a b _ _ H. destruct (Nat.eqb_spec a 2); destruct (Nat.eqb_spec b 0); cbn; try reflexivity. lia. }
  unfold scene_brightness. cbn [fst snd]. split.
  { intros x y. destruct (Rlt_dec _ _); lra. }
  intros x y H. rewrite !Rminus_0_r in H. change (3 / 2)%nat with 1%nat in H. replace (INR (5 * 1)) with 5 in H by (cbn; ring). replace (INR 1) with 1 in H by reflexivity.
  replace ((5 / 2 - 1) * (1 / 1)) with (3 / 2) in H by field. destruct (Rlt_dec (x * x + y * y) (9 / 4)) as [L|L]; [|ring]. exfalso.
  assert (Q : forall t, 3 / 2 <= Rabs t -> 9 / 4 <= t * t). { intros t Ht. replace (t * t) with (Rabs t * Rabs t) by (unfold Rabs; destruct (Rcase_abs t); ring). nra. }
  assert (X := Rle_0_sqr x). assert (Y := Rle_0_sqr y). unfold Rsqr in X, Y. destruct H as [H|H]; apply Q in H; lra.
Qed.
