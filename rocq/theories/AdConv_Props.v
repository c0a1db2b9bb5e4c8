(** * C116: automatic differentiation of a pixelated convergence *)
From Coq Require Import Reals List Lra Lia String Arith.
From Coquelicot Require Import Coquelicot.
From Verif Require Import Py PixConv_Model PixConv_Spec PixConv2_Proofs PixConv3_Proofs PixMap_Spec Ad_Model Ad_Spec Rev_Model Rev_Spec AdEpl_Spec AdPix_Model AdPix_Spec AdConv_Model AdConv_Spec AdConv_Proofs AdConv2_Proofs.
Import ListNotations.
Local Open Scope R_scope.
Local Notation "a @ n" := (a n%nat) (at level 9, only parsing).
Local Notation V n := (Var n%nat).

(** arguments: x y x0 y0 scale, then the n by n map row by row; L is any instance (size, pixel size, kernels, padding, mode) for which a
    value is returned *)
Theorem C116_deflection : forall (a : nat -> R) (L : pixconv), (0 < pc_n L)%nat -> pc_pixelscale L <> 0 -> forall v seed,
  pc_reduced_deflection_angle L a@2 a@3 (image_args a 5 (pc_n L)) a@4 a@0 a@1 = Ok v ->
  fine_at seed a 0 2 (pc_pixelscale L) (pc_n L) (grid_side (pc_mode L) (pc_n L)) -> fine_at seed a 1 3 (pc_pixelscale L) (pc_n L) (grid_side (pc_mode L) (pc_n L)) ->
  ad_exact2_ret (fun a => pc_reduced_deflection_angle L a@2 a@3 (image_args a 5 (pc_n L)) a@4 a@0 a@1)
    (t_pc_deflection L (V 2) (V 3) (image_args Var 5 (pc_n L)) (V 4) (V 0) (V 1)) a seed.
Proof. exact pc_defl_ad. Qed.
Print Assumptions C116_deflection.
Theorem C116_deflection_grad : forall (a : nat -> R) (L : pixconv), (0 < pc_n L)%nat -> pc_pixelscale L <> 0 -> forall v req,
  pc_reduced_deflection_angle L a@2 a@3 (image_args a 5 (pc_n L)) a@4 a@0 a@1 = Ok v ->
  fine_for req a 0 2 (pc_pixelscale L) (pc_n L) (grid_side (pc_mode L) (pc_n L)) -> fine_for req a 1 3 (pc_pixelscale L) (pc_n L) (grid_side (pc_mode L) (pc_n L)) ->
  grad_exact2_ret (fun a => pc_reduced_deflection_angle L a@2 a@3 (image_args a 5 (pc_n L)) a@4 a@0 a@1)
    (t_pc_deflection L (V 2) (V 3) (image_args Var 5 (pc_n L)) (V 4) (V 0) (V 1)) a req.
Proof. exact pc_defl_grad. Qed.
Print Assumptions C116_deflection_grad.
Theorem C116_potential : forall (a : nat -> R) (L : pixconv), (0 < pc_n L)%nat -> pc_pixelscale L <> 0 -> forall v seed,
  pc_potential L a@2 a@3 (image_args a 5 (pc_n L)) a@4 a@0 a@1 = Ok v ->
  fine_at seed a 0 2 (pc_pixelscale L) (pc_n L) (grid_side (pc_mode L) (pc_n L)) -> fine_at seed a 1 3 (pc_pixelscale L) (pc_n L) (grid_side (pc_mode L) (pc_n L)) ->
  ad_exact_ret (fun a => pc_potential L a@2 a@3 (image_args a 5 (pc_n L)) a@4 a@0 a@1)
    (t_pc_potential L (V 2) (V 3) (image_args Var 5 (pc_n L)) (V 4) (V 0) (V 1)) a seed.
Proof. exact pc_pot_ad. Qed.
Print Assumptions C116_potential.
Theorem C116_potential_grad : forall (a : nat -> R) (L : pixconv), (0 < pc_n L)%nat -> pc_pixelscale L <> 0 -> forall v req,
  pc_potential L a@2 a@3 (image_args a 5 (pc_n L)) a@4 a@0 a@1 = Ok v ->
  fine_for req a 0 2 (pc_pixelscale L) (pc_n L) (grid_side (pc_mode L) (pc_n L)) -> fine_for req a 1 3 (pc_pixelscale L) (pc_n L) (grid_side (pc_mode L) (pc_n L)) ->
  grad_exact_ret (fun a => pc_potential L a@2 a@3 (image_args a 5 (pc_n L)) a@4 a@0 a@1)
    (t_pc_potential L (V 2) (V 3) (image_args Var 5 (pc_n L)) (V 4) (V 0) (V 1)) a req.
Proof. exact pc_pot_grad. Qed.
Print Assumptions C116_potential_grad.
(** the convergence is read from the map itself, in either mode *)
Theorem C116_convergence : forall (a : nat -> R) (L : pixconv), (0 < pc_n L)%nat -> pc_pixelscale L <> 0 -> forall seed,
  fine_at seed a 0 2 (pc_pixelscale L) (pc_n L) (pc_n L) -> fine_at seed a 1 3 (pc_pixelscale L) (pc_n L) (pc_n L) ->
  ad_exact_ret (fun a => pc_convergence L a@2 a@3 (image_args a 5 (pc_n L)) a@4 a@0 a@1)
    (t_pc_convergence L (V 2) (V 3) (image_args Var 5 (pc_n L)) (V 4) (V 0) (V 1)) a seed.
Proof. exact pc_kap_ad. Qed.
Print Assumptions C116_convergence.
Theorem C116_convergence_grad : forall (a : nat -> R) (L : pixconv), (0 < pc_n L)%nat -> pc_pixelscale L <> 0 -> forall req,
  fine_for req a 0 2 (pc_pixelscale L) (pc_n L) (pc_n L) -> fine_for req a 1 3 (pc_pixelscale L) (pc_n L) (pc_n L) ->
  grad_exact_ret (fun a => pc_convergence L a@2 a@3 (image_args a 5 (pc_n L)) a@4 a@0 a@1)
    (t_pc_convergence L (V 2) (V 3) (image_args Var 5 (pc_n L)) (V 4) (V 0) (V 1)) a req.
Proof. exact pc_kap_grad. Qed.
Print Assumptions C116_convergence_grad.
(** the gradient with respect to one pixel of the map is the deflection (potential) of that pixel alone *)
Theorem C116_pixel_response : forall (a : nat -> R) (L : pixconv), (0 < pc_n L)%nat -> pc_pixelscale L <> 0 -> forall req,
  fine_for req a 0 2 (pc_pixelscale L) (pc_n L) (grid_side (pc_mode L) (pc_n L)) -> fine_for req a 1 3 (pc_pixelscale L) (pc_n L) (grid_side (pc_mode L) (pc_n L)) ->
  forall v k, (5 <= k)%nat -> req k = true -> pc_reduced_deflection_angle L a@2 a@3 (image_args a 5 (pc_n L)) a@4 a@0 a@1 = Ok v ->
  exists e w, t_pc_deflection L (V 2) (V 3) (image_args Var 5 (pc_n L)) (V 4) (V 0) (V 1) = Ok e /\
    pc_reduced_deflection_angle L a@2 a@3 (image_args (only k) 5 (pc_n L)) a@4 a@0 a@1 = Ok w /\
    grad a req (fst e) k = Fin (fst w) /\ grad a req (snd e) k = Fin (snd w).
Proof. exact defl_response. Qed.
Print Assumptions C116_pixel_response.
Theorem C116_pixel_response_potential : forall (a : nat -> R) (L : pixconv), (0 < pc_n L)%nat -> pc_pixelscale L <> 0 -> forall req,
  fine_for req a 0 2 (pc_pixelscale L) (pc_n L) (grid_side (pc_mode L) (pc_n L)) -> fine_for req a 1 3 (pc_pixelscale L) (pc_n L) (grid_side (pc_mode L) (pc_n L)) ->
  forall v k, (5 <= k)%nat -> req k = true -> pc_potential L a@2 a@3 (image_args a 5 (pc_n L)) a@4 a@0 a@1 = Ok v ->
  exists e w, t_pc_potential L (V 2) (V 3) (image_args Var 5 (pc_n L)) (V 4) (V 0) (V 1) = Ok e /\
    pc_potential L a@2 a@3 (image_args (only k) 5 (pc_n L)) a@4 a@0 a@1 = Ok w /\ grad a req e k = Fin w.
Proof. exact pot_response. Qed.
Print Assumptions C116_pixel_response_potential.
(** the gradient with respect to the scale is the deflection at scale one *)
Theorem C116_scale_response : forall (a : nat -> R) (L : pixconv), (0 < pc_n L)%nat -> pc_pixelscale L <> 0 -> forall req,
  fine_for req a 0 2 (pc_pixelscale L) (pc_n L) (grid_side (pc_mode L) (pc_n L)) -> fine_for req a 1 3 (pc_pixelscale L) (pc_n L) (grid_side (pc_mode L) (pc_n L)) ->
  forall v, req 4%nat = true -> pc_reduced_deflection_angle L a@2 a@3 (image_args a 5 (pc_n L)) a@4 a@0 a@1 = Ok v ->
  exists e w, t_pc_deflection L (V 2) (V 3) (image_args Var 5 (pc_n L)) (V 4) (V 0) (V 1) = Ok e /\
    pc_reduced_deflection_angle L a@2 a@3 (image_args a 5 (pc_n L)) 1 a@0 a@1 = Ok w /\
    grad a req (fst e) 4 = Fin (fst w) /\ grad a req (snd e) 4 = Fin (snd w).
Proof. exact defl_scale_response. Qed.
Print Assumptions C116_scale_response.

(** a map of 3 by 3 pixels with reflected borders, at a position off the lines of both grids; everything differentiated, or the map alone *)
Definition at_ (l : list R) (n : nat) : R := nth n l 1.
Example C116_hyps : let a := at_ [1 / 5; -1 / 5; 0; 0; 2] in
  (exists L v p, new_pixconv 1 2 (3, 3)%nat "reflect" "fft" (1 / 8) = Ok L /\ (0 < pc_n L)%nat /\ pc_pixelscale L <> 0 /\
     pc_reduced_deflection_angle L a@2 a@3 (image_args a 5 (pc_n L)) a@4 a@0 a@1 = Ok v /\ pc_potential L a@2 a@3 (image_args a 5 (pc_n L)) a@4 a@0 a@1 = Ok p) /\
  (forall seed, fine_at seed a 0 2 1 3 (grid_side "fft" 3) /\ fine_at seed a 1 3 1 3 (grid_side "fft" 3)) /\
  (forall seed, fine_at seed a 0 2 1 3 (grid_side "conv2d" 3) /\ fine_at seed a 1 3 1 3 (grid_side "conv2d" 3)) /\
  (forall req, fine_for req a 0 2 1 3 (grid_side "fft" 3) /\ fine_for req a 1 3 1 3 (grid_side "fft" 3)) /\
  (forall p c, (p < 5)%nat -> (c < 5)%nat -> fine_for (fun m => Nat.ltb 4 m) a p c 1 3 3).
Proof.
  cbv zeta. set (a := at_ [1 / 5; -1 / 5; 0; 0; 2]).
  assert (I3 : INR 3 = 3) by (cbn; ring). assert (I6 : INR 6 = 6) by (cbn; ring).
  assert (S3 : forall x, x = 1 / 5 \/ x = -1 / 5 -> smooth_at 0 (INR 3 * 1 / INR 3) 3 x).
  { intros x Hx. unfold smooth_at. rewrite I3. repeat split; try (destruct Hx; lra). intros i Hi. assert (i = 1%nat) by lia. subst i. unfold pixel_centre. rewrite I3. cbn [INR]. destruct Hx; lra. }
  assert (S6 : forall x, x = 1 / 5 \/ x = -1 / 5 -> smooth_at 0 (INR 3 * 1 / INR 6) 6 x).
  { intros x Hx. unfold smooth_at. rewrite I3, I6. repeat split; try (destruct Hx; lra). intros i Hi. unfold pixel_centre. rewrite I6.
    assert (i = 1 \/ i = 2 \/ i = 3 \/ i = 4)%nat as [-> | [-> | [-> | ->]]] by lia; cbn [INR]; destruct Hx; lra. }
  split; [|split; [|split; [|split]]].
  - destruct (new_ok 1 3 "reflect" "fft" (1 / 8) (or_introl eq_refl)) as (L & EL). exists L.
    assert (U : usable 3 "reflect" "fft") by (right; split; [reflexivity|right; split; [lia|left; reflexivity]]).
    destruct (obj_total 1 3 "reflect" "fft" (1 / 8) L a@2 a@3 (image_args a 5 (pc_n L)) a@4 a@0 a@1 U EL) as ((v & EV) & (p & EP)). exists v, p.
    split; [exact EL|]. assert (N : pc_n L = 3%nat /\ pc_pixelscale L = 1).
    { revert EL. unfold new_pixconv. cbv zeta. cbn [negb Nat.eqb fst snd]. destruct (build_kernels_pixelated_convergence 1 3) as [[k1 k2] k3]. change (known_mode "fft") with true. cbv iota.
      intros E. injection E as <-. split; reflexivity. }
    destruct N as [N1 N2]. rewrite N1 in EV, EP |- *. rewrite N2. split; [lia|]. split; [lra|]. split; assumption.
  - intros seed. split; right; apply S3; cbn; auto.
  - intros seed. split; right; apply S6; cbn; auto.
  - intros req. split; right; apply S3; cbn; auto.
  - intros p c Hp Hc. left. unfold quiet. repeat split; apply Nat.ltb_ge; lia.
Qed.
