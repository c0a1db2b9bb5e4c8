(** * C111: automatic differentiation of pixelated lenses and sources *)
From Coq Require Import Reals List Lra Lia String.
From Coquelicot Require Import Coquelicot.
From Verif Require Import Py PixMap_Model PixMap_Spec Ad_Model Ad_Spec Rev_Model Rev_Spec AdEpl_Spec AdPix_Model AdPix_Spec AdPix_Proofs.
Import ListNotations.
Local Open Scope R_scope.
Local Notation "a @ n" := (a n%nat) (at level 9, only parsing).
Local Notation V n := (Var n%nat).

(** PixelatedDeflection; arguments: x y x0 y0 pixelscale, then the map of shape (2, h, w) row by row *)
Theorem C111_deflection : forall (a : nat -> R) (h w : nat), (0 < h)%nat -> (0 < w)%nat -> a@4 <> 0 -> forall seed : nat -> option R,
  quiet None seed 0 2 4 \/ smooth_at a@2 a@4 w a@0 -> quiet None seed 1 3 4 \/ smooth_at a@3 a@4 h a@1 ->
  ad_exact2_ret (fun a => pd_reduced_deflection_angle h w (cube_args a 5 h w) a@2 a@3 a@4 a@0 a@1)
    (t_pd_deflection h w (cube_args Var 5 h w) (V 2) (V 3) (V 4) (V 0) (V 1)) a seed.
Proof. exact pd_ok. Qed.
Print Assumptions C111_deflection.
Theorem C111_deflection_grad : forall (a : nat -> R) (h w : nat), (0 < h)%nat -> (0 < w)%nat -> a@4 <> 0 -> forall req : nat -> bool,
  quiet false req 0 2 4 \/ smooth_at a@2 a@4 w a@0 -> quiet false req 1 3 4 \/ smooth_at a@3 a@4 h a@1 ->
  grad_exact2_ret (fun a => pd_reduced_deflection_angle h w (cube_args a 5 h w) a@2 a@3 a@4 a@0 a@1)
    (t_pd_deflection h w (cube_args Var 5 h w) (V 2) (V 3) (V 4) (V 0) (V 1)) a req.
Proof. exact pd_grad. Qed.
Print Assumptions C111_deflection_grad.
(** Pixelated; arguments: x y x0 y0 pixelscale scale, then the image of shape (h, w) row by row *)
Theorem C111_image : forall (a : nat -> R) (h w : nat), (0 < h)%nat -> (0 < w)%nat -> a@4 <> 0 ->
  forall (ndim : nat) (padding_mode : string) (seed : nat -> option R) (v : R),
  px_brightness ndim h w (image_args a 6 w) a@2 a@3 a@4 a@5 padding_mode a@0 a@1 = Ok v ->
  quiet None seed 0 2 4 \/ smooth_at a@2 a@4 w a@0 -> quiet None seed 1 3 4 \/ smooth_at a@3 a@4 h a@1 ->
  ad_exact_ret (fun a => px_brightness ndim h w (image_args a 6 w) a@2 a@3 a@4 a@5 padding_mode a@0 a@1)
    (t_px_brightness ndim h w (image_args Var 6 w) (V 2) (V 3) (V 4) (V 5) padding_mode (V 0) (V 1)) a seed.
Proof. exact px_ad. Qed.
Print Assumptions C111_image.
Theorem C111_image_grad : forall (a : nat -> R) (h w : nat), (0 < h)%nat -> (0 < w)%nat -> a@4 <> 0 ->
  forall (ndim : nat) (padding_mode : string) (req : nat -> bool) (v : R),
  px_brightness ndim h w (image_args a 6 w) a@2 a@3 a@4 a@5 padding_mode a@0 a@1 = Ok v ->
  quiet false req 0 2 4 \/ smooth_at a@2 a@4 w a@0 -> quiet false req 1 3 4 \/ smooth_at a@3 a@4 h a@1 ->
  grad_exact_ret (fun a => px_brightness ndim h w (image_args a 6 w) a@2 a@3 a@4 a@5 padding_mode a@0 a@1)
    (t_px_brightness ndim h w (image_args Var 6 w) (V 2) (V 3) (V 4) (V 5) padding_mode (V 0) (V 1)) a req.
Proof. exact px_grad. Qed.
Print Assumptions C111_image_grad.
(** PixelatedTime; arguments: x y t x0 y0 pixelscale t_end scale, then the cube of shape (d, h, w); the d frames are the pixels of the time axis *)
Theorem C111_cube : forall (a : nat -> R) (ndim d h w : nat), (0 < d)%nat -> (0 < h)%nat -> (0 < w)%nat -> a@5 <> 0 -> a@6 <> 0 ->
  forall (seed : nat -> option R) (v : R),
  pt_brightness ndim d h w (cube_args a 8 h w) a@3 a@4 a@5 a@6 a@7 a@0 a@1 a@2 = Ok v ->
  quiet None seed 0 3 5 \/ smooth_at a@3 a@5 w a@0 -> quiet None seed 1 4 5 \/ smooth_at a@4 a@5 h a@1 ->
  quiet None seed 2 6 6 \/ smooth_at (a@6 / 2) (a@6 / INR d) d a@2 ->
  ad_exact_ret (fun a => pt_brightness ndim d h w (cube_args a 8 h w) a@3 a@4 a@5 a@6 a@7 a@0 a@1 a@2)
    (t_pt_brightness ndim d h w (cube_args Var 8 h w) (V 3) (V 4) (V 5) (V 6) (V 7) (V 0) (V 1) (V 2)) a seed.
Proof. exact pt_ad. Qed.
Print Assumptions C111_cube.
Theorem C111_cube_grad : forall (a : nat -> R) (ndim d h w : nat), (0 < d)%nat -> (0 < h)%nat -> (0 < w)%nat -> a@5 <> 0 -> a@6 <> 0 ->
  forall (req : nat -> bool) (v : R),
  pt_brightness ndim d h w (cube_args a 8 h w) a@3 a@4 a@5 a@6 a@7 a@0 a@1 a@2 = Ok v ->
  quiet false req 0 3 5 \/ smooth_at a@3 a@5 w a@0 -> quiet false req 1 4 5 \/ smooth_at a@4 a@5 h a@1 ->
  quiet false req 2 6 6 \/ smooth_at (a@6 / 2) (a@6 / INR d) d a@2 ->
  grad_exact_ret (fun a => pt_brightness ndim d h w (cube_args a 8 h w) a@3 a@4 a@5 a@6 a@7 a@0 a@1 a@2)
    (t_pt_brightness ndim d h w (cube_args Var 8 h w) (V 3) (V 4) (V 5) (V 6) (V 7) (V 0) (V 1) (V 2)) a req.
Proof. exact pt_grad. Qed.
Print Assumptions C111_cube_grad.
(** on the centre of a pixel, where the slope of the map jumps, the Jacobian is that of the cell on the side of growing x and y: forward differences *)
Theorem C111_pixel_centre : forall (a : nat -> R) (h w i j : nat), (S i < h)%nat -> (S j < w)%nat -> 0 < a@4 ->
  a@0 = pixel_centre a@2 a@4 w j -> a@1 = pixel_centre a@3 a@4 h i ->
  exists e, t_pd_deflection h w (cube_args Var 5 h w) (V 2) (V 3) (V 4) (V 0) (V 1) = Ok e /\
  ad_jacfwd e a = ((Fin ((cube_args a 5 h w 0 i (S j) - cube_args a 5 h w 0 i j) / a@4), Fin ((cube_args a 5 h w 0 (S i) j - cube_args a 5 h w 0 i j) / a@4)),
                   (Fin ((cube_args a 5 h w 1 i (S j) - cube_args a 5 h w 1 i j) / a@4), Fin ((cube_args a 5 h w 1 (S i) j - cube_args a 5 h w 1 i j) / a@4))).
Proof. exact centre_jacobian. Qed.
Print Assumptions C111_pixel_centre.

(** maps of 3 pixels a side; off the lines, everything differentiated; on the central line, the map alone differentiated *)
Definition at_ (l : list R) (n : nat) : R := nth n l 1.
Example C111_hyps :
  (let a := at_ [1 / 2; -1 / 4; 0; 0; 1; 2] in a@4 <> 0 /\ smooth_at a@2 a@4 3 a@0 /\ smooth_at a@3 a@4 3 a@1 /\
   exists v, px_brightness 2 3 3 (image_args a 6 3) a@2 a@3 a@4 a@5 "clamp" a@0 a@1 = Ok v) /\
  quiet None (fun n => if Nat.ltb 5 n then Some 1 else None) 0 2 4 /\
  (let a := at_ [1 / 2; -1 / 4; 1; 0; 0; 1; 3; 2] in a@5 <> 0 /\ a@6 <> 0 /\ smooth_at (a@6 / 2) (a@6 / INR 3) 3 a@2 /\
   exists v, pt_brightness 3 3 3 3 (cube_args a 8 3 3) a@3 a@4 a@5 a@6 a@7 a@0 a@1 a@2 = Ok v) /\
  (let a := at_ [0; 1 / 2; 0; 0; 1] in (S 2 < 4)%nat /\ (S 1 < 3)%nat /\ 0 < a@4 /\ a@0 = pixel_centre a@2 a@4 3 1 /\ a@1 = pixel_centre a@3 a@4 4 2).
Proof.
  assert (S3 : forall x0 ps x, x <> x0 -> x <> x0 - 3 * ps / 2 -> x <> x0 + 3 * ps / 2 -> smooth_at x0 ps 3 x).
  { intros x0 ps x A B C. unfold smooth_at. replace (INR 3) with 3 by (cbn; ring). repeat split; auto. intros i Hi. assert (i = 1%nat) by lia. subst i.
    unfold pixel_centre. replace (INR 3) with 3 by (cbn; ring). cbn [INR]. replace (x0 + (1 - (3 - 1) / 2) * ps) with x0 by field. exact A. }
  cbv zeta. cbn [at_ nth]. split; [|split; [|split]].
  - split; [lra|]. split; [apply S3; lra|]. split; [apply S3; lra|]. eexists. reflexivity.
  - repeat split.
  - split; [lra|]. split; [lra|]. split; [|eexists; reflexivity]. replace (INR 3) with 3 by (cbn; ring). apply S3; lra.
  - unfold pixel_centre. cbn [INR]. repeat split; lia || lra.
Qed.
