(** * C04, C05: gnomonic projection and pixel coordinates *)
From Coq Require Import Reals List ZArith Lra Lia.
From Verif Require Import Py RealFun Const_Model Wcs_Model Wcs_Spec Wcs_Proofs.
Import ListNotations.
Local Open Scope R_scope.

(** for every reference position, the poles included *)
Theorem C04_plane : forall px py crval,
  let w := plane_to_world_gnomonic px py crval in world_to_plane_gnomonic (fst w) (snd w) crval = Some (px, py).
Proof. exact plane_world_plane. Qed.
Print Assumptions C04_plane.
Lemma visible_cosc ra dec ra0 dec0 : visible ra dec ra0 dec0 ->
  0 < sin (dec0 * deg_to_rad) * sin (dec * deg_to_rad) + cos (dec0 * deg_to_rad) * cos (dec * deg_to_rad) * cos (ra * deg_to_rad - ra0 * deg_to_rad).
Proof.
  unfold visible, dot, direction. cbv zeta. cbn [fst snd]. replace (PI / 180) with deg_to_rad by (rewrite PI_deg; field).
  intros H. rewrite cos_minus. lra.
Qed.
Theorem C04_world : forall ra dec ra0 dec0, -90 <= dec <= 90 -> -90 <= dec0 <= 90 -> visible ra dec ra0 dec0 ->
  exists p, world_to_plane_gnomonic ra dec (ra0, dec0) = Some p /\
  snd (plane_to_world_gnomonic (fst p) (snd p) (ra0, dec0)) = dec /\
  (-90 < dec < 90 -> exists n : Z, fst (plane_to_world_gnomonic (fst p) (snd p) (ra0, dec0)) = ra + 360 * IZR n).
Proof.
  intros ra dec ra0 dec0 H1 H2 V. apply visible_cosc in V.
  destruct (world_to_plane_gnomonic ra dec (ra0, dec0)) as [p|] eqn:E.
  - exists p. split; [reflexivity|]. apply world_plane_world; assumption.
  - exfalso. unfold world_to_plane_gnomonic in E. cbn [fst snd] in E. cbv zeta in E. destruct (Req_EM_T _ 0) as [Z|_]; [lra|discriminate].
Qed.
Print Assumptions C04_world.
Example C04_hyps : -90 <= 20 <= 90 /\ -90 <= 20 <= 90 /\ visible 380 20 20 20.
Proof.
  split; [lra|]. split; [lra|]. unfold visible, direction, dot. cbv zeta. cbn [fst snd].
  replace (380 * (PI / 180)) with (20 * (PI / 180) + 2 * PI) by field. rewrite cos_plus, sin_plus, cos_2PI, sin_2PI.
  set (a := 20 * (PI / 180)). assert (S := sin2_cos2 a). unfold Rsqr in S.
  replace (_ + _) with (cos a * cos a * (sin a * sin a + cos a * cos a) + sin a * sin a) by ring. rewrite S. lra.
Qed.

Theorem C05_pixel_plane : forall crpix CD powers coefs crplane, length powers = length coefs -> (forall a, In a coefs -> a = (0, 0)) -> cd_det CD <> 0 ->
  forall i j, exists p, pixel_to_plane i j crpix CD powers coefs crplane = Ok p /\ plane_to_pixel (fst p) (snd p) crpix CD powers coefs crplane = Ok (i, j).
Proof. exact pixel_plane_pixel. Qed.
Print Assumptions C05_pixel_plane.
Theorem C05_plane_pixel : forall crpix CD powers coefs crplane, length powers = length coefs -> (forall a, In a coefs -> a = (0, 0)) -> cd_det CD <> 0 ->
  forall px py, exists q, plane_to_pixel px py crpix CD powers coefs crplane = Ok q /\ pixel_to_plane (fst q) (snd q) crpix CD powers coefs crplane = Ok (px, py).
Proof. exact plane_pixel_plane. Qed.
Print Assumptions C05_plane_pixel.
Theorem C05_pixel_world : forall crpix CD powers coefs crplane, length powers = length coefs -> (forall a, In a coefs -> a = (0, 0)) -> cd_det CD <> 0 ->
  forall crval i j, exists w, pixel_to_world i j crpix crval CD powers coefs crplane = Ok w /\
  world_to_pixel (fst w) (snd w) crpix crval CD powers coefs crplane = Ok (Some (i, j)).
Proof. exact pixel_world_pixel. Qed.
Print Assumptions C05_pixel_world.
(** a singular matrix is reported *)
Theorem C05_singular : forall px py crpix CD powers coefs crplane, cd_det CD = 0 ->
  plane_to_pixel px py crpix CD powers coefs crplane = Raise RuntimeError.
Proof. exact singular_raises. Qed.
Print Assumptions C05_singular.
(** where the offsets sit: the reference pixel maps to the reference point of the plane, a step of one pixel to a column of the matrix *)
Theorem C05_reference : forall crpix CD crplane,
  pixel_to_plane (fst crpix) (snd crpix) crpix CD [] [] (Some crplane) = Ok crplane /\
  pixel_to_plane (fst crpix + 1) (snd crpix) crpix CD [] [] (Some crplane) = Ok (fst crplane + fst (fst CD), snd crplane + fst (snd CD)) /\
  pixel_to_plane (fst crpix) (snd crpix + 1) crpix CD [] [] (Some crplane) = Ok (fst crplane + snd (fst CD), snd crplane + snd (snd CD)) /\
  pixel_to_plane (fst crpix) (snd crpix) crpix CD [] [] None = Ok (0, 0).
Proof.
  intros [p q] [[a b] [c d]] [u v]. unfold pixel_to_plane, sip, vadd, vsub, mul, default. cbn [fst snd length seq for_loop bind].
  repeat split; apply (f_equal Ok), (f_equal2 pair); ring.
Qed.
Print Assumptions C05_reference.
Example C05_hyps : length [(2%nat, 0%nat); (1%nat, 1%nat)] = length [(0, 0); (0, 0)] /\ (forall a : R * R, In a [(0, 0); (0, 0)] -> a = (0, 0)) /\
  cd_det ((1, 2), (-1, 3)) <> 0.
Proof. split; [reflexivity|]. split; [intros a [<-|[<-|[]]]; reflexivity|]. unfold cd_det. cbn [fst snd]. lra. Qed.
