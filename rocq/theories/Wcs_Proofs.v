(** * Round trips of the world coordinate system *)
From Coq Require Import Reals List ZArith Lra Lia Psatz.
From Verif Require Import Py RealFun Const_Model Wcs_Model.
Import ListNotations.
Local Open Scope R_scope.

Lemma deg_rad x : x * rad_to_deg * deg_to_rad = x.
Proof. rewrite Rmult_assoc, (Rmult_comm rad_to_deg), deg_rad_inv. ring. Qed.
Lemma rad_deg x : x * deg_to_rad * rad_to_deg = x.
Proof. rewrite Rmult_assoc, deg_rad_inv. ring. Qed.
Lemma deg_rad' x : rad_to_deg * x * deg_to_rad = x.
Proof. rewrite (Rmult_comm rad_to_deg). apply deg_rad. Qed.
Lemma sc1 t : sin t ^ 2 + cos t ^ 2 = 1.
Proof. rewrite <- (sin2_cos2 t). unfold Rsqr. ring. Qed.

(** polar angle of a positive multiple *)
Lemma atan2_scaled r x y : 0 < r ->
  sqrt (x ^ 2 + y ^ 2) * cos (atan2 (r * y) (r * x)) = x /\ sqrt (x ^ 2 + y ^ 2) * sin (atan2 (r * y) (r * x)) = y.
Proof.
  intros Hr. destruct (atan2_polar (r * x) (r * y)) as [A B].
  assert (E : sqrt ((r * x) ^ 2 + (r * y) ^ 2) = r * sqrt (x ^ 2 + y ^ 2)).
  { replace ((r * x) ^ 2 + (r * y) ^ 2) with (r ^ 2 * (x ^ 2 + y ^ 2)) by ring.
    rewrite sqrt_mult; [|apply pow2_ge_0|assert (P := pow2_ge_0 x); assert (Q := pow2_ge_0 y); lra]. rewrite sqrt_pow2 by lra. reflexivity. }
  rewrite E in A, B. split; apply Rmult_eq_reg_l with r; try lra.
Qed.

(** the point of the sphere over (x, y) *)
Section Gnomonic.
Variables (x y t0 : R).
Notation s := (sin t0). Notation c := (cos t0).
Definition k := / sqrt (1 + (x ^ 2 + y ^ 2)).
Lemma rad_pos : 0 < 1 + (x ^ 2 + y ^ 2).
Proof. assert (P := pow2_ge_0 x); assert (Q := pow2_ge_0 y); lra. Qed.
Lemma k_pos : 0 < k.
Proof. apply Rinv_0_lt_compat, sqrt_lt_R0, rad_pos. Qed.
Lemma k_sq : k ^ 2 * (1 + (x ^ 2 + y ^ 2)) = 1.
Proof. unfold k. rewrite pow_inv, sqrt_sq2 by (left; exact rad_pos). apply Rinv_l. assert (P := rad_pos). lra. Qed.
Definition H := sqrt ((c - y * s) ^ 2 + x ^ 2).
Lemma H_sq : H ^ 2 = (c - y * s) ^ 2 + x ^ 2.
Proof. apply sqrt_sq2. assert (P := pow2_ge_0 (c - y * s)); assert (Q := pow2_ge_0 x); lra. Qed.
Lemma H_nonneg : 0 <= H. Proof. apply sqrt_pos. Qed.
Lemma sphere : (k * (s + y * c)) ^ 2 + (k * H) ^ 2 = 1.
Proof.
  rewrite !Rpow_mult_distr, H_sq. rewrite <- k_sq. rewrite <- Rmult_plus_distr_l. f_equal. 
  replace 1 with (s ^ 2 + c ^ 2) by apply sc1. 
  transitivity ((s ^ 2 + c ^ 2) + (x ^ 2 + y ^ 2 * (s ^ 2 + c ^ 2))); [ring|]. rewrite sc1. ring.
Qed.
Lemma arg_bound : -1 <= k * (s + y * c) <= 1.
Proof. assert (Q := sphere). assert (P := pow2_ge_0 (k * H)). split; nra. Qed.
Lemma cos_dec : cos (asin (k * (s + y * c))) = k * H.
Proof.
  rewrite cos_asin by apply arg_bound. rewrite Rsqr_pow2.
  replace (1 - _) with ((k * H) ^ 2) by (assert (Q := sphere); lra). apply sqrt_pow2.
  apply Rmult_le_pos; [left; exact k_pos|exact H_nonneg].
Qed.
End Gnomonic.

Lemma rho_split x y (t0 : R) : sqrt (x ^ 2 + y ^ 2) <> 0 -> let rho := sqrt (x ^ 2 + y ^ 2) in
  x * sin (atan rho) = rho * k x y * x /\
  rho * cos t0 * cos (atan rho) - y * sin t0 * sin (atan rho) = rho * k x y * (cos t0 - y * sin t0) /\
  cos (atan rho) * sin t0 + y * sin (atan rho) * cos t0 / rho = k x y * (sin t0 + y * cos t0) /\ 0 < rho * k x y.
Proof.
  intros NZ rho. assert (ER : rho ^ 2 = x ^ 2 + y ^ 2) by (apply sqrt_sq2; assert (P := pow2_ge_0 x); assert (Q := pow2_ge_0 y); lra).
  rewrite sin_atan, cos_atan, ER.
  assert (P := k_pos x y). assert (PR : 0 < rho). { destruct (sqrt_pos (x ^ 2 + y ^ 2)) as [L|E]; [exact L|]. symmetry in E. contradiction. }
  unfold k in P |- *. set (q := sqrt (1 + (x ^ 2 + y ^ 2))) in *. assert (NQ : q <> 0). { intros E. rewrite E, Rinv_0 in P. lra. }
  repeat split; try (field; lra). apply Rmult_lt_0_compat; assumption.
Qed.

Lemma plane_world_plane px py crval :
  let w := plane_to_world_gnomonic px py crval in world_to_plane_gnomonic (fst w) (snd w) crval = Some (px, py).
Proof.
  destruct crval as [ra0 dec0]. cbv zeta. unfold plane_to_world_gnomonic, world_to_plane_gnomonic. cbn [fst snd]. cbv zeta.
  set (x := px * deg_to_rad). set (y := py * deg_to_rad). set (t0 := dec0 * deg_to_rad).
  assert (Ex : x * rad_to_deg = px) by apply rad_deg. assert (Ey : y * rad_to_deg = py) by apply rad_deg.
  set (rho := sqrt (x ^ 2 + y ^ 2)).
  replace ((ra0 + rad_to_deg * atan2 (x * sin (atan rho)) (rho * cos t0 * cos (atan rho) - y * sin t0 * sin (atan rho))) * deg_to_rad - ra0 * deg_to_rad)
    with (atan2 (x * sin (atan rho)) (rho * cos t0 * cos (atan rho) - y * sin t0 * sin (atan rho)))
    by (rewrite Rmult_plus_distr_r, deg_rad'; ring).
  destruct (Req_EM_T rho 0) as [Z|NZ].
  - assert (X0 : x = 0 /\ y = 0).
    { destruct (Req_dec x 0) as [E1|E1]; destruct (Req_dec y 0) as [E2|E2]; auto; exfalso; assert (P := norm_pos x y ltac:(auto)); unfold rho in Z; lra. }
    destruct X0 as [-> ->]. rewrite Z, atan_0, sin_0, cos_0. replace (0 * 0) with 0 by ring. replace (0 * cos t0 * 1 - 0 * sin t0 * 0) with 0 by ring.
    assert (A0 : atan2 0 0 = 0). { unfold atan2. destruct (Rlt_dec 0 0); [lra|]. reflexivity. }
    rewrite A0, sin_0, cos_0. fold t0. assert (S := sc1 t0).
    destruct (Req_EM_T _ 0) as [E|_]; [exfalso; lra|]. f_equal. f_equal; [rewrite <- Ex|rewrite <- Ey]; f_equal; unfold Rdiv; ring.
  - destruct (rho_split x y t0 NZ) as (E1 & E2 & E3 & P). fold rho in E1, E2, E3, P. rewrite E1, E2, E3, deg_rad'.
    rewrite cos_dec, sin_asin by apply arg_bound.
    destruct (atan2_scaled (rho * k x y) (cos t0 - y * sin t0) x P) as [A B]. fold (H x y t0) in A, B.
    set (A0 := atan2 _ _) in *. assert (K := k_pos x y).
    replace (sin t0 * (k x y * (sin t0 + y * cos t0)) + cos t0 * (k x y * H x y t0) * cos A0)
      with (k x y * (sin t0 * (sin t0 + y * cos t0) + cos t0 * (H x y t0 * cos A0))) by ring.
    replace (k x y * H x y t0 * sin A0) with (k x y * (H x y t0 * sin A0)) by ring.
    replace (cos t0 * (k x y * (sin t0 + y * cos t0)) - sin t0 * (k x y * H x y t0) * cos A0)
      with (k x y * (cos t0 * (sin t0 + y * cos t0) - sin t0 * (H x y t0 * cos A0))) by ring.
    rewrite A, B. replace (sin t0 * (sin t0 + y * cos t0) + cos t0 * (cos t0 - y * sin t0)) with 1 by (rewrite <- (sc1 t0); ring).
    replace (cos t0 * (sin t0 + y * cos t0) - sin t0 * (cos t0 - y * sin t0)) with y by (transitivity (y * (sin t0 ^ 2 + cos t0 ^ 2)); [rewrite sc1|]; ring).
    destruct (Req_EM_T _ 0) as [E|_]; [exfalso; lra|]. f_equal. f_equal; [rewrite <- Ex|rewrite <- Ey]; f_equal; field; lra.
Qed.

Lemma PI_deg : PI = 180 * deg_to_rad.
Proof. unfold deg_to_rad, rad_to_deg. assert (P := PI_RGT_0). field. lra. Qed.

Lemma world_plane_world ra dec crval p : -90 <= dec <= 90 -> -90 <= snd crval <= 90 ->
  0 < sin (snd crval * deg_to_rad) * sin (dec * deg_to_rad) + cos (snd crval * deg_to_rad) * cos (dec * deg_to_rad) * cos (ra * deg_to_rad - fst crval * deg_to_rad) ->
  world_to_plane_gnomonic ra dec crval = Some p ->
  snd (plane_to_world_gnomonic (fst p) (snd p) crval) = dec /\
  (-90 < dec < 90 -> exists n : Z, fst (plane_to_world_gnomonic (fst p) (snd p) crval) = ra + 360 * IZR n).
Proof.
  destruct crval as [ra0 dec0]. cbn [fst snd]. intros Hd Hd0. unfold world_to_plane_gnomonic. cbn [fst snd]. cbv zeta.
  set (t := dec * deg_to_rad). set (t0 := dec0 * deg_to_rad). set (D := ra * deg_to_rad - ra0 * deg_to_rad).
  set (C := sin t0 * sin t + cos t0 * cos t * cos D). intros HC. destruct (Req_EM_T C 0) as [Z|_]; [lra|]. intros Ep. injection Ep as <-. cbn [fst snd].
  unfold plane_to_world_gnomonic. cbn [fst snd]. cbv zeta. rewrite !deg_rad. fold t0.
  set (x := cos t * sin D / C). set (y := (cos t0 * sin t - sin t0 * cos t * cos D) / C).
  assert (PI1 := PI_deg). assert (DP := deg_to_rad_pos).
  assert (S := sc1 t). assert (S0 := sc1 t0). assert (SD := sc1 D).
  assert (EC : C ^ 2 * (1 + (x ^ 2 + y ^ 2)) = 1).
  { replace (C ^ 2 * (1 + (x ^ 2 + y ^ 2))) with (C ^ 2 + (cos t * sin D) ^ 2 + (cos t0 * sin t - sin t0 * cos t * cos D) ^ 2) by (unfold x, y; field; lra).
    unfold C. transitivity ((sin t0 ^ 2 + cos t0 ^ 2) * (sin t ^ 2 + cos t ^ 2 * cos D ^ 2) + cos t ^ 2 * sin D ^ 2); [ring|].
    rewrite S0. transitivity (sin t ^ 2 + cos t ^ 2 * (sin D ^ 2 + cos D ^ 2)); [ring|]. rewrite SD. lra. }
  assert (EK : k x y = C).
  { assert (KS := k_sq x y). assert (KP := k_pos x y). assert (RP := rad_pos x y).
    assert (E : k x y ^ 2 = C ^ 2) by (apply Rmult_eq_reg_r with (1 + (x ^ 2 + y ^ 2)); [rewrite KS, EC; reflexivity|lra]).
    assert (E2 : (k x y - C) * (k x y + C) = 0) by (transitivity (k x y ^ 2 - C ^ 2); [ring|lra]).
    apply Rmult_integral in E2. destruct E2; lra. }
  assert (Edec : C * (sin t0 + y * cos t0) = sin t).
  { transitivity (C * sin t0 + (cos t0 * sin t - sin t0 * cos t * cos D) * cos t0); [unfold y; field; lra|]. unfold C.
    transitivity ((sin t0 ^ 2 + cos t0 ^ 2) * sin t); [ring|]. rewrite S0. ring. }
  assert (Ecos : C * (cos t0 - y * sin t0) = cos t * cos D).
  { transitivity (C * cos t0 - (cos t0 * sin t - sin t0 * cos t * cos D) * sin t0); [unfold y; field; lra|]. unfold C.
    transitivity ((sin t0 ^ 2 + cos t0 ^ 2) * (cos t * cos D)); [ring|]. rewrite S0. ring. }
  assert (Esin : C * x = cos t * sin D) by (unfold x; field; lra).
  assert (Bt : - (PI / 2) <= t <= PI / 2) by (unfold t; rewrite PI1; nra).
  assert (Bt0 : - (PI / 2) <= t0 <= PI / 2) by (unfold t0; rewrite PI1; nra).
  set (rho := sqrt (x ^ 2 + y ^ 2)).
  destruct (Req_EM_T rho 0) as [Z|NZ].
  - assert (X0 : x = 0 /\ y = 0).
    { destruct (Req_dec x 0) as [E1|E1]; destruct (Req_dec y 0) as [E2|E2]; auto; exfalso; assert (P := norm_pos x y ltac:(auto)); unfold rho in Z; lra. }
    destruct X0 as [X0 Y0]. rewrite X0, Y0 in EC. rewrite Y0 in Edec, Ecos. rewrite X0 in Esin.
    assert (C1 : C = 1). { assert (E2 : (C - 1) * (C + 1) = 0) by (transitivity (C ^ 2 * (1 + (0 ^ 2 + 0 ^ 2)) - 1); [ring|lra]). apply Rmult_integral in E2. destruct E2; lra. }
    rewrite C1 in Edec, Ecos, Esin. 
    assert (T : t0 = t). { rewrite <- (asin_sin t0), <- (asin_sin t) by assumption. f_equal. lra. }
    split.
    + unfold t, t0 in T. apply Rmult_eq_reg_r with deg_to_rad; lra.
    + intros Hs. rewrite Z, atan_0, sin_0, cos_0, X0, Y0. replace (0 * 0) with 0 by ring. replace (0 * cos t0 * 1 - 0 * sin t0 * 0) with 0 by ring.
      assert (A0 : atan2 0 0 = 0). { unfold atan2. destruct (Rlt_dec 0 0); [lra|]. reflexivity. }
      rewrite A0. assert (CT : 0 < cos t) by (apply cos_gt_0; unfold t; rewrite PI1; nra).
      destruct (atan2_mod 1 D ltac:(lra)) as [n En]. exists n. 
      assert (SD0 : sin D = 0). { apply Rmult_eq_reg_l with (cos t); lra. }
      assert (CD1 : cos D = 1). { apply Rmult_eq_reg_l with (cos t); [|lra]. rewrite <- T at 2. lra. }
      rewrite SD0, CD1 in En. replace (1 * 0) with 0 in En by ring. replace (1 * 1) with 1 in En by ring.
      assert (A1 : atan2 0 1 = 0). { unfold atan2. destruct (Rlt_dec 0 1); [|lra]. unfold Rdiv. rewrite Rmult_0_l. apply atan_0. }
      rewrite A1 in En. unfold D in En. rewrite PI1 in En. apply Rmult_eq_reg_r with deg_to_rad; [|lra]. lra.
  - destruct (rho_split x y t0 NZ) as (E1 & E2 & E3 & P). fold rho in E1, E2, E3, P. rewrite E1, E2, E3, EK, Edec. split.
    + rewrite asin_sin by exact Bt. unfold t. rewrite Rmult_comm. apply rad_deg.
    + intros Hs. assert (CT : 0 < cos t) by (apply cos_gt_0; unfold t; rewrite PI1; nra).
      replace (rho * C * x) with (rho * cos t * sin D) by (transitivity (rho * (cos t * sin D)); [ring|rewrite <- Esin; ring]).
      replace (rho * C * (cos t0 - y * sin t0)) with (rho * cos t * cos D) by (transitivity (rho * (cos t * cos D)); [ring|rewrite <- Ecos; ring]).
      assert (PR : 0 < rho). { destruct (sqrt_pos (x ^ 2 + y ^ 2)) as [L|E]; [exact L|]. symmetry in E. contradiction. }
      destruct (atan2_mod (rho * cos t) D ltac:(apply Rmult_lt_0_compat; assumption)) as [n En]. exists n.
      rewrite En. apply Rmult_eq_reg_r with deg_to_rad; [|lra]. rewrite Rmult_plus_distr_r, deg_rad'. unfold D. rewrite PI1. ring.
Qed.

(** ** pixels *)
Lemma sip_zero powers coefs pixel : length powers = length coefs -> (forall a, In a coefs -> a = (0, 0)) -> sip powers coefs pixel = Ok (0, 0).
Proof.
  intros L Hz. unfold sip.
  assert (G : forall l, (forall p, In p l -> (p < length powers)%nat) -> 
    for_loop (fun p delta => bind (py_get powers p) (fun w => bind (py_get coefs p) (fun a =>
      let m := fst pixel ^ fst w * snd pixel ^ snd w in Ok (fst delta + fst a * m, snd delta + snd a * m)))) l (0, 0) = Ok (0, 0)).
  { induction l as [|p l IH]; intros Hl; [reflexivity|]. cbn [for_loop]. unfold py_get.
    assert (Hp := Hl p (or_introl eq_refl)).
    destruct (nth_error powers p) as [w|] eqn:E1; [|apply nth_error_None in E1; lia].
    destruct (nth_error coefs p) as [a|] eqn:E2; [|apply nth_error_None in E2; lia]. cbn [bind].
    rewrite (Hz a (nth_error_In _ _ E2)). cbv zeta. cbn [fst snd]. rewrite !Rmult_0_l, !Rplus_0_r. apply IH. intros q Hq. apply Hl. right. exact Hq. }
  apply G. intros p Hp. apply in_seq in Hp. lia.
Qed.
Section Linear.
Variables (crpix : R * R) (CD : cdmat) (powers : list (nat * nat)) (coefs : list (R * R)) (crplane : option (R * R)).
Hypotheses (HL : length powers = length coefs) (HZ : forall a, In a coefs -> a = (0, 0)).
Hypothesis Hdet : cd_det CD <> 0.
Lemma vadd_0 v : vadd v (0, 0) = v.
Proof. destruct v. unfold vadd. cbn [fst snd]. rewrite !Rplus_0_r. reflexivity. Qed.
Lemma pixel_plane_pixel i j : exists p, pixel_to_plane i j crpix CD powers coefs crplane = Ok p /\
  plane_to_pixel (fst p) (snd p) crpix CD powers coefs crplane = Ok (i, j).
Proof.
  unfold pixel_to_plane, plane_to_pixel, inv. cbv zeta. rewrite sip_zero by assumption. cbn [bind]. eexists. split; [reflexivity|].
  destruct (Req_EM_T (cd_det CD) 0) as [Z|NZ]; [contradiction|]. cbn [bind]. rewrite sip_zero by assumption. cbn [bind]. apply (f_equal Ok).
  rewrite vadd_0. destruct CD as [[a b] [c d]], crpix as [p q], (default crplane) as [u v].
  unfold vadd, vsub, mul, cd_det in *. cbn [fst snd] in *. apply (f_equal2 pair); field; exact NZ.
Qed.
Lemma plane_pixel_plane px py : exists q, plane_to_pixel px py crpix CD powers coefs crplane = Ok q /\
  pixel_to_plane (fst q) (snd q) crpix CD powers coefs crplane = Ok (px, py).
Proof.
  unfold pixel_to_plane, plane_to_pixel, inv. cbv zeta. destruct (Req_EM_T (cd_det CD) 0) as [Z|NZ]; [contradiction|]. cbn [bind].
  rewrite sip_zero by assumption. cbn [bind]. eexists. split; [reflexivity|]. rewrite sip_zero by assumption. cbn [bind]. apply (f_equal Ok).
  rewrite vadd_0. destruct CD as [[a b] [c d]], crpix as [p q], (default crplane) as [u v].
  unfold vadd, vsub, mul, cd_det in *. cbn [fst snd] in *. apply (f_equal2 pair); field; exact NZ.
Qed.
Lemma pixel_world_pixel crval i j : exists w, pixel_to_world i j crpix crval CD powers coefs crplane = Ok w /\
  world_to_pixel (fst w) (snd w) crpix crval CD powers coefs crplane = Ok (Some (i, j)).
Proof.
  destruct (pixel_plane_pixel i j) as (p & E1 & E2). unfold pixel_to_world, world_to_pixel. rewrite E1. cbn [bind].
  eexists. split; [reflexivity|]. rewrite plane_world_plane. cbn [fst snd]. rewrite E2. reflexivity.
Qed.
End Linear.
Lemma singular_raises px py crpix CD powers coefs crplane : cd_det CD = 0 -> plane_to_pixel px py crpix CD powers coefs crplane = Raise RuntimeError.
Proof. intros H. unfold plane_to_pixel, inv. cbv zeta. destruct (Req_EM_T (cd_det CD) 0); [reflexivity|contradiction]. Qed.
