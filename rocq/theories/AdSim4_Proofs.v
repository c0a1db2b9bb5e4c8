(** * C114: statements and example *)
From Coq Require Import Reals Lra Lia Arith ZArith List Bool String.
From Coquelicot Require Import Coquelicot.
From Verif Require Import Py Fsum RealFun Geo_Model LensBase_Model LensBasic_Model Light_Model Quad_Model PixConv_Model Sim_Model Sim_Proofs Ad_Model Ad_Spec AdLens_Model AdEpl_Model
  Rev_Model Rev_Spec AdSim_Model AdSim_Spec AdSim_Proofs AdSim2_Proofs AdSim3_Proofs.
Import ListNotations.
Local Open Scope R_scope.

Lemma any_scene (a : nat -> R) (seed : nat -> option R) (S : sim) (ray : (nat -> R) -> R -> R -> R * R) (t_ray : expr -> expr -> expr * expr)
  (X0 Y0 : (nat -> R) -> R) (x0 y0 : expr) (src ll : option ((nat -> R) -> R -> R -> R)) (t_src t_ll : option t_light) (source_on lens_on lensed : bool) (chunk : option nat)
  (kr kc : nat) (psf : (nat -> R) -> nat -> nat -> R) (t_psf : nat -> nat -> expr) (psf_convolve : bool) :
  let Exact F t := ad_exact F t a seed in
  chunk <> Some 0%nat ->
  light_follows Exact ray t_ray S X0 Y0 x0 y0 src t_src source_on lensed ->
  light_follows Exact ray t_ray S X0 Y0 x0 y0 ll t_ll lens_on false ->
  psf_follows Exact a kr kc psf t_psf psf_convolve ->
  image_follows Exact (fun b => call (ray b) S (at_env src b) (at_env ll b) kr kc (psf b) (X0 b) (Y0 b) source_on lens_on lensed psf_convolve chunk)
    (t_call t_ray S t_src t_ll kr kc t_psf x0 y0 source_on lens_on lensed psf_convolve chunk).
Proof. cbv zeta. intros. apply fwd_call; assumption. Qed.
Lemma any_scene_backward (a : nat -> R) (req : nat -> bool) (S : sim) (ray : (nat -> R) -> R -> R -> R * R) (t_ray : expr -> expr -> expr * expr)
  (X0 Y0 : (nat -> R) -> R) (x0 y0 : expr) (src ll : option ((nat -> R) -> R -> R -> R)) (t_src t_ll : option t_light) (source_on lens_on lensed : bool) (chunk : option nat)
  (kr kc : nat) (psf : (nat -> R) -> nat -> nat -> R) (t_psf : nat -> nat -> expr) (psf_convolve : bool) :
  let Both F t := both_ways F t a req in
  chunk <> Some 0%nat ->
  light_follows Both ray t_ray S X0 Y0 x0 y0 src t_src source_on lensed ->
  light_follows Both ray t_ray S X0 Y0 x0 y0 ll t_ll lens_on false ->
  psf_follows Both a kr kc psf t_psf psf_convolve ->
  image_follows (fun F t => grad_exact F t a req) (fun b => call (ray b) S (at_env src b) (at_env ll b) kr kc (psf b) (X0 b) (Y0 b) source_on lens_on lensed psf_convolve chunk)
    (t_call t_ray S t_src t_ll kr kc t_psf x0 y0 source_on lens_on lensed psf_convolve chunk).
Proof. cbv zeta. intros. apply both_ways_grad, bwd_call; assumption. Qed.
Lemma sie_sersic_image (leg : nat -> (nat -> R) * (nat -> R)) (c : settings) (a : nat -> R) (seed : nat -> option R) (req : nat -> bool) (k_mode k_mode' : bool) (s s_src s_ll : R)
  (source_on lens_on lensed psf_convolve : bool) (chunk : option nat) (kr kc : nat) :
  let S := rebuilt leg c in
  chunk <> Some 0%nat -> 0 <= s -> 0 <= s_src -> 0 <= s_ll -> 0 < a 4%nat <= 1 -> sersic_fine 7 a -> sersic_fine 14 a ->
  at_samples S (fun gx gy => let x := gx + a 0%nat in let y := gy + a 1%nat in
    ((x <> a 2%nat \/ y <> a 3%nat) \/ 0 < s) /\
    (let p := if lensed then sie_lens s a x y else (x, y) in fst p <> a 7%nat \/ snd p <> a 8%nat) /\
    (x <> a 14%nat \/ y <> a 15%nat)) ->
  psf_sum kr kc (free_psf kc a) <> 0 ->
  let image b := call (sie_lens s b) S (Some (sersic_light k_mode s_src 7 b)) (Some (sersic_light k_mode' s_ll 14 b)) kr kc (free_psf kc b) (b 0%nat) (b 1%nat) source_on lens_on lensed psf_convolve chunk in
  let program := t_call (t_sie_lens s) S (Some (t_sersic_light k_mode s_src 7)) (Some (t_sersic_light k_mode' s_ll 14)) kr kc (t_free_psf kc) (Var 0) (Var 1) source_on lens_on lensed psf_convolve chunk in
  (a 4%nat < 1 \/ seed 4%nat = None -> image_follows (fun F t => ad_exact F t a seed) image program) /\
  (a 4%nat < 1 \/ req 4%nat = false -> image_follows (fun F t => grad_exact F t a req) image program).
Proof.
  cbv zeta. intros CH P1 P2 P3 Q F1 F2 OFF PSF. split; intros N; [apply sie_image_fwd|apply sie_image_bwd]; assumption.
Qed.
Lemma fft_spoils (leg : nat -> (nat -> R) * (nat -> R)) (c : settings) (t_ray : expr -> expr -> expr * expr) (t_src : option t_light) (source_on lensed : bool) (chunk : option nat)
  (kr kc : nat) (t_psf : nat -> nat -> expr) (a : nat -> R) (k_mode : bool) (s : R) (i j k : nat) (seed : nat -> option R) (req : nat -> bool) (T : timage) :
  let S := rebuilt leg c in
  chunk <> Some 0%nat -> (i < snd (n_pix (bld S)))%nat -> (j < fst (n_pix (bld S)))%nat -> (k < depth (bld S))%nat -> a 16%nat <> 0 ->
  grid_x (bld S) i j k + a 0%nat = a 14%nat -> grid_y (bld S) i j k + a 1%nat = a 15%nat ->
  seed 14%nat <> None -> req 14%nat = true ->
  pixels_x c = pixels_y c -> (fst (psf_shape c) / 2 = snd (psf_shape c) / 2)%nat -> psf_mode c = "fft"%string -> (kr <> 1 \/ kc <> 1)%nat ->
  t_call t_ray S t_src (Some (t_sersic_light k_mode s 14)) kr kc t_psf (Var 0) (Var 1) source_on true lensed true chunk = Ok T ->
  forall u v, snd (jvp a seed (t_at T u v)) = Some NaN /\ bad (grad a req (t_at T u v) 14).
Proof.
  cbv zeta. intros CH Hi Hj Hk Q EX EY SD RQ P1 P2 MO KK E u v. split.
  - apply (fft_spoils_fwd leg c t_ray t_src source_on lensed chunk kr kc t_psf a k_mode s i j k CH Hi Hj Hk Q EX EY seed T SD P1 P2 MO KK E).
  - apply (fft_spoils_bwd leg c t_ray t_src source_on lensed chunk kr kc t_psf a k_mode s i j k CH Hi Hj Hk Q EX EY req T RQ P1 P2 MO KK E).
Qed.
Lemma plain_spoils_all (leg : nat -> (nat -> R) * (nat -> R)) (c : settings) (t_ray : expr -> expr -> expr * expr) (t_src : option t_light) (source_on lensed : bool) (chunk : option nat)
  (kr kc : nat) (t_psf : nat -> nat -> expr) (a : nat -> R) (k_mode : bool) (s : R) (i j k : nat) (seed : nat -> option R) (req : nat -> bool) (T : timage) :
  let S := rebuilt leg c in
  chunk <> Some 0%nat -> (i < snd (n_pix (bld S)))%nat -> (j < fst (n_pix (bld S)))%nat -> (k < depth (bld S))%nat -> a 16%nat <> 0 ->
  grid_x (bld S) i j k + a 0%nat = a 14%nat -> grid_y (bld S) i j k + a 1%nat = a 15%nat ->
  seed 14%nat <> None -> req 14%nat = true -> (fst (psf_shape c) <= 1)%nat -> (snd (psf_shape c) <= 1)%nat ->
  t_call t_ray S t_src (Some (t_sersic_light k_mode s 14)) kr kc t_psf (Var 0) (Var 1) source_on true lensed false chunk = Ok T ->
  let e := t_at T (i / upsample_factor c) (j / upsample_factor c) in snd (jvp a seed e) = Some NaN /\ bad (grad a req e 14).
Proof.
  cbv zeta. intros CH Hi Hj Hk Q EX EY SD RQ P1 P2 E.
  apply (plain_spoils leg c t_ray t_src source_on lensed chunk kr kc t_psf a k_mode s i j k CH Hi Hj Hk Q EX EY seed req T SD RQ P1 P2 E).
Qed.

(** ** example *)
Lemma sie_x_bound s q R x y : 0 < q < 1 -> 0 <= R -> Rabs (fst (reduced_deflection_angle_sie 0 0 q 0 R s x y)) <= R * sqrt q / sqrt (1 - q ^ 2) * 2.
Proof.
  intros Q PR. unfold reduced_deflection_angle_sie, translate_rotate, derotate. destruct (Req_EM_T q 1); [lra|]. cbn [fst]. rewrite cos_0, sin_0.
  set (k := R * sqrt q / sqrt (1 - q ^ 2)). assert (K : 0 <= k).
  { unfold k. apply Rdiv_le_0_compat; [apply Rmult_le_pos; [exact PR|apply sqrt_pos]|apply sqrt_lt_R0; nra]. }
  match goal with |- Rabs (?u * ?t * 1 - ?w * 0) <= _ => replace (u * t * 1 - w * 0) with (u * t) by ring; change u with k; set (A := t) end.
  rewrite Rabs_mult, (Rabs_pos_eq k K). apply Rmult_le_compat_l; [exact K|]. unfold A. pose proof PI_4. 
  match goal with |- Rabs (atan ?z) <= 2 => pose proof (atan_bound z) end. apply Rabs_le. lra.
Qed.
Lemma sim_hyps : forall leg : nat -> (nat -> R) * (nat -> R),
  (let c := {| pixelscale := 1; pixels_x := 2; pixels_y := 2; upsample_factor := 1; quad_level := None; psf_shape := (1, 1)%nat; psf_mode := "fft" |} in
   let a n := nth n [0; 0; 0; 0; 1 / 2; 0; 1 / 10; 100; 0; 1; 0; 1; 1; 1; 100; 0; 1; 0; 1; 1; 1; 1] 0 in
   0 < a 4%nat < 1 /\ sersic_fine 7 a /\ sersic_fine 14 a /\ psf_sum 1 1 (free_psf 1 a) <> 0 /\
   at_samples (rebuilt leg c) (fun gx gy => let x := gx + a 0%nat in let y := gy + a 1%nat in
     ((x <> a 2%nat \/ y <> a 3%nat) \/ 0 < 0) /\
     (let p := sie_lens 0 a x y in fst p <> a 7%nat \/ snd p <> a 8%nat) /\ (x <> a 14%nat \/ y <> a 15%nat))) /\
  (let c := {| pixelscale := 1; pixels_x := 3; pixels_y := 3; upsample_factor := 1; quad_level := None; psf_shape := (3, 3)%nat; psf_mode := "fft" |} in
   let S := rebuilt leg c in grid_x (bld S) 2 2 0 = 0 /\ grid_y (bld S) 2 2 0 = 0 /\
   exists T, t_call (t_sie_lens 0) S None (Some (t_sersic_light false (1 / 10) 14)) 3 3 (t_free_psf 3) (Var 0) (Var 1) true true true true None = Ok T /\ (t_rows T = 3 /\ t_cols T = 3)%nat).
Proof.
  intros leg. split.
  - cbv zeta. split; [cbn [nth]; lra|split; [unfold sersic_fine; cbn [nth Nat.add]; lra|split; [unfold sersic_fine; cbn [nth Nat.add]; lra|split; [unfold psf_sum, free_psf; cbn; lra|]]]].
    intros i j k Hi Hj Hk. cbv zeta.
    assert (G : (grid_x (bld (rebuilt leg {| pixelscale := 1; pixels_x := 2; pixels_y := 2; upsample_factor := 1; quad_level := None; psf_shape := (1, 1)%nat; psf_mode := "fft" |})) i j k = 1 / 2 \/
                 grid_x (bld (rebuilt leg {| pixelscale := 1; pixels_x := 2; pixels_y := 2; upsample_factor := 1; quad_level := None; psf_shape := (1, 1)%nat; psf_mode := "fft" |})) i j k = - (1 / 2))).
    { cbn in Hj. cbn -[linspace_m1_1]. destruct j as [|[|j]]; [right|left|lia]; unfold linspace_m1_1; cbn; field. }
    set (gx := grid_x _ i j k) in *. set (gy := grid_y _ i j k). cbn [nth].
    split; [left; left; lra|split; [left|left; lra]].
    unfold sie_lens, LensBase_Model.raytrace. cbn [nth].
    pose proof (sie_x_bound 0 (1 / 2) (1 / 10) (gx + 0) (gy + 0) ltac:(lra) ltac:(lra)) as B.
    destruct (reduced_deflection_angle_sie 0 0 (1 / 2) 0 (1 / 10) 0 (gx + 0) (gy + 0)) as [ax ay]. cbn [fst] in *.
    assert (K : 1 / 10 * sqrt (1 / 2) / sqrt (1 - (1 / 2) ^ 2) * 2 <= 1).
    { assert (sqrt (1 / 2) <= 1) by (apply (Rle_trans _ (sqrt 1)); [apply sqrt_le_1_alt; lra|rewrite sqrt_1; lra]).
      assert (S2 : 1 / 2 <= sqrt (1 - (1 / 2) ^ 2)) by (replace (1 / 2) with (sqrt ((1 / 2) ^ 2)) at 1 by (apply sqrt_pow2; lra); apply sqrt_le_1_alt; lra).
      apply (Rmult_le_reg_r (sqrt (1 - (1 / 2) ^ 2))); [lra|]. replace (1 / 10 * sqrt (1 / 2) / sqrt (1 - (1 / 2) ^ 2) * 2 * sqrt (1 - (1 / 2) ^ 2)) with (1 / 5 * sqrt (1 / 2)) by (field; lra). lra. }
    pose proof (Rle_trans _ _ _ B K) as B'. apply Rabs_le_between in B'. lra.
  - cbv zeta. split; [cbn -[linspace_m1_1]; unfold linspace_m1_1; cbn; field|split; [cbn -[linspace_m1_1]; unfold linspace_m1_1; cbn; field|]].
    eexists. split; [reflexivity|]. split; reflexivity.
Qed.
