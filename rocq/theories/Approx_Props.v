(** * C120: a pixelated map approximates the scene it samples *)
From Coq Require Import Reals Lra Lia String.
From Coquelicot Require Import Coquelicot.
From Verif Require Import Py Interp2_Spec PixMap_Model PixMap_Spec PixConv_Model Approx_Spec Approx_Proofs.
Local Open Scope R_scope.

(** PixelatedDeflection: second order in the pixel size, between the outermost pixel centres and in the whole field *)
Theorem C120_deflection : forall h w alpha_x alpha_y x0 y0 pixelscale Mx My x y, 0 < pixelscale -> (2 <= h)%nat -> (2 <= w)%nat ->
  let map k i j := if Nat.eqb k 0 then sampled alpha_x x0 y0 pixelscale h w i j else sampled alpha_y x0 y0 pixelscale h w i j in
  let within e := exists ax ay, pd_reduced_deflection_angle h w map x0 y0 pixelscale x y = Ok (ax, ay) /\ Rabs (ax - alpha_x x y) <= e /\ Rabs (ay - alpha_y x y) <= e in
  (smooth_inner alpha_x x0 y0 pixelscale h w Mx My -> smooth_inner alpha_y x0 y0 pixelscale h w Mx My ->
    in_inner x0 pixelscale w x -> in_inner y0 pixelscale h y -> within (/ 8 * pixelscale ^ 2 * (Mx + My))) /\
  (smooth_field alpha_x x0 y0 pixelscale h w Mx My -> smooth_field alpha_y x0 y0 pixelscale h w Mx My ->
    in_field x0 pixelscale w x -> in_field y0 pixelscale h y -> within (3 / 8 * pixelscale ^ 2 * (2 * Mx + My))).
Proof. intros. split; intros; [apply pd_inner|apply pd_field]; assumption. Qed.
Print Assumptions C120_deflection.
(** its Jacobian: first order *)
Theorem C120_jacobian : forall h w alpha_x alpha_y x0 y0 pixelscale g11 g12 g21 g22 K x y, 0 < pixelscale -> (2 <= h)%nat -> (2 <= w)%nat -> 0 <= K ->
  let rect (R : (R -> R -> R) -> (R -> R -> R) -> R -> R -> R -> R -> R -> Prop) f g :=
    R f g (inner_lo x0 pixelscale w) (inner_hi x0 pixelscale w) (inner_lo y0 pixelscale h) (inner_hi y0 pixelscale h) K in
  rect slope_x alpha_x g11 -> rect slope_y alpha_x g12 -> rect slope_x alpha_y g21 -> rect slope_y alpha_y g22 ->
  in_inner x0 pixelscale w x -> in_inner y0 pixelscale h y -> off_grid x0 pixelscale w x -> off_grid y0 pixelscale h y ->
  let map k i j := if Nat.eqb k 0 then sampled alpha_x x0 y0 pixelscale h w i j else sampled alpha_y x0 y0 pixelscale h w i j in
  let alpha x y := pd_reduced_deflection_angle h w map x0 y0 pixelscale x y in
  let ax r := match r with Ok (a, _) => a | Raise _ => 0 end in
  let ay r := match r with Ok (_, a) => a | Raise _ => 0 end in
  exists d11 d12 d21 d22,
    is_derive (fun x => ax (alpha x y)) x d11 /\ is_derive (fun y => ax (alpha x y)) y d12 /\
    is_derive (fun x => ay (alpha x y)) x d21 /\ is_derive (fun y => ay (alpha x y)) y d22 /\
    Rabs (d11 - g11 x y) <= K * pixelscale /\ Rabs (d12 - g12 x y) <= K * pixelscale /\
    Rabs (d21 - g21 x y) <= K * pixelscale /\ Rabs (d22 - g22 x y) <= K * pixelscale.
Proof. intros h w a1 a2 x0 y0 ps g11 g12 g21 g22 K x y P Hh Hw. exact (pd_jacobian h w a1 a2 x0 y0 ps P Hh Hw g11 g12 g21 g22 K x y). Qed.
Print Assumptions C120_jacobian.
(** more pixels on the same field bring the map as close as wanted to the lens it samples, everywhere in the field *)
Theorem C120_converges : forall alpha_x alpha_y x0 y0 fov Mx My e, 0 < fov -> 0 < e ->
  scene alpha_x (x0 - fov / 2) (x0 + fov / 2) (y0 - fov / 2) (y0 + fov / 2) Mx My ->
  scene alpha_y (x0 - fov / 2) (x0 + fov / 2) (y0 - fov / 2) (y0 + fov / 2) Mx My ->
  exists N, forall n, (N <= n)%nat -> forall x y, x0 - fov / 2 <= x <= x0 + fov / 2 -> y0 - fov / 2 <= y <= y0 + fov / 2 ->
  let ps := fov / INR n in
  exists ax ay, pd_reduced_deflection_angle n n (fun k i j => if Nat.eqb k 0 then sampled alpha_x x0 y0 ps n n i j else sampled alpha_y x0 y0 ps n n i j) x0 y0 ps x y
      = Ok (ax, ay) /\ Rabs (ax - alpha_x x y) <= e /\ Rabs (ay - alpha_y x y) <= e.
Proof. exact pd_converges. Qed.
Print Assumptions C120_converges.
(** Pixelated *)
Theorem C120_source : forall h w f x0 y0 pixelscale scale padding Mx My x y, 0 < pixelscale -> (2 <= h)%nat -> (2 <= w)%nat -> is_padding2 padding ->
  let within e := close_to (px_brightness 2 h w (sampled f x0 y0 pixelscale h w) x0 y0 pixelscale scale padding x y) (scale * f x y) (Rabs scale * e) Ok in
  (smooth_inner f x0 y0 pixelscale h w Mx My -> in_inner x0 pixelscale w x -> in_inner y0 pixelscale h y -> within (/ 8 * pixelscale ^ 2 * (Mx + My))) /\
  (smooth_field f x0 y0 pixelscale h w Mx My -> in_field x0 pixelscale w x -> in_field y0 pixelscale h y -> within (3 / 8 * pixelscale ^ 2 * (2 * Mx + My))).
Proof.
  intros h w f x0 y0 ps s p Mx My x y P Hh Hw V within. split; intros S Hx Hy; eexists.
  - split; [apply px_value; try assumption; apply inner_field; assumption|]. apply scaled_close, linear2_inner; assumption.
  - split; [apply px_value; assumption|]. apply scaled_close, linear2_field; assumption.
Qed.
Print Assumptions C120_source.
(** the bound cannot be improved *)
Theorem C120_sharp : forall h w x0 y0 pixelscale, 0 < pixelscale -> (2 <= h)%nat -> (2 <= w)%nat ->
  exists f Mx My x y, smooth_inner f x0 y0 pixelscale h w Mx My /\ in_inner x0 pixelscale w x /\ in_inner y0 pixelscale h y /\
  exists v, px_brightness 2 h w (sampled f x0 y0 pixelscale h w) x0 y0 pixelscale 1 "zeros" x y = Ok v /\ v - f x y = / 8 * pixelscale ^ 2 * (Mx + My).
Proof.
  intros h w x0 y0 ps P Hh Hw. exists (fun x _ => x ^ 2), 2, 0. destruct (sharp h w x0 y0 ps P Hh Hw) as (A & B & C). do 2 eexists.
  split; [apply parabola_scene|]. split; [exact A|]. split; [exact B|exact C].
Qed.
Print Assumptions C120_sharp.
(** PixelatedConvergence: the convergence it returns *)
Theorem C120_convergence : forall L f x0 y0 scale Mx My x y, let ps := pc_pixelscale L in let n := pc_n L in 0 < ps -> (2 <= n)%nat ->
  let within e := close_to (pc_convergence L x0 y0 (sampled f x0 y0 ps n n) scale x y) (scale * f x y) (Rabs scale * e) Ok in
  (smooth_inner f x0 y0 ps n n Mx My -> in_inner x0 ps n x -> in_inner y0 ps n y -> within (/ 8 * ps ^ 2 * (Mx + My))) /\
  (smooth_field f x0 y0 ps n n Mx My -> in_field x0 ps n x -> in_field y0 ps n y -> within (3 / 8 * ps ^ 2 * (2 * Mx + My))).
Proof.
  intros L f x0 y0 s Mx My x y ps n P Hn within. split; intros S Hx Hy; eexists.
  - split; [apply pc_value; try assumption; apply inner_field; assumption|]. apply scaled_close, linear2_inner; assumption.
  - split; [apply pc_value; assumption|]. apply scaled_close, linear2_field; assumption.
Qed.
Print Assumptions C120_convergence.
(** PixelatedTime: frames at the middles of d equal intervals of [0, t_end] *)
Theorem C120_time : forall d h w f x0 y0 pixelscale t_end scale Mx My Mt x y t, 0 < pixelscale -> 0 < t_end -> (2 <= d)%nat -> (2 <= h)%nat -> (2 <= w)%nat ->
  let dt := t_end / INR d in let ti := inner_lo (t_end / 2) dt d in let te := inner_hi (t_end / 2) dt d in
  scene3 f (inner_lo x0 pixelscale w) (inner_hi x0 pixelscale w) (inner_lo y0 pixelscale h) (inner_hi y0 pixelscale h) ti te Mx My Mt ->
  in_inner x0 pixelscale w x -> in_inner y0 pixelscale h y -> in_inner (t_end / 2) dt d t ->
  close_to (pt_brightness 3 d h w (fun k i j => f (pixel_centre x0 pixelscale w j) (pixel_centre y0 pixelscale h i) (pixel_centre (t_end / 2) dt d k))
      x0 y0 pixelscale t_end scale x y t)
    (scale * f x y t) (Rabs scale * (/ 8 * (pixelscale ^ 2 * (Mx + My) + dt ^ 2 * Mt))) Ok.
Proof. exact pt_close. Qed.
Print Assumptions C120_time.

(** a map of 3 by 4 pixels of the deflection x^2 + y, a position off the pixel centres *)
Example C120_hyps : smooth_field (fun x y => x ^ 2 + y) 0 0 1 3 4 2 0 /\ in_inner 0 1 4 (1 / 4) /\ in_field 0 1 4 2 /\ ~ in_inner 0 1 4 2 /\
  off_grid 0 1 4 (1 / 4) /\ slope_x (fun x y => x ^ 2 + y) (fun x _ => 2 * x) (-2) 2 (-2) 2 2 /\ slope_y (fun x y => x ^ 2 + y) (fun _ _ => 1) (-2) 2 (-2) 2 2.
Proof.
  unfold smooth_field, in_inner, in_field, inner_lo, inner_hi, field_lo, field_hi, pixel_centre. cbn [INR Nat.sub]. split.
  { split; intros v _.
    - exists (fun x => 2 * x), (fun _ => 2). intros s _. split; [auto_derive; [exact I|ring]|]. split; [auto_derive; [exact I|ring]|]. rewrite Rabs_pos_eq; lra.
    - exists (fun _ => 1), (fun _ => 0). intros s _. split; [auto_derive; [exact I|ring]|]. split; [auto_derive; [exact I|ring]|]. rewrite Rabs_R0; lra. }
  split; [lra|]. split; [lra|]. split; [lra|]. split.
  { intros i Hi. unfold pixel_centre. destruct i as [|[|[|[|i]]]]; [| | | |lia]; cbn [INR]; lra. }
  split; split.
  - intros x y _ _. auto_derive; [exact I|ring].
  - intros x y x' y' _ _ _ _. replace (2 * x - 2 * x') with (2 * (x - x')) by ring. rewrite Rabs_mult, (Rabs_pos_eq 2) by lra. assert (Q := Rabs_pos (y - y')). lra.
  - intros y x _ _. auto_derive; [exact I|ring].
  - intros y x y' x' _ _ _ _. replace (1 - 1) with 0 by ring. rewrite Rabs_R0. assert (Q := Rabs_pos (y - y')). assert (Q' := Rabs_pos (x - x')). lra.
Qed.
