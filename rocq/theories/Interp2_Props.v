(** * C09, C10: image and cube interpolation *)
From Coq Require Import Reals String Lra Lia.
From Verif Require Import Py Interp2_Model Interp2_Spec Interp2_Proofs.
Open Scope R_scope.

(** [(2, dx, dy)] says: a two-dimensional image, queries with dx and dy dimensions *)
Theorem C09_pixel_centres : forall dx dy h w im i j method padding, (dx <= 1)%nat -> (dy <= 1)%nat ->
  is_method method -> is_padding2 padding -> (i < h)%nat -> (j < w)%nat ->
  interp2d (2%nat, dx, dy) h w im (centre w j) (centre h i) method padding = Ok (im i j).
Proof. exact centre2. Qed.
Print Assumptions C09_pixel_centres.
(** only the surrounding pixels matter and their range is never left *)
Theorem C09_no_overshoot : forall dx dy, (dx <= 1)%nat -> (dy <= 1)%nat -> forall h w im x y padding lo hi,
  is_padding2 padding -> (1 <= h)%nat -> (1 <= w)%nat -> in_hull w x -> in_hull h y ->
  (forall i j, surrounds h y i -> surrounds w x j -> lo <= im i j <= hi) ->
  exists v, interp2d (2%nat, dx, dy) h w im x y "linear" padding = Ok v /\ lo <= v <= hi.
Proof. exact final_bounds2. Qed.
Print Assumptions C09_no_overshoot.
Theorem C09_affine : forall dx dy, (dx <= 1)%nat -> (dy <= 1)%nat -> forall h w im x y padding a b c,
  is_padding2 padding -> (1 <= h)%nat -> (1 <= w)%nat -> in_hull w x -> in_hull h y ->
  (forall i j, (i < h)%nat -> (j < w)%nat -> im i j = a + b * centre w j + c * centre h i) ->
  interp2d (2%nat, dx, dy) h w im x y "linear" padding = Ok (a + b * x + c * y).
Proof. exact final_affine2. Qed.
Print Assumptions C09_affine.
Theorem C09_nearest : forall dx dy, (dx <= 1)%nat -> (dy <= 1)%nat -> forall h w im x y padding,
  is_padding2 padding -> (1 <= h)%nat -> (1 <= w)%nat -> -1 <= x <= 1 -> -1 <= y <= 1 ->
  exists i j, closest h y i /\ closest w x j /\ interp2d (2%nat, dx, dy) h w im x y "nearest" padding = Ok (im i j).
Proof. exact final_nearest2. Qed.
Print Assumptions C09_nearest.
Theorem C09_zeros_outside : forall dx dy h w im x y method, (dx <= 1)%nat -> (dy <= 1)%nat -> is_method method ->
  (x < -1 \/ 1 < x \/ y < -1 \/ 1 < y) -> interp2d (2%nat, dx, dy) h w im x y method "zeros" = Ok 0.
Proof. exact zeros2. Qed.
Print Assumptions C09_zeros_outside.
(** clamp mode is any mode at the clamped query *)
Theorem C09_clamp : forall dx dy h w im x y method padding, (dx <= 1)%nat -> (dy <= 1)%nat ->
  is_method method -> is_padding2 padding ->
  interp2d (2%nat, dx, dy) h w im x y method "clamp" =
  interp2d (2%nat, dx, dy) h w im (Rmax (-1) (Rmin 1 x)) (Rmax (-1) (Rmin 1 y)) method padding.
Proof. exact clamp2. Qed.
Print Assumptions C09_clamp.
Theorem C09_errors : forall di dx dy h w im x y method padding,
  di <> 2%nat \/ (1 < dx)%nat \/ (1 < dy)%nat \/ ~ is_method method \/ ~ is_padding2 padding ->
  interp2d (di, dx, dy) h w im x y method padding = Raise ValueError.
Proof. exact error2. Qed.
Print Assumptions C09_errors.
(** a 2 by 3 image and a query off the centres *)
Example C09_hyps : is_method "linear" /\ is_padding2 "zeros" /\ in_hull 3 (1 / 3) /\ in_hull 2 (1 / 4) /\
  surrounds 2 (1 / 4) 1 /\ surrounds 3 (1 / 3) 2 /\ ~ surrounds 3 (1 / 3) 0 /\ ~ is_method "cubic".
Proof.
  unfold is_method, is_padding2, in_hull, surrounds, centre. simpl.
  split; [auto|]. split; [auto|]. split; [lra|]. split; [lra|].
  split; [split; [lia|rewrite Rabs_right; lra]|]. split; [split; [lia|rewrite Rabs_right; lra]|].
  split; [intros [_ H]; rewrite Rabs_left in H; lra|]. intros [H|H]; discriminate.
Qed.

Theorem C10_voxel_centres : forall dt d h w cu k i j method padding, (dt <= 1)%nat ->
  is_method method -> is_padding3 padding -> (k < d)%nat -> (i < h)%nat -> (j < w)%nat ->
  interp3d (3%nat, dt) d h w cu (centre w j) (centre h i) (centre d k) method padding = Ok (cu k i j).
Proof. exact centre3. Qed.
Print Assumptions C10_voxel_centres.
Theorem C10_no_overshoot : forall dt, (dt <= 1)%nat -> forall d h w cu x y t padding lo hi,
  is_padding3 padding -> (1 <= d)%nat -> (1 <= h)%nat -> (1 <= w)%nat -> in_hull w x -> in_hull h y -> in_hull d t ->
  (forall k i j, surrounds d t k -> surrounds h y i -> surrounds w x j -> lo <= cu k i j <= hi) ->
  exists v, interp3d (3%nat, dt) d h w cu x y t "linear" padding = Ok v /\ lo <= v <= hi.
Proof. exact final_bounds3. Qed.
Print Assumptions C10_no_overshoot.
Theorem C10_affine : forall dt, (dt <= 1)%nat -> forall d h w cu x y t padding a b c e,
  is_padding3 padding -> (1 <= d)%nat -> (1 <= h)%nat -> (1 <= w)%nat -> in_hull w x -> in_hull h y -> in_hull d t ->
  (forall k i j, (k < d)%nat -> (i < h)%nat -> (j < w)%nat -> cu k i j = a + b * centre w j + c * centre h i + e * centre d k) ->
  interp3d (3%nat, dt) d h w cu x y t "linear" padding = Ok (a + b * x + c * y + e * t).
Proof. exact final_affine3. Qed.
Print Assumptions C10_affine.
Theorem C10_nearest : forall dt, (dt <= 1)%nat -> forall d h w cu x y t padding,
  is_padding3 padding -> (1 <= d)%nat -> (1 <= h)%nat -> (1 <= w)%nat -> -1 <= x <= 1 -> -1 <= y <= 1 -> -1 <= t <= 1 ->
  exists k i j, closest d t k /\ closest h y i /\ closest w x j /\
    interp3d (3%nat, dt) d h w cu x y t "nearest" padding = Ok (cu k i j).
Proof. exact final_nearest3. Qed.
Print Assumptions C10_nearest.
Theorem C10_zeros_outside : forall dt d h w cu x y t method, (dt <= 1)%nat -> is_method method ->
  (x < -1 \/ 1 < x \/ y < -1 \/ 1 < y \/ t < -1 \/ 1 < t) -> interp3d (3%nat, dt) d h w cu x y t method "zeros" = Ok 0.
Proof. exact zeros3. Qed.
Print Assumptions C10_zeros_outside.
Theorem C10_errors : forall di dt d h w cu x y t method padding,
  di <> 3%nat \/ (1 < dt)%nat \/ ~ is_method method \/ ~ is_padding3 padding ->
  interp3d (di, dt) d h w cu x y t method padding = Raise ValueError.
Proof. exact error3. Qed.
Print Assumptions C10_errors.
(** a cube with three different sides *)
Example C10_hyps : is_method "nearest" /\ is_padding3 "zeros" /\ in_hull 4 (1 / 2) /\ in_hull 3 (1 / 3) /\ in_hull 2 (1 / 4) /\
  ~ is_padding3 "clamp".
Proof.
  unfold is_method, is_padding3, in_hull, centre. simpl.
  split; [auto|]. split; [auto|]. split; [lra|]. split; [lra|]. split; [lra|]. intros [H|H]; discriminate.
Qed.
