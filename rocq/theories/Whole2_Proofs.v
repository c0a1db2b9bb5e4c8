(** * Proofs about images of a scene that is moved, mirrored or turned as a whole (C124) *)
From Coq Require Import Reals Lra Lia List Arith Bool String.
From Verif Require Import Py Fsum Quad_Model Sim_Model Sim_Spec Sim_Proofs Sim2_Proofs PsfEffect_Spec Whole_Spec.
Local Open Scope R_scope.

(** ** a shift *)
Lemma vmap_rel {A A' B} chunk (f : A -> B) (f' : A' -> B) (g : A -> A') l : (forall v, f' (g v) = f v) -> vmap chunk f' (map g l) = vmap chunk f l.
Proof.
  intros H. assert (E : forall n, n = 0%nat \/ (1 <= n)%nat) by (intros; lia).
  destruct chunk as [c|].
  - destruct (E c) as [->|Hc]; [reflexivity|]. rewrite !vmap_val by (intros K; injection K; lia). f_equal. rewrite map_map. apply map_ext. exact H.
  - cbn. f_equal. rewrite map_map. apply map_ext. exact H.
Qed.
Lemma vmap_map {A A' B B'} chunk (f : A -> B) (f' : A' -> B') (g : A -> A') (h : B -> B') l : (forall v, f' (g v) = h (f v)) ->
  vmap chunk f' (map g l) = bind (vmap chunk f l) (fun r => Ok (map h r)).
Proof.
  intros H. assert (E : forall n, n = 0%nat \/ (1 <= n)%nat) by (intros; lia).
  destruct chunk as [c|].
  - destruct (E c) as [->|Hc]; [reflexivity|]. rewrite !vmap_val by (intros K; injection K; lia). cbn. f_equal. rewrite !map_map. apply map_ext. exact H.
  - cbn. f_equal. rewrite !map_map. apply map_ext. exact H.
Qed.
Section Shift.
Variables (a b : R) (ray ray' : R -> R -> R * R) (src src' ll ll' : option light).
Hypothesis HR : moved_ray unturned a b ray ray'. Hypothesis HS : moved_light unturned a b src src'. Hypothesis HL : moved_light unturned a b ll ll'.
Let g (p : R * R) : R * R := (fst p + a, snd p + b).
Lemma carry_shift x y : carry unturned a b (x, y) = (x + a, y + b).
Proof. unfold carry, apply, unturned. cbn. f_equal; ring. Qed.
Lemma points_shift S x0 y0 : points S (x0 + a) (y0 + b) = map g (points S x0 y0).
Proof. unfold points, flat. rewrite map_map. apply map_ext. intros k. unfold g. cbn. f_equal; ring. Qed.
Lemma light_shift f f' : moved_light unturned a b (Some f) (Some f') -> forall p, f' (fst (g p)) (snd (g p)) = f (fst p) (snd p).
Proof. intros H [x y]. specialize (H x y). cbv zeta in H. rewrite carry_shift in H. exact H. Qed.
Lemma scene_shift S x0 y0 so lo le chunk : scene ray' S src' ll' (x0 + a) (y0 + b) so lo le chunk = scene ray S src ll x0 y0 so lo le chunk.
Proof.
  unfold scene. rewrite points_shift. set (pts := points S x0 y0). f_equal; [|].
  - destruct src as [f|], src' as [f'|]; try contradiction; [|reflexivity]. assert (F := light_shift f f' HS).
    destruct so; [|reflexivity]. destruct le.
    + rewrite (vmap_map chunk (fun p => ray (fst p) (snd p)) (fun p => ray' (fst p) (snd p)) g g).
      * destruct (vmap chunk (fun p => ray (fst p) (snd p)) pts) as [r|e]; [|reflexivity]. cbn [bind]. rewrite (vmap_rel chunk (fun p => f (fst p) (snd p)) (fun p => f' (fst p) (snd p)) g r F). reflexivity.
      * intros [x y]. specialize (HR x y). cbv zeta in HR. rewrite carry_shift in HR. unfold g. cbn [fst snd] in *. rewrite HR. destruct (ray x y) as [u v]. rewrite carry_shift. reflexivity.
    + rewrite (vmap_rel chunk (fun p => f (fst p) (snd p)) (fun p => f' (fst p) (snd p)) g pts F). reflexivity.
  - destruct ll as [f|], ll' as [f'|]; try contradiction; [|reflexivity]. assert (F := light_shift f f' HL).
    destruct lo; [|reflexivity]. rewrite (vmap_rel chunk (fun p => f (fst p) (snd p)) (fun p => f' (fst p) (snd p)) g pts F). reflexivity.
Qed.
Lemma call_shift S kr kc psf x0 y0 so lo le conv chunk : call ray' S src' ll' kr kc psf (x0 + a) (y0 + b) so lo le conv chunk = call ray S src ll kr kc psf x0 y0 so lo le conv chunk.
Proof. unfold call. rewrite scene_shift. reflexivity. Qed.
End Shift.

(** ** reflections: the ingredients of an image *)
Lemma brightness_moved M a b ray ray' src src' ll ll' so lo le x y : moved_ray M a b ray ray' -> moved_light M a b src src' -> moved_light M a b ll ll' ->
  let p := carry M a b (x, y) in scene_brightness ray' src' ll' so lo le (fst p) (snd p) = scene_brightness ray src ll so lo le x y.
Proof.
  intros HR HS HL p. unfold scene_brightness. f_equal.
  - destruct src as [f|], src' as [f'|]; try contradiction; [|reflexivity]. destruct so; [|reflexivity]. destruct le; [|apply HS].
    unfold p. rewrite (HR x y). destruct (ray x y) as [u v]. exact (HS u v).
  - destruct ll as [f|], ll' as [f'|]; try contradiction; [|reflexivity]. destruct lo; [apply HL|reflexivity].
Qed.
Lemma quad_blocks l ab w F d x y : quad l ab w F d x y = fsum l (fun i => fsum l (fun j => F (x + d * ab j / 2) (y + d * ab i / 2) * (w i * w j / 4))).
Proof.
  unfold quad, gaussian_quadrature_integrator. rewrite fsum_blocks. apply fsum_ext. intros i Hi. apply fsum_ext. intros j Hj.
  unfold grid_X, grid_Y, table_X, table_Y, table_W. rewrite Nat.div_add_l, Nat.div_small, Nat.add_0_r by lia. rewrite (Nat.add_comm (i * l) j), Nat.mod_add, Nat.mod_small by lia. reflexivity.
Qed.
Lemma sub_mean_flip leg lv B B' d x y : even_rule leg lv -> (forall x y, B' x (- y) = B x y) -> sub_mean leg lv B' d x (- y) = sub_mean leg lv B d x y.
Proof.
  intros E H. unfold sub_mean. destruct lv as [l|]; [|apply H]. destruct (Nat.ltb 1 l); [|apply H].
  rewrite !quad_blocks. rewrite (fsum_rev l (fun i => fsum l (fun j => B' _ _ * _))). apply fsum_ext. intros i Hi. apply fsum_ext. intros j Hj.
  destruct (E i Hi) as [E1 E2]. rewrite E1, E2. rewrite <- H. f_equal. f_equal. unfold Rdiv. ring.
Qed.
Lemma sub_mean_swap leg lv B B' d x y : (forall x y, B' y x = B x y) -> sub_mean leg lv B' d y x = sub_mean leg lv B d x y.
Proof.
  intros H. unfold sub_mean. destruct lv as [l|]; [|apply H]. destruct (Nat.ltb 1 l); [|apply H].
  rewrite !quad_blocks, fsum_swap. apply fsum_ext. intros i Hi. apply fsum_ext. intros j Hj. rewrite <- H. f_equal. unfold Rdiv. ring.
Qed.
Lemma total_flip kr kc psf : total kr kc (fun u v => psf (kr - 1 - u)%nat v) = total kr kc psf.
Proof. unfold total. rewrite (fsum_rev kr (fun u => fsum kc (fun v => psf u v))). reflexivity. Qed.
Lemma total_swap kr kc psf : total kc kr (fun v u => psf u v) = total kr kc psf.
Proof. unfold total. apply fsum_swap. Qed.
Lemma blurred_flip kr kc psf d B B' x y : Nat.odd kr = true -> (forall x y, B' x (- y) = B x y) ->
  blurred kr kc (fun u v => psf (kr - 1 - u)%nat v) d B' x (- y) = blurred kr kc psf d B x y.
Proof.
  intros O H. unfold blurred. change (fsum kr (fun u' => fsum kc (fun v => psf (kr - 1 - u')%nat v))) with (total kr kc (fun u v => psf (kr - 1 - u)%nat v)). rewrite (total_flip kr kc psf).
  change (fsum kr (fun u' => fsum kc (psf u'))) with (total kr kc psf).
  rewrite (fsum_rev kr (fun u => fsum kc (fun v => psf u v / _ * _))). apply fsum_ext. intros u Hu. apply fsum_ext. intros v Hv. f_equal. rewrite <- H. f_equal.
  apply Nat.odd_spec in O. destruct O as [m ->]. replace ((2 * m + 1) / 2)%nat with m by (rewrite Nat.add_comm, Nat.mul_comm, Nat.div_add by lia; reflexivity).
  replace (2 * m + 1 - 1 - u)%nat with (2 * m - u)%nat by lia. rewrite minus_INR by lia. rewrite mult_INR. cbn [INR]. ring.
Qed.
Lemma blurred_swap kr kc psf d B B' x y : (forall x y, B' y x = B x y) -> blurred kc kr (fun v u => psf u v) d B' y x = blurred kr kc psf d B x y.
Proof.
  intros H. unfold blurred. change (fsum kc (fun u' => fsum kr (fun u => psf u u'))) with (total kc kr (fun v u => psf u v)). rewrite (total_swap kr kc psf).
  change (fsum kr (fun u' => fsum kc (psf u'))) with (total kr kc psf). rewrite fsum_swap. apply fsum_ext. intros u Hu. apply fsum_ext. intros v Hv. rewrite <- H. reflexivity.
Qed.
Lemma sub_centre_flip y0 d n k : (k < n)%nat -> sub_centre (- y0) d n k = - sub_centre y0 d n (n - 1 - k).
Proof. intros H. unfold sub_centre. rewrite !minus_INR by lia. cbn [INR]. field. Qed.
Lemma pixel_value_flip up px py x0 y0 d B B' i j : (i < py)%nat -> (forall x y, B' x (- y) = B x y) ->
  pixel_value up px py x0 (- y0) d B' i j = pixel_value up px py x0 y0 d B (py - 1 - i) j.
Proof.
  intros Hi H. unfold pixel_value. f_equal. rewrite (fsum_rev up (fun a => fsum up (fun b => B _ _))). apply fsum_ext. intros a Ha. apply fsum_ext. intros b Hb.
  rewrite <- H. f_equal. rewrite sub_centre_flip by nia. f_equal. f_equal. nia.
Qed.
Lemma pixel_value_swap up px py x0 y0 d B B' i j : (forall x y, B' y x = B x y) -> pixel_value up py px y0 x0 d B' j i = pixel_value up px py x0 y0 d B i j.
Proof. intros H. unfold pixel_value. f_equal. rewrite fsum_swap. apply fsum_ext. intros a Ha. apply fsum_ext. intros b Hb. apply H. Qed.
(** in the first axis, from the other two *)
Lemma sub_mean_flip_x leg lv B B' d x y : even_rule leg lv -> (forall x y, B' (- x) y = B x y) -> sub_mean leg lv B' d (- x) y = sub_mean leg lv B d x y.
Proof.
  intros E H. rewrite <- (sub_mean_swap leg lv B (fun y x => B x y) d x y) by reflexivity. rewrite <- (sub_mean_swap leg lv B' (fun y x => B' x y) d (- x) y) by reflexivity.
  apply sub_mean_flip; [exact E|]. intros u v. apply H.
Qed.
Lemma blurred_flip_x kr kc psf d B B' x y : Nat.odd kc = true -> (forall x y, B' (- x) y = B x y) ->
  blurred kr kc (fun u v => psf u (kc - 1 - v)%nat) d B' (- x) y = blurred kr kc psf d B x y.
Proof.
  intros O H. rewrite <- (blurred_swap kr kc psf d B (fun y x => B x y) x y) by reflexivity.
  rewrite <- (blurred_swap kr kc (fun u v => psf u (kc - 1 - v)%nat) d B' (fun y x => B' x y) (- x) y) by reflexivity.
  apply (blurred_flip kc kr (fun v u => psf u v)); [exact O|]. intros u v. apply H.
Qed.
Lemma pixel_value_flip_x up px py x0 y0 d B B' i j : (j < px)%nat -> (forall x y, B' (- x) y = B x y) ->
  pixel_value up px py (- x0) y0 d B' i j = pixel_value up px py x0 y0 d B i (px - 1 - j).
Proof.
  intros Hj H. rewrite <- (pixel_value_swap up px py x0 y0 d B (fun y x => B x y) i (px - 1 - j)) by reflexivity.
  rewrite <- (pixel_value_swap up px py (- x0) y0 d B' (fun y x => B' x y) i j) by reflexivity. apply pixel_value_flip; [exact Hj|]. intros u v. apply H.
Qed.
Lemma total_flip_x kr kc psf : total kr kc (fun u v => psf u (kc - 1 - v)%nat) = total kr kc psf.
Proof. unfold total. apply fsum_ext. intros u _. rewrite (fsum_rev kc (fun v => psf u v)). reflexivity. Qed.

(** ** images *)
Definition blur (conv : bool) kr kc psf d (B : R -> R -> R) : R -> R -> R := if conv then blurred kr kc psf d B else B.
Lemma image_val leg ps px py up lv mode kr kc psf ray src ll x0 y0 so lo le conv chunk :
  (1 <= px)%nat -> (1 <= py)%nat -> (1 <= up)%nat -> (1 <= kr)%nat -> (1 <= kc)%nat -> chunk <> Some 0%nat ->
  (conv = true -> total kr kc psf <> 0 /\ mode_agrees mode px py kr kc) ->
  exists im, call ray (new_sim leg ps px (Some py) up lv mode (kr, kc)) src ll kr kc psf x0 y0 so lo le conv chunk = Ok im /\ rows im = py /\ cols im = px /\
  forall i j, (i < py)%nat -> (j < px)%nat -> at_ im i j =
    pixel_value up px py x0 y0 (ps / INR up) (blur conv kr kc psf (ps / INR up) (sub_mean leg lv (scene_brightness ray src ll so lo le) (ps / INR up))) i j.
Proof.
  intros PX PY UP KR KC CH H. destruct conv.
  - destruct (H eq_refl) as [T [->|(-> & E1 & E2)]]; cbn [blur]; [apply new_conv2d|apply new_fft]; assumption.
  - apply new_plain; assumption.
Qed.
Section Reflect.
Variables (leg : nat -> (nat -> R) * (nat -> R)) (ps : R) (px py up : nat) (lv : option nat) (mode : string) (kr kc : nat) (psf : nat -> nat -> R).
Variables (ray ray' : R -> R -> R * R) (src src' ll ll' : option light) (x0 y0 : R) (so lo le conv : bool) (chunk : option nat).
Hypothesis PX : (1 <= px)%nat. Hypothesis PY : (1 <= py)%nat. Hypothesis UP : (1 <= up)%nat. Hypothesis KR : (1 <= kr)%nat. Hypothesis KC : (1 <= kc)%nat.
Hypothesis CH : chunk <> Some 0%nat.
Hypothesis T : conv = true -> total kr kc psf <> 0 /\ mode_agrees mode px py kr kc.
Notation sim := (new_sim leg ps px (Some py) up lv mode (kr, kc)).
Lemma image_flip_y : even_rule leg lv -> (conv = true -> Nat.odd kr = true) -> moved_ray flipped_y 0 0 ray ray' -> moved_light flipped_y 0 0 src src' -> moved_light flipped_y 0 0 ll ll' ->
  exists im im', call ray sim src ll kr kc psf x0 y0 so lo le conv chunk = Ok im /\
  call ray' sim src' ll' kr kc (fun u v => psf (kr - 1 - u)%nat v) x0 (- y0) so lo le conv chunk = Ok im' /\
  rows im = py /\ cols im = px /\ rows im' = py /\ cols im' = px /\ forall i j, (i < py)%nat -> (j < px)%nat -> at_ im' i j = at_ im (py - 1 - i)%nat j.
Proof.
  intros E O HR HS HL.
  destruct (image_val leg ps px py up lv mode kr kc psf ray src ll x0 y0 so lo le conv chunk PX PY UP KR KC CH T) as (im & C & r & c & V).
  destruct (image_val leg ps px py up lv mode kr kc (fun u v => psf (kr - 1 - u)%nat v) ray' src' ll' x0 (- y0) so lo le conv chunk PX PY UP KR KC CH) as (im' & C' & r' & c' & V').
  { intros Hc. rewrite total_flip. apply T. exact Hc. }
  exists im, im'. repeat (split; [assumption|]). intros i j Hi Hj. rewrite V', V by (assumption || lia). apply pixel_value_flip; [exact Hi|].
  assert (Bf : forall x y, scene_brightness ray' src' ll' so lo le x (- y) = scene_brightness ray src ll so lo le x y).
  { intros x y. rewrite <- (brightness_moved flipped_y 0 0 ray ray' src src' ll ll' so lo le x y HR HS HL). unfold carry, apply, flipped_y. cbn. f_equal; ring. }
  intros x y. unfold blur. destruct conv.
  - apply blurred_flip; [apply O; reflexivity|]. intros u v. apply sub_mean_flip; [exact E|exact Bf].
  - apply sub_mean_flip; [exact E|exact Bf].
Qed.
Lemma image_flip_x : even_rule leg lv -> (conv = true -> Nat.odd kc = true) -> moved_ray flipped_x 0 0 ray ray' -> moved_light flipped_x 0 0 src src' -> moved_light flipped_x 0 0 ll ll' ->
  exists im im', call ray sim src ll kr kc psf x0 y0 so lo le conv chunk = Ok im /\
  call ray' sim src' ll' kr kc (fun u v => psf u (kc - 1 - v)%nat) (- x0) y0 so lo le conv chunk = Ok im' /\
  rows im = py /\ cols im = px /\ rows im' = py /\ cols im' = px /\ forall i j, (i < py)%nat -> (j < px)%nat -> at_ im' i j = at_ im i (px - 1 - j)%nat.
Proof.
  intros E O HR HS HL.
  destruct (image_val leg ps px py up lv mode kr kc psf ray src ll x0 y0 so lo le conv chunk PX PY UP KR KC CH T) as (im & C & r & c & V).
  destruct (image_val leg ps px py up lv mode kr kc (fun u v => psf u (kc - 1 - v)%nat) ray' src' ll' (- x0) y0 so lo le conv chunk PX PY UP KR KC CH) as (im' & C' & r' & c' & V').
  { intros Hc. rewrite total_flip_x. apply T. exact Hc. }
  exists im, im'. repeat (split; [assumption|]). intros i j Hi Hj. rewrite V', V by (assumption || lia). apply pixel_value_flip_x; [exact Hj|].
  assert (Bf : forall x y, scene_brightness ray' src' ll' so lo le (- x) y = scene_brightness ray src ll so lo le x y).
  { intros x y. rewrite <- (brightness_moved flipped_x 0 0 ray ray' src src' ll ll' so lo le x y HR HS HL). unfold carry, apply, flipped_x. cbn. f_equal; ring. }
  intros x y. unfold blur. destruct conv.
  - apply blurred_flip_x; [apply O; reflexivity|]. intros u v. apply sub_mean_flip_x; [exact E|exact Bf].
  - apply sub_mean_flip_x; [exact E|exact Bf].
Qed.
Lemma image_swap : moved_ray swapped 0 0 ray ray' -> moved_light swapped 0 0 src src' -> moved_light swapped 0 0 ll ll' ->
  exists im im', call ray sim src ll kr kc psf x0 y0 so lo le conv chunk = Ok im /\
  call ray' (new_sim leg ps py (Some px) up lv mode (kc, kr)) src' ll' kc kr (fun v u => psf u v) y0 x0 so lo le conv chunk = Ok im' /\
  rows im = py /\ cols im = px /\ rows im' = px /\ cols im' = py /\ forall i j, (i < py)%nat -> (j < px)%nat -> at_ im' j i = at_ im i j.
Proof.
  intros HR HS HL.
  destruct (image_val leg ps px py up lv mode kr kc psf ray src ll x0 y0 so lo le conv chunk PX PY UP KR KC CH T) as (im & C & r & c & V).
  destruct (image_val leg ps py px up lv mode kc kr (fun v u => psf u v) ray' src' ll' y0 x0 so lo le conv chunk PY PX UP KC KR CH) as (im' & C' & r' & c' & V').
  { intros Hc. rewrite total_swap. destruct (T Hc) as [T1 T2]. split; [exact T1|]. destruct T2 as [T2|(T2 & T3 & T4)]; [left; exact T2|right; split; [exact T2|split; congruence]]. }
  exists im, im'. repeat (split; [assumption|]). intros i j Hi Hj. rewrite V', V by assumption. apply pixel_value_swap.
  assert (Bf : forall x y, scene_brightness ray' src' ll' so lo le y x = scene_brightness ray src ll so lo le x y).
  { intros x y. rewrite <- (brightness_moved swapped 0 0 ray ray' src src' ll ll' so lo le x y HR HS HL). unfold carry, apply, swapped. cbn. f_equal; ring. }
  intros x y. unfold blur. destruct conv.
  - apply blurred_swap. intros u v. apply sub_mean_swap. exact Bf.
  - apply sub_mean_swap. exact Bf.
Qed.
End Reflect.
