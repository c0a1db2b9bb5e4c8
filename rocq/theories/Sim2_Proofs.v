(** * LensSource: constant scenes, linearity, setters, and where the fft mode goes wrong *)
From Coq Require Import Reals Lra Lia Psatz Arith ZArith List Bool String FunctionalExtensionality.
From Coquelicot Require Import Coquelicot.
From Verif Require Import Py Fsum RealFun Geo_Model Quad_Model Quad_Spec Quad_Proofs Dft_Model Dft_Proofs PixConv_Model PixConv_Proofs PixConv2_Proofs PixConv_Spec Sim_Model Sim_Spec Sim_Proofs.
Import ListNotations.
Local Open Scope R_scope.

(** ** constant scenes *)
Lemma sub_mean_const leg lv k d x y : rules_ok leg lv -> sub_mean leg lv (fun _ _ => k) d x y = k.
Proof.
  intros H. unfold sub_mean. destruct lv as [l|]; [|reflexivity]. destruct (Nat.ltb_spec 1 l) as [L|L]; [|reflexivity]. apply quad_const; [apply H, L|lia].
Qed.
Lemma blurred_const kr kc psf d k x y : fsum kr (fun u => fsum kc (psf u)) <> 0 -> blurred kr kc psf d (fun _ _ => k) x y = k.
Proof.
  intros N. unfold blurred. set (s := fsum kr (fun u => fsum kc (psf u))) in *.
  transitivity (k / s * fsum kr (fun u => fsum kc (psf u))); [|fold s; field; exact N].
  rewrite <- fsum_scal_l. apply fsum_ext. intros u _. rewrite <- fsum_scal_l. apply fsum_ext. intros v _. field. exact N.
Qed.
Lemma pixel_value_const up px py x0 y0 d k i j : (1 <= up)%nat -> pixel_value up px py x0 y0 d (fun _ _ => k) i j = k.
Proof.
  intros U. unfold pixel_value. rewrite (fsum_ext up _ (fun _ => INR up * k)) by (intros; apply fsum_const). rewrite fsum_const, mult_INR. field. apply not_0_INR. lia.
Qed.
Lemma constant_scene leg c kr kc psf ray src ll x0 y0 so lo le conv chunk k : psf_shape c = (kr, kc) -> (1 <= kr)%nat -> (1 <= kc)%nat ->
  (1 <= pixels_x c)%nat -> (1 <= pixels_y c)%nat -> (1 <= upsample_factor c)%nat -> rules_ok leg (quad_level c) -> chunk <> Some 0%nat -> mode_ok c kr kc -> psf_sum kr kc psf <> 0 ->
  (forall x y, scene_brightness ray src ll so lo le x y = k) ->
  exists im, call ray (rebuilt leg c) src ll kr kc psf x0 y0 so lo le conv chunk = Ok im /\ rows im = pixels_y c /\ cols im = pixels_x c /\
  forall i j, (i < pixels_y c)%nat -> (j < pixels_x c)%nat -> at_ im i j = k.
Proof.
  intros SH KR KC PX PY UP RU CH MO PS SC. assert (E : scene_brightness ray src ll so lo le = fun _ _ => k) by (extensionality x; extensionality y; apply SC).
  assert (EM : sub_mean leg (quad_level c) (scene_brightness ray src ll so lo le) (sub c) = fun _ _ => k) by (rewrite E; extensionality x; extensionality y; apply sub_mean_const, RU).
  destruct conv.
  - destruct (call_blurred leg c kr kc psf SH KR KC PX PY UP ray src ll x0 y0 so lo le chunk CH MO PS) as (im & E1 & E2 & E3 & E4). exists im. repeat split; try assumption.
    intros i j Hi Hj. rewrite E4 by assumption. rewrite EM. assert (EB : blurred kr kc psf (sub c) (fun _ _ => k) = fun _ _ => k) by (extensionality x; extensionality y; apply blurred_const, PS).
    rewrite EB. apply pixel_value_const, UP.
  - destruct (call_plain leg c kr kc psf KR KC PX PY UP ray src ll x0 y0 so lo le chunk CH) as (im & E1 & E2 & E3 & E4). exists im. repeat split; try assumption.
    intros i j Hi Hj. rewrite E4 by assumption. rewrite EM. apply pixel_value_const, UP.
Qed.
(** ** linearity *)
Definition img_combo (u v : R) (a b : image) : image := {| rows := rows a; cols := cols a; at_ := combo u v (at_ a) (at_ b) |}.
Lemma conv2d_im_lin H W u v A B h w k p q : conv2d_same H W (combo u v A B) h w k p q = u * conv2d_same H W A h w k p q + v * conv2d_same H W B h w k p q.
Proof.
  unfold conv2d_same. rewrite <- !fsum_scal_l, <- fsum_plus. apply fsum_ext. intros a _. rewrite <- !fsum_scal_l, <- fsum_plus. apply fsum_ext. intros b _. unfold at_Z, combo. destruct (_ && _)%bool; ring.
Qed.
Lemma convolve_lin S kr kc psf conv u v A B : convolve S kr kc psf conv (combo u v A B) = img_combo u v (convolve S kr kc psf conv A) (convolve S kr kc psf conv B).
Proof.
  unfold convolve. destruct (conv && _)%bool; [|reflexivity]. destruct (String.eqb _ "fft").
  - destruct (fft_s (bld S)) as [s0 s1]. unfold img_combo. cbn [rows cols at_]. f_equal. extensionality i. extensionality j. unfold combo at 2. rewrite <- irfft2_lin. apply irfft2_ext. intros k l. rewrite rfft2_lin. ring.
  - destruct (String.eqb _ "conv2d"); [|reflexivity]. unfold img_combo. cbn [rows cols at_]. f_equal. extensionality i. extensionality j. unfold combo at 2. apply conv2d_im_lin.
Qed.
Lemma convolve_shape S kr kc psf conv A B : rows (convolve S kr kc psf conv A) = rows (convolve S kr kc psf conv B) /\ cols (convolve S kr kc psf conv A) = cols (convolve S kr kc psf conv B).
Proof. unfold convolve. destruct (conv && _)%bool; [|auto]. destruct (String.eqb _ "fft"); [destruct (fft_s (bld S)); auto|]. destruct (String.eqb _ "conv2d"); auto. Qed.
Lemma native_lin S u v a b : rows a = rows b -> cols a = cols b -> native S (img_combo u v a b) = combined (img_combo u v) (native S a) (native S b).
Proof.
  intros ER EC. unfold native, avg_pool2d. cbn [rows cols at_ img_combo]. rewrite <- ER, <- EC. destruct (_ || _)%bool; [reflexivity|]. cbn [combined img_combo rows cols at_].
  f_equal. unfold img_combo. cbn [rows cols at_]. f_equal. extensionality i. extensionality j. unfold combo. set (k := upsample_factor (cfg S)). set (N := INR (k * k)).
  transitivity ((u * fsum k (fun p => fsum k (fun q => at_ a (slice_start (rows a) (snd (psf_pad (bld S))) + (i * k + p))%nat (slice_start (cols a) (fst (psf_pad (bld S))) + (j * k + q))%nat)) +
     v * fsum k (fun p => fsum k (fun q => at_ b (slice_start (rows a) (snd (psf_pad (bld S))) + (i * k + p))%nat (slice_start (cols a) (fst (psf_pad (bld S))) + (j * k + q))%nat))) / N); [|unfold Rdiv; ring].
  f_equal. rewrite <- !fsum_scal_l, <- fsum_plus. apply fsum_ext. intros p _. rewrite <- !fsum_scal_l, <- fsum_plus. reflexivity.
Qed.
Lemma integrate_lin S {A} (f g h : A -> R) u v l : (forall p, h p = u * f p + v * g p) -> integrate S (map h l) = combo u v (integrate S (map f l)) (integrate S (map g l)).
Proof.
  intros H. unfold integrate, combo. extensionality i. extensionality j. rewrite <- !fsum_scal_l, <- fsum_plus. apply fsum_ext. intros k _. unfold unflat.
  set (n := ((i * _ + j) * _ + k)%nat). enough (E : nth n (map h l) 0 = u * nth n (map f l) 0 + v * nth n (map g l) 0) by (rewrite E; ring).
  clearbody n. revert n. induction l as [|a l IH]; intros [|n]; cbn; try ring; [apply H|apply IH].
Qed.
Definition light_combo (u v : R) (f g h : option light) : Prop :=
  match f, g, h with Some f, Some g, Some h => forall x y, h x y = u * f x y + v * g x y | None, None, None => True | _, _, _ => False end.
(** one component *)
Definition component (ray : R -> R -> R * R) S src (so le : bool) x0 y0 chunk :=
  match src with
  | Some f => if so then if le then bind (vmap chunk (fun p => ray (fst p) (snd p)) (points S x0 y0)) (fun b => bind (vmap chunk (fun p => f (fst p) (snd p)) b) (fun mu_fine => Ok (integrate S mu_fine)))
            else bind (vmap chunk (fun p => f (fst p) (snd p)) (points S x0 y0)) (fun mu_fine => Ok (integrate S mu_fine)) else Ok (fun _ _ => 0)
  | None => Ok (fun _ _ => 0 : R) end.
Lemma scene_split ray S src ll x0 y0 so lo le chunk : chunk <> Some 0%nat -> exists A B, component ray S src so le x0 y0 chunk = Ok A /\ component ray S ll lo false x0 y0 chunk = Ok B /\
  scene ray S src ll x0 y0 so lo le chunk = Ok (combo 1 1 A B).
Proof.
  intros C. 
  enough (G : exists A B, component ray S src so le x0 y0 chunk = Ok A /\ component ray S ll lo false x0 y0 chunk = Ok B /\
    bind (component ray S src so le x0 y0 chunk) (fun mu => match ll with
      | Some g => if lo then bind (vmap chunk (fun p => g (fst p) (snd p)) (points S x0 y0)) (fun mu_fine => Ok (fun i j => mu i j + integrate S mu_fine i j)) else Ok mu
      | None => Ok mu end) = Ok (combo 1 1 A B)) by exact G.
  assert (T : forall s o l, exists A, component ray S s o l x0 y0 chunk = Ok A).
  { intros s o l. unfold component. destruct s; [|eexists; reflexivity]. destruct o; [|eexists; reflexivity]. destruct l; rewrite !vmap_val by exact C; cbn [bind]; try rewrite !vmap_val by exact C; eexists; reflexivity. }
  destruct (T src so le) as [A EA], (T ll lo false) as [B EB]. exists A, B. split; [exact EA|]. split; [exact EB|]. rewrite EA. cbn [bind].
  unfold component in EB. destruct ll as [g|]; [destruct lo|].
  - rewrite vmap_val in * by exact C. cbn [bind] in *. injection EB as <-. f_equal. unfold combo. extensionality i. extensionality j. ring.
  - injection EB as <-. f_equal. unfold combo. extensionality i. extensionality j. ring.
  - injection EB as <-. f_equal. unfold combo. extensionality i. extensionality j. ring.
Qed.
Lemma call_of_scene ray S src ll kr kc psf x0 y0 so lo le conv chunk mu : scene ray S src ll x0 y0 so lo le chunk = Ok mu ->
  call ray S src ll kr kc psf x0 y0 so lo le conv chunk = native S (convolve S kr kc psf conv mu).
Proof. intros E. unfold call. rewrite E. reflexivity. Qed.
Lemma call_combo ray S s1 s2 s l1 l2 l so1 so2 so lo1 lo2 lo le1 le2 le kr kc psf x0 y0 conv chunk u v A B :
  scene ray S s1 l1 x0 y0 so1 lo1 le1 chunk = Ok A -> scene ray S s2 l2 x0 y0 so2 lo2 le2 chunk = Ok B -> scene ray S s l x0 y0 so lo le chunk = Ok (combo u v A B) ->
  call ray S s l kr kc psf x0 y0 so lo le conv chunk = combined (img_combo u v) (call ray S s1 l1 kr kc psf x0 y0 so1 lo1 le1 conv chunk) (call ray S s2 l2 kr kc psf x0 y0 so2 lo2 le2 conv chunk).
Proof.
  intros EA EB EC. rewrite (call_of_scene _ _ _ _ kr kc psf _ _ _ _ _ conv _ _ EA), (call_of_scene _ _ _ _ kr kc psf _ _ _ _ _ conv _ _ EB), (call_of_scene _ _ _ _ kr kc psf _ _ _ _ _ conv _ _ EC).
  rewrite convolve_lin. apply native_lin; apply convolve_shape.
Qed.
Lemma comp_off ray S s le x0 y0 chunk : component ray S s false le x0 y0 chunk = Ok (fun _ _ => 0).
Proof. unfold component. destruct s; reflexivity. Qed.
Lemma call_additive ray S src ll kr kc psf x0 y0 so lo le conv chunk : chunk <> Some 0%nat ->
  call ray S src ll kr kc psf x0 y0 so lo le conv chunk =
  combined (img_combo 1 1) (call ray S src ll kr kc psf x0 y0 so false le conv chunk) (call ray S src ll kr kc psf x0 y0 false lo le conv chunk).
Proof.
  intros C. destruct (scene_split ray S src ll x0 y0 so lo le chunk C) as (A & B & EA & EB & E).
  destruct (scene_split ray S src ll x0 y0 so false le chunk C) as (A1 & B1 & EA1 & EB1 & E1). destruct (scene_split ray S src ll x0 y0 false lo le chunk C) as (A2 & B2 & EA2 & EB2 & E2).
  rewrite EA in EA1. rewrite EB in EB2. rewrite comp_off in EB1, EA2. injection EA1 as <-. injection EB2 as <-. injection EB1 as <-. injection EA2 as <-.
  apply (call_combo _ _ _ _ _ _ _ _ _ _ _ _ _ _ _ _ _ _ _ _ _ _ _ _ _ _ _ _ E1 E2). rewrite E. f_equal. unfold combo. extensionality i. extensionality j. ring.
Qed.
Lemma comp_lin ray S u v f g h so le x0 y0 chunk A B : chunk <> Some 0%nat -> light_combo u v f g h ->
  component ray S f so le x0 y0 chunk = Ok A -> component ray S g so le x0 y0 chunk = Ok B -> component ray S h so le x0 y0 chunk = Ok (combo u v A B).
Proof.
  intros C L. unfold component, light_combo in *. destruct f as [f|], g as [g|], h as [h|]; try contradiction.
  - destruct so; [destruct le|]; rewrite ?vmap_val by exact C; cbn [bind]; rewrite ?vmap_val by exact C; cbn [bind]; intros E1 E2; injection E1 as <-; injection E2 as <-; f_equal.
    + apply integrate_lin. intros p. apply L.
    + apply integrate_lin. intros p. apply L.
    + unfold combo. extensionality i. extensionality j. ring.
  - intros E1 E2; injection E1 as <-; injection E2 as <-; f_equal. unfold combo. extensionality i. extensionality j. ring.
Qed.
Lemma call_linear ray S u v s1 s2 s l1 l2 l kr kc psf x0 y0 so lo le conv chunk : chunk <> Some 0%nat -> light_combo u v s1 s2 s -> light_combo u v l1 l2 l ->
  call ray S s l kr kc psf x0 y0 so lo le conv chunk =
  combined (img_combo u v) (call ray S s1 l1 kr kc psf x0 y0 so lo le conv chunk) (call ray S s2 l2 kr kc psf x0 y0 so lo le conv chunk).
Proof.
  intros C H1 H2. destruct (scene_split ray S s l x0 y0 so lo le chunk C) as (A & B & EA & EB & E).
  destruct (scene_split ray S s1 l1 x0 y0 so lo le chunk C) as (A1 & B1 & EA1 & EB1 & E1). destruct (scene_split ray S s2 l2 x0 y0 so lo le chunk C) as (A2 & B2 & EA2 & EB2 & E2).
  rewrite (comp_lin ray S u v _ _ _ _ _ _ _ _ _ _ C H1 EA1 EA2) in EA. rewrite (comp_lin ray S u v _ _ _ _ _ _ _ _ _ _ C H2 EB1 EB2) in EB. injection EA as <-. injection EB as <-.
  apply (call_combo _ _ _ _ _ _ _ _ _ _ _ _ _ _ _ _ _ _ _ _ _ _ _ _ _ _ _ _ E1 E2). rewrite E. f_equal. unfold combo. extensionality i. extensionality j. ring.
Qed.
Lemma call_off ray S src ll kr kc psf x0 y0 le conv chunk im : call ray S src ll kr kc psf x0 y0 false false le conv chunk = Ok im -> forall i j, at_ im i j = 0.
Proof.
  assert (E : scene ray S src ll x0 y0 false false le chunk = Ok (combo 0 0 (fun _ _ => 0) (fun _ _ => 0))).
  { unfold scene. destruct src, ll; cbn [bind]; f_equal; unfold combo; extensionality i; extensionality j; ring. }
  rewrite (call_of_scene _ _ _ _ kr kc psf _ _ _ _ _ conv _ _ E). rewrite convolve_lin. unfold native, avg_pool2d. destruct (_ || _)%bool; [discriminate|]. intros H; injection H as <-. intros i j. cbn [at_ img_combo].
  transitivity (0 / INR (upsample_factor (cfg S) * upsample_factor (cfg S))); [|unfold Rdiv; ring]. f_equal. apply fsum_zero. intros a _. apply fsum_zero. intros b _. unfold combo. ring.
Qed.
Lemma call_no_deflection ray S src ll kr kc psf x0 y0 so lo conv chunk : chunk <> Some 0%nat -> (forall x y, ray x y = (x, y)) ->
  call ray S src ll kr kc psf x0 y0 so lo true conv chunk = call ray S src ll kr kc psf x0 y0 so lo false conv chunk.
Proof.
  intros C H. unfold call. f_equal. unfold scene. f_equal. destruct src as [f|]; [|reflexivity]. destruct so; [|reflexivity]. rewrite vmap_val by exact C. cbn [bind].
  rewrite (map_ext _ (fun p => p)) by (intros [x y]; apply H). rewrite map_id. reflexivity.
Qed.
Lemma psf_scaled S kr kc psf k conv mu : k <> 0 -> psf_sum kr kc psf <> 0 -> convolve S kr kc (fun i j => k * psf i j) conv mu = convolve S kr kc psf conv mu.
Proof.
  intros K N. assert (E : psf_sum kr kc (fun i j => k * psf i j) = k * psf_sum kr kc psf).
  { unfold psf_sum. rewrite <- fsum_scal_l. apply fsum_ext. intros u _. rewrite <- fsum_scal_l. reflexivity. }
  unfold convolve. rewrite E. assert (D : forall t, k * t / (k * psf_sum kr kc psf) = t / psf_sum kr kc psf) by (intros; field; auto).
  replace (fun i j => k * psf i j / (k * psf_sum kr kc psf)) with (fun i j => psf i j / psf_sum kr kc psf) by (extensionality i; extensionality j; symmetry; apply D).
  replace (fun i j => flip_hw kr kc (fun i j => k * psf i j) i j / (k * psf_sum kr kc psf)) with (fun i j => flip_hw kr kc psf i j / psf_sum kr kc psf) by (extensionality i; extensionality j; unfold flip_hw; symmetry; apply D).
  reflexivity.
Qed.
Lemma call_psf_scaled ray S src ll kr kc psf k x0 y0 so lo le conv chunk : k <> 0 -> psf_sum kr kc psf <> 0 ->
  call ray S src ll kr kc (fun i j => k * psf i j) x0 y0 so lo le conv chunk = call ray S src ll kr kc psf x0 y0 so lo le conv chunk.
Proof. intros K N. unfold call. f_equal. extensionality mu. rewrite psf_scaled by assumption. reflexivity. Qed.
Lemma vmap_chunk {A B} n (f : A -> B) l : (1 <= n)%nat -> vmap (Some n) f l = vmap None f l.
Proof. intros H. rewrite vmap_val; [reflexivity|]. intros E. injection E as E. lia. Qed.
Lemma call_chunk ray S src ll kr kc psf x0 y0 so lo le conv n : (1 <= n)%nat ->
  call ray S src ll kr kc psf x0 y0 so lo le conv (Some n) = call ray S src ll kr kc psf x0 y0 so lo le conv None.
Proof.
  intros H. unfold call. f_equal. unfold scene.
  f_equal.
  - destruct src; [|reflexivity]. destruct so; [|reflexivity]. destruct le; rewrite !vmap_chunk by exact H; [|reflexivity]. f_equal. extensionality b. rewrite vmap_chunk by exact H. reflexivity.
  - extensionality mu. destruct ll; [|reflexivity]. rewrite vmap_chunk by exact H. reflexivity.
Qed.
(** ** setters *)
Definition assign (leg : nat -> (nat -> R) * (nat -> R)) (S : sim) (v : setting) : sim := match set leg S v with Ok S' => S' | Raise _ => S end.
(** the value an assignment gives to each parameter, when it is accepted *)
Definition new_scale v := match v with SetScale p => Some p | _ => None end.
Definition new_x v := match v with SetX n => Some n | _ => None end.
Definition new_y v := match v with SetY n => Some n | _ => None end.
Definition new_up v := match v with SetUpsample n => if Nat.ltb 0 n then Some n else None | _ => None end.
Definition new_quad v := match v with SetQuad None => Some None | SetQuad (Some n) => if Nat.ltb 0 n then Some (Some n) else None | _ => None end.
Definition new_shape v := match v with SetPsfShape s => Some s | _ => None end.
Definition new_mode v := match v with SetMode m => if String.eqb m "fft" then Some m else if String.eqb m "conv2d" then Some m else None | _ => None end.
Lemma setters leg l : forall ps px py up quad mode shape,
  fold_left (assign leg) l (new_sim leg ps px (Some py) up quad mode shape) =
  new_sim leg (latest new_scale ps l) (latest new_x px l) (Some (latest new_y py l)) (latest new_up up l) (latest new_quad quad l) (latest new_mode mode l) (latest new_shape shape l).
Proof.
  induction l as [|v l IH]; intros; [reflexivity|]. cbn [fold_left latest].
  destruct v as [n|n|n|q|p|s|m]; cbn [new_scale new_x new_y new_up new_quad new_shape new_mode]; rewrite <- IH; try reflexivity; f_equal; unfold assign; cbn [set new_sim cfg].
  - destruct (Nat.ltb 0 n); reflexivity.
  - destruct q as [n|]; [destruct (Nat.ltb 0 n)|]; reflexivity.
  - destruct (String.eqb m "fft"); [reflexivity|]. destruct (String.eqb m "conv2d"); reflexivity.
Qed.
(** ** where the fft mode goes wrong *)
Lemma fft_shape leg c kr kc psf ray src ll x0 y0 so lo le chunk : psf_shape c = (kr, kc) -> psf_mode c = "fft"%string -> (1 <= kr)%nat -> (1 <= kc)%nat -> (kr <> 1 \/ kc <> 1)%nat ->
  (1 <= pixels_x c)%nat -> (1 <= pixels_y c)%nat -> (1 <= upsample_factor c)%nat -> chunk <> Some 0%nat ->
  let up := upsample_factor c in
  (exists im, call ray (rebuilt leg c) src ll kr kc psf x0 y0 so lo le true chunk = Ok im /\ rows im = pixels_y c /\ cols im = pixels_x c) <->
  (pixels_y c * up + kr / 2 <= next_fast_len (pixels_x c * up + 2 * (kc / 2)) /\ pixels_x c * up + kc / 2 <= next_fast_len (pixels_y c * up + 2 * (kr / 2)))%nat.
Proof.
  intros SH MO KR KC NE PX PY UP CH up. destruct (scene_val ray leg c src ll x0 y0 so lo le chunk CH) as (mu & E & _). unfold call. rewrite E. cbn [bind]. unfold convolve.
  assert (ONE : ((kr =? 1)%nat && (kc =? 1)%nat)%bool = false) by (apply andb_false_iff; destruct NE; [left|right]; apply Nat.eqb_neq; assumption).
  rewrite ONE. cbn [andb negb]. destruct (built_fields leg c) as (E1 & E2 & E3). cbn [bld cfg rebuilt]. rewrite MO. cbn [String.eqb Ascii.eqb Bool.eqb]. rewrite E3.
  unfold native. cbn [bld cfg rebuilt]. rewrite E1. cbn [fst snd rows cols at_]. rewrite (padx_eq c kr kc SH), (pady_eq c kr kc SH). fold up.
  assert (X : nx c = (pixels_x c * up + 2 * (kc / 2))%nat) by (unfold nx; rewrite (padx_eq c kr kc SH); fold up; lia).
  assert (Y : ny c = (pixels_y c * up + 2 * (kr / 2))%nat) by (unfold ny; rewrite (pady_eq c kr kc SH); fold up; lia).
  rewrite X, Y. set (s0 := next_fast_len (pixels_x c * up + 2 * (kc / 2))). set (s1 := next_fast_len (pixels_y c * up + 2 * (kr / 2))).
  unfold avg_pool2d. cbn [rows cols at_]. unfold slice_len.
  assert (K : forall n p s, (1 <= n)%nat -> ((Nat.min (n * up + p) s - Nat.min p s) / up = n <-> (n * up + p <= s))%nat).
  { intros n p s N. fold up in UP. split; intros H.
    - assert (D := Nat.mul_div_le (Nat.min (n * up + p) s - Nat.min p s) up ltac:(lia)). rewrite H in D. assert (1 * 1 <= n * up)%nat by (apply Nat.mul_le_mono; lia). lia.
    - rewrite !Nat.min_l by lia. replace (n * up + p - p)%nat with (n * up)%nat by lia. apply Nat.div_mul. lia. }
  assert (K0 := K (pixels_y c) (kr / 2)%nat s0 PY). assert (K1 := K (pixels_x c) (kc / 2)%nat s1 PX). clear K. split.
  - intros (im & H & ER & EC). destruct (_ || _)%bool; [discriminate|]. injection H as <-. cbn [rows cols] in *. tauto.
  - intros [H0 H1]. apply K0 in H0. apply K1 in H1. rewrite H0, H1. rewrite (proj2 (Nat.eqb_neq (pixels_y c) 0)), (proj2 (Nat.eqb_neq (pixels_x c) 0)) by lia. cbn [orb]. eexists. split; [reflexivity|]. cbn [rows cols]. auto.
Qed.
Definition tall : settings := {| pixelscale := 1; pixels_x := 4; pixels_y := 8; upsample_factor := 1; quad_level := None; psf_shape := (3, 3)%nat; psf_mode := "fft"%string |}.
Lemma tall_shape leg psf ray src ll x0 y0 so lo le chunk : chunk <> Some 0%nat -> exists im,
  call ray (rebuilt leg tall) src ll 3 3 psf x0 y0 so lo le true chunk = Ok im /\ rows im = 5%nat /\ cols im = 4%nat.
Proof.
  intros CH. destruct (scene_val ray leg tall src ll x0 y0 so lo le chunk CH) as (mu & E & _). unfold call. rewrite E. cbn [bind]. unfold convolve. cbn [andb negb Nat.eqb cfg rebuilt psf_mode tall String.eqb Ascii.eqb Bool.eqb].
  destruct (built_fields leg tall) as (E1 & E2 & E3). cbn [bld rebuilt]. rewrite E3. unfold native. cbn [bld cfg rebuilt]. rewrite E1. cbn [fst snd rows cols at_].
  change (next_fast_len (nx tall)) with 6%nat. change (next_fast_len (ny tall)) with 10%nat. eexists. split; [reflexivity|]. split; reflexivity.
Qed.
(** a column PSF on a square field *)
Definition square (ps : R) (n : nat) (mode : string) : settings := {| pixelscale := ps; pixels_x := n; pixels_y := n; upsample_factor := 1; quad_level := None; psf_shape := (3, 1)%nat; psf_mode := mode |}.
Lemma column_psf leg ps n psf ray src ll x0 y0 so lo le chunk : (2 <= n)%nat -> chunk <> Some 0%nat -> exists im,
  call ray (rebuilt leg (square ps n "fft")) src ll 3 1 psf x0 y0 so lo le true chunk = Ok im /\ (0 < rows im)%nat /\ cols im = n /\ at_ im 0 (n - 1) = 0.
Proof.
  intros N CH. set (c := square ps n "fft"). destruct (scene_val ray leg c src ll x0 y0 so lo le chunk CH) as (mu & E & _). unfold call. rewrite E. cbn [bind]. unfold convolve. cbn [andb negb Nat.eqb cfg rebuilt psf_mode square c String.eqb Ascii.eqb Bool.eqb].
  destruct (built_fields leg c) as (E1 & E2 & E3). cbn [bld rebuilt]. fold c. rewrite E2, E3. unfold native. cbn [bld cfg rebuilt]. rewrite E1. cbn [fst snd rows cols at_].
  assert (X : nx c = n) by (unfold nx, padx; cbn; lia). assert (Y : ny c = (n + 2)%nat) by (unfold ny, pady; cbn; lia). assert (PX : padx c = 0%nat) by reflexivity. assert (PY : pady c = 1%nat) by reflexivity.
  rewrite X, Y, PX, PY. cbn [pixels_x pixels_y upsample_factor c square]. unfold avg_pool2d, slice_len, slice_start. cbn [rows cols at_]. rewrite !Nat.div_1_r.
  assert (S0 := nfl_ge n). assert (S1 := nfl_ge (n + 2)). set (s0 := next_fast_len n) in *. set (s1 := next_fast_len (n + 2)) in *.
  rewrite (proj2 (Nat.eqb_neq (Nat.min (n * 1 + 1) s0 - _) 0)), (proj2 (Nat.eqb_neq (Nat.min (n * 1 + 0) s1 - _) 0)) by lia. cbn [orb].
  eexists. split; [reflexivity|]. cbn [rows cols at_]. split; [lia|]. split; [lia|].
  assert (V : forall p, irfft2 (fun k l => Cmult (rfft2 (n + 2) n mu s0 s1 k l) (rfft2 3 1 (fun i j => psf i j / psf_sum 3 1 psf) s0 s1 k l)) s0 s1 p n = 0).
  { intros p. rewrite rfft2_product by lia. apply fsum_zero. intros a _. apply fsum_zero. intros b Hb. unfold zero_pad at 1. destruct (Nat.ltb_spec b n) as [L|L]; [|rewrite andb_false_r; ring].
    unfold zero_pad. destruct (Nat.ltb_spec (wrap s1 n b) 1) as [L'|L']; [|rewrite (andb_false_r (_ <? 3)%nat); ring]. rewrite wrap_val in L' by lia. lia. }
  replace (rolled s1 (- Z.of_nat 1) (Nat.min 0 s1 + ((n - 1) * 1 + 0))) with n.
  - cbn [fsum]. rewrite !Rplus_0_l. replace (rolled s1 (- Z.of_nat 1) (Nat.min 0 s1 + ((n - 1) * 1 + 0))) with n by (rewrite rolled_neg by lia; lia). rewrite V. unfold Rdiv. ring.
  - rewrite rolled_neg by lia. lia.
Qed.

(** ** in terms of the constructor *)
Definition conf ps px py up quad mode shape : settings := {| pixelscale := ps; pixels_x := px; pixels_y := py; upsample_factor := up; quad_level := quad; psf_shape := shape; psf_mode := mode |}.
Section New.
Variables (leg : nat -> (nat -> R) * (nat -> R)) (ps : R) (px py up : nat) (lv : option nat) (kr kc : nat) (psf : nat -> nat -> R).
Variables (ray : R -> R -> R * R) (src ll : option light) (x0 y0 : R) (so lo le : bool) (chunk : option nat).
Hypothesis PX : (1 <= px)%nat. Hypothesis PY : (1 <= py)%nat. Hypothesis UP : (1 <= up)%nat. Hypothesis KR : (1 <= kr)%nat. Hypothesis KC : (1 <= kc)%nat. Hypothesis CH : chunk <> Some 0%nat.
Let image_is mode conv (B : R -> R -> R) := exists im, call ray (new_sim leg ps px (Some py) up lv mode (kr, kc)) src ll kr kc psf x0 y0 so lo le conv chunk = Ok im /\
  rows im = py /\ cols im = px /\ forall i j, (i < py)%nat -> (j < px)%nat -> at_ im i j = pixel_value up px py x0 y0 (ps / INR up) B i j.
Let seen := sub_mean leg lv (scene_brightness ray src ll so lo le) (ps / INR up).
Lemma new_plain mode : image_is mode false seen.
Proof. exact (call_plain leg (conf ps px py up lv mode (kr, kc)) kr kc psf KR KC PX PY UP ray src ll x0 y0 so lo le chunk CH). Qed.
Lemma new_blurred mode : psf_sum kr kc psf <> 0 -> mode = "conv2d"%string \/ (mode = "fft"%string /\ px = py /\ (kr / 2 = kc / 2)%nat) \/ (kr = 1%nat /\ kc = 1%nat) -> image_is mode true (blurred kr kc psf (ps / INR up) seen).
Proof. intros PS MO. exact (call_blurred leg (conf ps px py up lv mode (kr, kc)) kr kc psf eq_refl KR KC PX PY UP ray src ll x0 y0 so lo le chunk CH MO PS). Qed.
Lemma new_conv2d : psf_sum kr kc psf <> 0 -> image_is "conv2d" true (blurred kr kc psf (ps / INR up) seen).
Proof. intros PS. apply new_blurred; [exact PS|]. left. reflexivity. Qed.
Lemma new_fft : psf_sum kr kc psf <> 0 -> px = py -> (kr / 2 = kc / 2)%nat -> image_is "fft" true (blurred kr kc psf (ps / INR up) seen).
Proof. intros PS SQ PQ. apply new_blurred; [exact PS|]. right. left. auto. Qed.
Lemma new_constant mode conv k : psf_sum kr kc psf <> 0 -> mode = "conv2d"%string \/ (mode = "fft"%string /\ px = py /\ (kr / 2 = kc / 2)%nat) \/ (kr = 1%nat /\ kc = 1%nat) ->
  rules_ok leg lv -> (forall x y, scene_brightness ray src ll so lo le x y = k) ->
  exists im, call ray (new_sim leg ps px (Some py) up lv mode (kr, kc)) src ll kr kc psf x0 y0 so lo le conv chunk = Ok im /\ rows im = py /\ cols im = px /\
  forall i j, (i < py)%nat -> (j < px)%nat -> at_ im i j = k.
Proof. intros PS MO RU SC. exact (constant_scene leg (conf ps px py up lv mode (kr, kc)) kr kc psf ray src ll x0 y0 so lo le conv chunk k eq_refl KR KC PX PY UP RU CH MO PS SC). Qed.
Lemma new_constant_off mode k : rules_ok leg lv -> (forall x y, scene_brightness ray src ll so lo le x y = k) ->
  exists im, call ray (new_sim leg ps px (Some py) up lv mode (kr, kc)) src ll kr kc psf x0 y0 so lo le false chunk = Ok im /\ rows im = py /\ cols im = px /\
  forall i j, (i < py)%nat -> (j < px)%nat -> at_ im i j = k.
Proof.
  intros RU SC. destruct (new_plain mode) as (im & E1 & E2 & E3 & E4). exists im. repeat split; try assumption. intros i j Hi Hj. rewrite E4 by assumption.
  replace seen with (fun _ _ : R => k); [apply pixel_value_const, UP|]. unfold seen. assert (E : scene_brightness ray src ll so lo le = fun _ _ => k) by (extensionality x; extensionality y; apply SC).
  rewrite E. extensionality x. extensionality y. symmetry. apply sub_mean_const, RU.
Qed.
Lemma new_fft_shape : (kr <> 1 \/ kc <> 1)%nat ->
  (exists im, call ray (new_sim leg ps px (Some py) up lv "fft" (kr, kc)) src ll kr kc psf x0 y0 so lo le true chunk = Ok im /\ rows im = py /\ cols im = px) <->
  (py * up + kr / 2 <= next_fast_len (px * up + 2 * (kc / 2)) /\ px * up + kc / 2 <= next_fast_len (py * up + 2 * (kr / 2)))%nat.
Proof. intros NE. exact (fft_shape leg (conf ps px py up lv "fft" (kr, kc)) kr kc psf ray src ll x0 y0 so lo le chunk eq_refl eq_refl KR KC NE PX PY UP CH). Qed.
Lemma new_shape_ok mode conv : psf_sum kr kc psf <> 0 -> conv = false \/ mode = "conv2d"%string \/ (kr = 1%nat /\ kc = 1%nat) \/ (mode = "fft"%string /\ px = py /\ (kr / 2 = kc / 2)%nat) ->
  exists im, call ray (new_sim leg ps px (Some py) up lv mode (kr, kc)) src ll kr kc psf x0 y0 so lo le conv chunk = Ok im /\ rows im = py /\ cols im = px.
Proof.
  intros PS MO. destruct conv.
  - destruct (new_blurred mode PS) as (im & E & ER & EC & _); [|exists im; auto]. destruct MO as [MO|[MO|[MO|MO]]]; [discriminate|auto|auto|auto].
  - destruct (new_plain mode) as (im & E & ER & EC & _). exists im; auto.
Qed.
End New.
Lemma fft_not_constant leg ps n psf ray src ll x0 y0 so lo le chunk k : (2 <= n)%nat -> chunk <> Some 0%nat -> k <> 0 -> exists im,
  call ray (new_sim leg ps n None 1 None "fft" (3, 1)%nat) src ll 3 1 psf x0 y0 so lo le true chunk = Ok im /\ (0 < rows im)%nat /\ (n - 1 < cols im)%nat /\ at_ im 0 (n - 1) <> k.
Proof.
  intros N C K. destruct (column_psf leg ps n psf ray src ll x0 y0 so lo le chunk N C) as (im & E & ER & EC & V). exists im. split; [exact E|]. split; [exact ER|]. split; [lia|]. rewrite V. auto.
Qed.
Lemma modes_differ leg ps n : (2 <= n)%nat -> exists im1 im2, let one := Some (fun _ _ : R => 1) in
  call (fun x y => (x, y)) (new_sim leg ps n None 1 None "fft" (3, 1)%nat) one None 3 1 (fun _ _ => 1) 0 0 true true true true None = Ok im1 /\
  call (fun x y => (x, y)) (new_sim leg ps n None 1 None "conv2d" (3, 1)%nat) one None 3 1 (fun _ _ => 1) 0 0 true true true true None = Ok im2 /\
  (0 < rows im1)%nat /\ (0 < rows im2)%nat /\ cols im1 = n /\ cols im2 = n /\ at_ im1 0 (n - 1) = 0 /\ at_ im2 0 (n - 1) = 1.
Proof.
  intros N. destruct (column_psf leg ps n (fun _ _ => 1) (fun x y => (x, y)) (Some (fun _ _ => 1)) None 0 0 true true true None N ltac:(discriminate)) as (im1 & E1 & R1 & C1 & V1).
  destruct (new_constant leg ps n n 1 None 3 1 (fun _ _ => 1) (fun x y => (x, y)) (Some (fun _ _ => 1)) None 0 0 true true true None ltac:(lia) ltac:(lia) ltac:(lia) ltac:(lia) ltac:(lia) ltac:(discriminate) "conv2d"%string true 1) as (im2 & E2 & R2 & C2 & V2).
  - unfold psf_sum. cbn. lra.
  - left. reflexivity.
  - exact I.
  - intros; unfold scene_brightness; cbn; ring.
  - exists im1, im2. cbv zeta. repeat split; try assumption; [lia|]. apply V2; lia.
Qed.
Lemma tall_differ leg psf ray src ll x0 y0 so lo le chunk : chunk <> Some 0%nat -> psf_sum 3 3 psf <> 0 -> exists im1 im2,
  call ray (new_sim leg 1 4 (Some 8%nat) 1 None "fft" (3, 3)%nat) src ll 3 3 psf x0 y0 so lo le true chunk = Ok im1 /\
  call ray (new_sim leg 1 4 (Some 8%nat) 1 None "conv2d" (3, 3)%nat) src ll 3 3 psf x0 y0 so lo le true chunk = Ok im2 /\ rows im1 = 5%nat /\ rows im2 = 8%nat.
Proof.
  intros C PS. destruct (tall_shape leg psf ray src ll x0 y0 so lo le chunk C) as (im1 & E1 & R1 & _).
  destruct (new_shape_ok leg 1 4 8 1 None 3 3 psf ray src ll x0 y0 so lo le chunk ltac:(lia) ltac:(lia) ltac:(lia) ltac:(lia) ltac:(lia) C "conv2d"%string true PS ltac:(auto)) as (im2 & E2 & R2 & _).
  exists im1, im2. auto.
Qed.
Lemma set_refused leg S : set leg S (SetUpsample 0) = Raise AssertionError /\ set leg S (SetQuad (Some 0%nat)) = Raise AssertionError /\
  forall m, m <> "fft"%string -> m <> "conv2d"%string -> set leg S (SetMode m) = Raise AssertionError.
Proof.
  split; [reflexivity|]. split; [reflexivity|]. intros m A B. cbn [set]. rewrite (proj2 (String.eqb_neq m "fft") A), (proj2 (String.eqb_neq m "conv2d") B). reflexivity.
Qed.
