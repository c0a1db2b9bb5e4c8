(** * LensSource *)
From Coq Require Import Reals Lra Lia Psatz Arith ZArith List Bool String FunctionalExtensionality.
From Coquelicot Require Import Coquelicot.
From Verif Require Import Py Fsum RealFun Geo_Model Quad_Model Quad_Spec Quad_Proofs Dft_Model Dft_Proofs PixConv_Model PixConv_Proofs PixConv2_Proofs Sim_Model Sim_Spec.
Import ListNotations.
Local Open Scope R_scope.

(** ** vmap *)
Lemma chunks_concat {A B} (f : A -> B) c : (1 <= c)%nat -> forall fuel l, (List.length l <= fuel)%nat -> List.concat (map (map f) (chunks fuel c l)) = map f l.
Proof.
  intros C. induction fuel as [|fuel IH]; intros l H; [destruct l; [reflexivity|cbn in H; lia]|]. destruct l as [|a l]; [reflexivity|]. cbn [chunks map List.concat].
  rewrite IH by (rewrite skipn_length; cbn [List.length] in *; lia). rewrite <- map_app, firstn_skipn. reflexivity.
Qed.
Lemma vmap_val {A B} chunk (f : A -> B) l : chunk <> Some 0%nat -> vmap chunk f l = Ok (map f l).
Proof.
  intros H. unfold vmap. destruct chunk as [c|]; [|reflexivity]. destruct (Nat.eqb_spec c 0) as [->|N]; [congruence|]. rewrite chunks_concat by lia. reflexivity.
Qed.
(** ** flatten and reshape *)
Lemma unflat_flat {A} h w q (G : nat -> nat -> nat -> A) (f : A -> R) i j k : (i < h)%nat -> (j < w)%nat -> (k < q)%nat ->
  unflat w q (map f (flat h w q G)) i j k = f (G i j k).
Proof.
  intros Hi Hj Hk. unfold unflat, flat. rewrite map_map.
  assert (L : ((i * w + j) * q + k < h * w * q)%nat).
  { assert (LA : (i * w + j + 1 <= h * w)%nat) by nia. assert (LB := Nat.mul_le_mono_r _ _ q LA). rewrite Nat.mul_add_distr_r in LB. lia. }
  rewrite (nth_indep _ 0 (f (G ((0 + 0) / (w * q))%nat (((0 + 0) / q) mod w)%nat ((0 + 0) mod q)%nat))) by (rewrite map_length, seq_length; exact L).
  rewrite (map_nth (fun x => f (G (x / (w * q))%nat ((x / q) mod w)%nat (x mod q)%nat))). rewrite seq_nth by exact L. cbn [Nat.add].
  assert (E1 : (((i * w + j) * q + k) / q = i * w + j)%nat) by (rewrite (Nat.add_comm _ k), Nat.div_add, (Nat.div_small k q) by lia; lia).
  assert (E2 : (((i * w + j) * q + k) mod q = k)%nat) by (rewrite (Nat.add_comm _ k), Nat.mod_add, Nat.mod_small by lia; reflexivity).
  assert (E3 : (((i * w + j) * q + k) / (w * q) = i)%nat).
  { rewrite (Nat.mul_comm w q), <- Nat.div_div by lia. rewrite E1, (Nat.add_comm _ j), Nat.div_add, (Nat.div_small j w) by lia. lia. }
  assert (E4 : ((i * w + j) mod w = j)%nat) by (rewrite (Nat.add_comm _ j), Nat.mod_add, Nat.mod_small by lia; reflexivity).
  rewrite E1, E2, E3, E4. reflexivity.
Qed.
(** ** the sampled scene *)
Lemma mesh_any ps m k : (1 <= m)%nat -> (k < m)%nat -> linspace_m1_1 m k * ps * (INR m - 1) / 2 = (INR k - (INR m - 1) / 2) * ps.
Proof.
  intros H K. destruct (Nat.eq_dec m 1) as [->|N]; [|apply mesh_coord; lia]. replace k with 0%nat by lia. cbn. field.
Qed.
Section Built.
Variables (leg : nat -> (nat -> R) * (nat -> R)) (c : settings).
Definition padx := (snd (psf_shape c) / 2)%nat. Definition pady := (fst (psf_shape c) / 2)%nat.
Definition nx := (pixels_x c * upsample_factor c + padx * 2)%nat. Definition ny := (pixels_y c * upsample_factor c + pady * 2)%nat.
Definition sub := pixelscale c / INR (upsample_factor c).
Lemma built_fields : let b := build_grid leg c in psf_pad b = (padx, pady) /\ n_pix b = (nx, ny) /\ fft_s b = (next_fast_len nx, next_fast_len ny).
Proof. unfold build_grid. destruct (quad_level c) as [l|]; [destruct (Nat.ltb 1 l)|]; cbn; auto. Qed.
Lemma integrate_val S (f : R * R -> R) x0 y0 i j : S = rebuilt leg c -> (i < ny)%nat -> (j < nx)%nat ->
  integrate S (map f (points S x0 y0)) i j = sub_mean leg (quad_level c) (fun x y => f (x, y)) sub (sub_centre x0 sub nx j) (sub_centre y0 sub ny i).
Proof.
  intros -> Hi Hj. unfold integrate, points. destruct built_fields as (E1 & E2 & E3). cbn [bld cfg rebuilt]. rewrite E2. cbn [fst snd].
  assert (XV : forall t, linspace_m1_1 nx j * t * (INR nx - 1) / 2 = (INR j - (INR nx - 1) / 2) * t) by (intros; apply mesh_any; lia).
  assert (YV : forall t, linspace_m1_1 ny i * t * (INR ny - 1) / 2 = (INR i - (INR ny - 1) / 2) * t) by (intros; apply mesh_any; lia).
  assert (BASE : f (linspace_m1_1 nx j * sub * (INR nx - 1) / 2 + x0, linspace_m1_1 ny i * sub * (INR ny - 1) / 2 + y0) = f (sub_centre x0 sub nx j, sub_centre y0 sub ny i)).
  { rewrite XV, YV. unfold sub_centre. f_equal. f_equal; ring. }
  unfold sub_mean. set (U := unflat) in *. unfold build_grid. cbv zeta. cbn [fst snd]. fold padx pady. change (pixels_x c * upsample_factor c + padx * 2)%nat with nx. change (pixels_y c * upsample_factor c + pady * 2)%nat with ny. fold sub. unfold meshgrid.
  destruct (quad_level c) as [l|]; [destruct (Nat.ltb_spec 1 l)|]; cbn [depth grid_x grid_y weights].
  - unfold quad, gaussian_quadrature_integrator. apply fsum_ext. intros k Hk. f_equal. unfold U.
    rewrite (unflat_flat ny nx (l * l) (fun i0 j0 k0 => (grid_X l (fst (leg l)) sub (linspace_m1_1 nx j0 * sub * (INR nx - 1) / 2) k0 + x0, grid_Y l (fst (leg l)) sub (linspace_m1_1 ny i0 * sub * (INR ny - 1) / 2) k0 + y0))) by assumption.
    rewrite XV, YV. unfold grid_X, grid_Y, sub_centre. f_equal. f_equal; ring.
  - cbn [fsum]. unfold U. rewrite (unflat_flat ny nx 1 (fun i0 j0 k0 => (linspace_m1_1 nx j0 * sub * (INR nx - 1) / 2 + x0, linspace_m1_1 ny i0 * sub * (INR ny - 1) / 2 + y0))) by (assumption || lia).
    rewrite BASE. ring.
  - cbn [fsum]. unfold U. rewrite (unflat_flat ny nx 1 (fun i0 j0 k0 => (linspace_m1_1 nx j0 * sub * (INR nx - 1) / 2 + x0, linspace_m1_1 ny i0 * sub * (INR ny - 1) / 2 + y0))) by (assumption || lia).
    rewrite BASE. ring.
Qed.
End Built.
Lemma sub_mean_plus leg lv f g d x y : sub_mean leg lv (fun x y => f x y + g x y) d x y = sub_mean leg lv f d x y + sub_mean leg lv g d x y.
Proof.
  unfold sub_mean. destruct lv as [l|]; [|reflexivity]. destruct (Nat.ltb 1 l); [|reflexivity]. unfold quad, gaussian_quadrature_integrator. rewrite <- fsum_plus. apply fsum_ext. intros; ring.
Qed.
Lemma sub_mean_ext leg lv f g d x y : (forall x y, f x y = g x y) -> sub_mean leg lv f d x y = sub_mean leg lv g d x y.
Proof. intros H. replace g with f; [reflexivity|]. extensionality a. extensionality b. apply H. Qed.
Lemma sub_mean_zero leg lv d x y : sub_mean leg lv (fun _ _ => 0) d x y = 0.
Proof.
  unfold sub_mean. destruct lv as [l|]; [|reflexivity]. destruct (Nat.ltb 1 l); [|reflexivity]. unfold quad, gaussian_quadrature_integrator. apply fsum_zero. intros; ring.
Qed.
Lemma scene_val ray leg c src ll x0 y0 so lo le chunk : chunk <> Some 0%nat -> exists mu, scene ray (rebuilt leg c) src ll x0 y0 so lo le chunk = Ok mu /\
  forall i j, (i < ny c)%nat -> (j < nx c)%nat ->
  mu i j = sub_mean leg (quad_level c) (scene_brightness ray src ll so lo le) (sub c) (sub_centre x0 (sub c) (nx c) j) (sub_centre y0 (sub c) (ny c) i).
Proof.
  intros C. unfold scene. set (S := rebuilt leg c). assert (HS : S = rebuilt leg c) by reflexivity. clearbody S.
  assert (M1 : exists m, (match src with
        | Some f => if so then if le then bind (vmap chunk (fun p => ray (fst p) (snd p)) (points S x0 y0)) (fun b => bind (vmap chunk (fun p => f (fst p) (snd p)) b) (fun mu_fine => Ok (integrate S mu_fine)))
            else bind (vmap chunk (fun p => f (fst p) (snd p)) (points S x0 y0)) (fun mu_fine => Ok (integrate S mu_fine)) else Ok (fun _ _ => 0)
        | None => Ok (fun _ _ => 0) end) = Ok m /\ forall i j, (i < ny c)%nat -> (j < nx c)%nat ->
    m i j = sub_mean leg (quad_level c) (scene_brightness ray src None so lo le) (sub c) (sub_centre x0 (sub c) (nx c) j) (sub_centre y0 (sub c) (ny c) i)).
  { destruct src as [f|]; [destruct so; [destruct le|]|].
    - rewrite vmap_val by exact C. cbn [bind]. rewrite vmap_val by exact C. cbn [bind]. eexists. split; [reflexivity|]. intros i j Hi Hj. rewrite map_map. rewrite (integrate_val leg c S _ x0 y0 i j HS Hi Hj).
      apply sub_mean_ext. intros; unfold scene_brightness; cbn; ring.
    - rewrite vmap_val by exact C. cbn [bind]. eexists. split; [reflexivity|]. intros i j Hi Hj. rewrite (integrate_val leg c S _ x0 y0 i j HS Hi Hj).
      apply sub_mean_ext. intros; unfold scene_brightness; cbn; ring.
    - eexists. split; [reflexivity|]. intros i j Hi Hj. rewrite <- (sub_mean_zero leg (quad_level c) (sub c) (sub_centre x0 (sub c) (nx c) j) (sub_centre y0 (sub c) (ny c) i)). apply sub_mean_ext. intros; unfold scene_brightness; cbn; ring.
    - eexists. split; [reflexivity|]. intros i j Hi Hj. rewrite <- (sub_mean_zero leg (quad_level c) (sub c) (sub_centre x0 (sub c) (nx c) j) (sub_centre y0 (sub c) (ny c) i)). apply sub_mean_ext. intros; unfold scene_brightness; cbn; ring. }
  destruct M1 as (m & -> & M). cbn [bind]. destruct ll as [g|]; [destruct lo|].
  - rewrite vmap_val by exact C. cbn [bind]. eexists. split; [reflexivity|]. intros i j Hi Hj. cbv beta. rewrite M, (integrate_val leg c S _ x0 y0 i j HS Hi Hj) by assumption. rewrite <- sub_mean_plus.
    apply sub_mean_ext. intros; unfold scene_brightness; cbn; ring.
  - eexists. split; [reflexivity|]. intros i j Hi Hj. rewrite M by assumption. apply sub_mean_ext. intros; unfold scene_brightness; cbn; ring.
  - eexists. split; [reflexivity|]. intros i j Hi Hj. rewrite M by assumption. apply sub_mean_ext. intros; unfold scene_brightness; cbn; ring.
Qed.
(** ** the PSF *)
Lemma conv_1d h K s P (F : nat -> nat -> R) : (P < h)%nat -> (h <= s)%nat -> (K <= P + 1)%nat -> (h + K <= s + P + 1)%nat ->
  (forall a u, (h <= a)%nat -> F a u = 0) -> (forall a u, (K <= u)%nat -> F a u = 0) ->
  fsum s (fun a => F a (wrap s P a)) = fsum K (fun u => F (P - u)%nat u).
Proof.
  intros A B C D Z1 Z2. rewrite (fsum_trunc (P + 1) s).
  - rewrite fsum_rev. transitivity (fsum (P + 1) (fun u => F (P - u)%nat u)).
    + apply fsum_ext. intros u Hu. replace (P + 1 - 1 - u)%nat with (P - u)%nat by lia. f_equal. rewrite wrap_val by lia. lia.
    + apply fsum_trunc; [lia|]. intros u Hu. apply Z2. lia.
  - lia.
  - intros a Ha. destruct (Nat.le_gt_cases h a) as [L|L]; [apply Z1, L|]. apply Z2. unfold wrap. rewrite Nat.mod_small by lia. lia.
Qed.
Lemma rolled_neg s p i : (i + p < s)%nat -> rolled s (- Z.of_nat p) i = (i + p)%nat.
Proof. intros H. unfold rolled. rewrite Z.mod_small by lia. lia. Qed.
Lemma half_split k : (1 <= k)%nat -> (k - 1 - (k - 1) / 2 = k / 2)%nat /\ (k <= 2 * (k / 2) + 1)%nat /\ ((k - 1) / 2 <= k - 1)%nat.
Proof.
  intros H. assert (A := Nat.div_mod (k - 1) 2 ltac:(lia)). assert (B := Nat.mod_upper_bound (k - 1) 2 ltac:(lia)).
  assert (A' := Nat.div_mod k 2 ltac:(lia)). assert (B' := Nat.mod_upper_bound k 2 ltac:(lia)). lia.
Qed.
Section Psf.
Variables (leg : nat -> (nat -> R) * (nat -> R)) (c : settings) (kr kc : nat) (psf : nat -> nat -> R).
Hypothesis SH : psf_shape c = (kr, kc). Hypothesis KR : (1 <= kr)%nat. Hypothesis KC : (1 <= kc)%nat.
Lemma padx_eq : padx c = (kc / 2)%nat. Proof. unfold padx. rewrite SH. reflexivity. Qed.
Lemma pady_eq : pady c = (kr / 2)%nat. Proof. unfold pady. rewrite SH. reflexivity. Qed.
(** the value on the part of the grid that is kept *)
Definition plain_conv (mu : nat -> nat -> R) (i j : nat) : R :=
  fsum kr (fun u => fsum kc (fun v => psf u v / psf_sum kr kc psf * mu (i + 2 * (kr / 2) - u)%nat (j + 2 * (kc / 2) - v)%nat)).
Lemma conv2d_val mu i j : (i < pixels_y c * upsample_factor c)%nat -> (j < pixels_x c * upsample_factor c)%nat ->
  conv2d_same (ny c) (nx c) mu kr kc (fun i j => flip_hw kr kc psf i j / psf_sum kr kc psf) (pady c + i) (padx c + j) = plain_conv mu i j.
Proof.
  intros Hi Hj. destruct (half_split kr KR) as (R1 & R2 & R3), (half_split kc KC) as (C1 & C2 & C3). unfold conv2d_same, plain_conv.
  rewrite fsum_rev. apply fsum_ext. intros u Hu. rewrite fsum_rev. apply fsum_ext. intros v Hv. unfold flip_hw.
  replace (kr - 1 - (kr - 1 - u))%nat with u by lia. replace (kc - 1 - (kc - 1 - v))%nat with v by lia. rewrite Rmult_comm. f_equal.
  rewrite pady_eq, padx_eq. set (p := (i + 2 * (kr / 2) - u)%nat). set (q := (j + 2 * (kc / 2) - v)%nat).
  replace (Z.of_nat (kr / 2 + i) + Z.of_nat (kr - 1 - u) - Z.of_nat ((kr - 1) / 2))%Z with (Z.of_nat p) by (unfold p; lia).
  replace (Z.of_nat (kc / 2 + j) + Z.of_nat (kc - 1 - v) - Z.of_nat ((kc - 1) / 2))%Z with (Z.of_nat q) by (unfold q; lia).
  unfold at_Z. rewrite !Nat2Z.id. rewrite (proj2 (Z.leb_le 0 (Z.of_nat p))), (proj2 (Z.leb_le 0 (Z.of_nat q))) by lia.
  rewrite (proj2 (Z.ltb_lt (Z.of_nat p) (Z.of_nat (ny c)))) by (unfold p, ny; rewrite pady_eq; lia). rewrite (proj2 (Z.ltb_lt (Z.of_nat q) (Z.of_nat (nx c)))) by (unfold q, nx; rewrite padx_eq; lia). reflexivity.
Qed.
Lemma fft_val mu i j : pixels_x c = pixels_y c -> (kr / 2 = kc / 2)%nat -> (i < pixels_y c * upsample_factor c)%nat -> (j < pixels_x c * upsample_factor c)%nat ->
  let s0 := next_fast_len (nx c) in let s1 := next_fast_len (ny c) in
  irfft2 (fun k l => Cmult (rfft2 (ny c) (nx c) mu s0 s1 k l) (rfft2 kr kc (fun i j => psf i j / psf_sum kr kc psf) s0 s1 k l)) s0 s1
    (rolled s0 (- Z.of_nat (padx c)) (pady c + i)) (rolled s1 (- Z.of_nat (pady c)) (padx c + j)) = plain_conv mu i j.
Proof.
  intros SQ PQ Hi Hj s0 s1. destruct (half_split kr KR) as (R1 & R2 & R3), (half_split kc KC) as (C1 & C2 & C3).
  assert (NX : nx c = (pixels_y c * upsample_factor c + 2 * (kr / 2))%nat) by (unfold nx; rewrite padx_eq, SQ, PQ; lia).
  assert (NY : ny c = (pixels_y c * upsample_factor c + 2 * (kr / 2))%nat) by (unfold ny; rewrite pady_eq; lia).
  unfold s0, s1. rewrite NX, NY. clear s0 s1. set (n := (pixels_y c * upsample_factor c + 2 * (kr / 2))%nat) in *. rewrite SQ in Hj. destruct (nfl_spec n ltac:(lia)) as [[S1 S2] _]. set (s := next_fast_len n) in *.
  rewrite padx_eq, pady_eq. rewrite <- PQ. rewrite !rolled_neg by lia. rewrite rfft2_product by lia.
  set (P := (kr / 2 + i + kr / 2)%nat). set (Q := (kr / 2 + j + kr / 2)%nat).
  transitivity (fsum s (fun a => fsum kc (fun v => zero_pad n n mu a (Q - v) * zero_pad kr kc (fun i j => psf i j / psf_sum kr kc psf) (wrap s P a) v))).
  { apply fsum_ext. intros a _. apply (conv_1d n kc s Q (fun b v => zero_pad n n mu a b * zero_pad kr kc (fun i j => psf i j / psf_sum kr kc psf) (wrap s P a) v)); try lia.
    - intros b v Hb. unfold zero_pad at 1. rewrite (proj2 (Nat.ltb_ge b n) Hb), andb_false_r. ring.
    - intros b v Hv. unfold zero_pad at 2. rewrite (proj2 (Nat.ltb_ge v kc) Hv), andb_false_r. ring. }
  rewrite (conv_1d n kr s P (fun a u => fsum kc (fun v => zero_pad n n mu a (Q - v) * zero_pad kr kc (fun i j => psf i j / psf_sum kr kc psf) u v))); try lia.
  - unfold plain_conv. apply fsum_ext. intros u Hu. apply fsum_ext. intros v Hv. rewrite <- PQ.
    replace (i + 2 * (kr / 2) - u)%nat with (P - u)%nat by (unfold P; lia). replace (j + 2 * (kr / 2) - v)%nat with (Q - v)%nat by (unfold Q; lia).
    unfold zero_pad. rewrite (proj2 (Nat.ltb_lt u kr) Hu), (proj2 (Nat.ltb_lt v kc) Hv), (proj2 (Nat.ltb_lt (P - u) n)), (proj2 (Nat.ltb_lt (Q - v) n)) by (unfold P, Q, n; lia). cbn [andb]. ring.
  - intros a u Ha. apply fsum_zero. intros v _. unfold zero_pad at 1. rewrite (proj2 (Nat.ltb_ge a n) Ha). cbn [andb]. ring.
  - intros a u Hu. apply fsum_zero. intros v _. unfold zero_pad at 2. rewrite (proj2 (Nat.ltb_ge u kr) Hu). cbn [andb]. ring.
Qed.
End Psf.
(** ** the returned image *)
Definition mode_ok (c : settings) (kr kc : nat) : Prop :=
  psf_mode c = "conv2d"%string \/ (psf_mode c = "fft"%string /\ pixels_x c = pixels_y c /\ (kr / 2 = kc / 2)%nat) \/ (kr = 1%nat /\ kc = 1%nat).
Lemma native_val leg c (im : image) : (1 <= pixels_x c)%nat -> (1 <= pixels_y c)%nat -> (1 <= upsample_factor c)%nat ->
  (pixels_y c * upsample_factor c + pady c <= rows im)%nat -> (pixels_x c * upsample_factor c + padx c <= cols im)%nat ->
  native (rebuilt leg c) im = Ok {| rows := pixels_y c; cols := pixels_x c;
    at_ := fun i j => fsum (upsample_factor c) (fun a => fsum (upsample_factor c) (fun b => at_ im (pady c + (i * upsample_factor c + a)) (padx c + (j * upsample_factor c + b)))) / INR (upsample_factor c * upsample_factor c) |}.
Proof.
  intros X Y U HR HC. unfold native. destruct (built_fields leg c) as (E1 & _ & _). cbn [bld cfg rebuilt]. rewrite E1. cbn [fst snd].
  unfold avg_pool2d, slice_len, slice_start. cbn [rows cols at_]. rewrite !Nat.min_l by lia.
  replace (pixels_y c * upsample_factor c + pady c - pady c)%nat with (pixels_y c * upsample_factor c)%nat by lia.
  replace (pixels_x c * upsample_factor c + padx c - padx c)%nat with (pixels_x c * upsample_factor c)%nat by lia.
  rewrite !Nat.div_mul by lia. rewrite (proj2 (Nat.eqb_neq _ 0)), (proj2 (Nat.eqb_neq _ 0)) by lia. reflexivity.
Qed.
Lemma nfl_ge n : (n <= next_fast_len n)%nat.
Proof. destruct (Nat.eq_dec n 0) as [->|N]; [lia|]. apply nfl_spec. lia. Qed.
Lemma sub_centre_pad x0 d n p i k : sub_centre x0 d (n + p * 2) (i + 2 * p - k) = sub_centre x0 d n i - (INR k - INR p) * d \/ (i + 2 * p < k)%nat.
Proof.
  destruct (Nat.le_gt_cases k (i + 2 * p)) as [L|L]; [left|right; exact L]. unfold sub_centre. rewrite minus_INR by exact L. rewrite !plus_INR, !mult_INR. cbn [INR]. field.
Qed.
Section Value.
Variables (leg : nat -> (nat -> R) * (nat -> R)) (c : settings) (kr kc : nat) (psf : nat -> nat -> R).
Hypothesis SH : psf_shape c = (kr, kc). Hypothesis KR : (1 <= kr)%nat. Hypothesis KC : (1 <= kc)%nat.
Hypothesis PX : (1 <= pixels_x c)%nat. Hypothesis PY : (1 <= pixels_y c)%nat. Hypothesis UP : (1 <= upsample_factor c)%nat.
Lemma plain_conv_blurred B x0 y0 mu i j : (i < pixels_y c * upsample_factor c)%nat -> (j < pixels_x c * upsample_factor c)%nat ->
  (forall i j, (i < ny c)%nat -> (j < nx c)%nat -> mu i j = B (sub_centre x0 (sub c) (nx c) j) (sub_centre y0 (sub c) (ny c) i)) ->
  plain_conv kr kc psf mu i j = blurred kr kc psf (sub c) B (sub_centre x0 (sub c) (pixels_x c * upsample_factor c) j) (sub_centre y0 (sub c) (pixels_y c * upsample_factor c) i).
Proof.
  intros Hi Hj M. destruct (half_split kr KR) as (R1 & R2 & R3), (half_split kc KC) as (C1 & C2 & C3).
  unfold plain_conv, blurred. apply fsum_ext. intros u Hu. apply fsum_ext. intros v Hv. unfold psf_sum. f_equal. rewrite M.
  - unfold nx, ny. rewrite (padx_eq c kr kc SH), (pady_eq c kr kc SH).
    destruct (sub_centre_pad x0 (sub c) (pixels_x c * upsample_factor c) (kc / 2) j v) as [->|L]; [|lia].
    destruct (sub_centre_pad y0 (sub c) (pixels_y c * upsample_factor c) (kr / 2) i u) as [->|L]; [|lia]. reflexivity.
  - unfold ny. rewrite (pady_eq c kr kc SH). lia.
  - unfold nx. rewrite (padx_eq c kr kc SH). lia.
Qed.
Lemma sub_index n U i a : (i < n)%nat -> (a < U)%nat -> (i * U + a < n * U)%nat.
Proof. intros A B. assert (C := Nat.mul_le_mono_r (i + 1) n U ltac:(lia)). rewrite Nat.mul_add_distr_r in C. lia. Qed.
Lemma call_plain ray src ll x0 y0 so lo le chunk : chunk <> Some 0%nat -> exists im,
  call ray (rebuilt leg c) src ll kr kc psf x0 y0 so lo le false chunk = Ok im /\ rows im = pixels_y c /\ cols im = pixels_x c /\
  forall i j, (i < pixels_y c)%nat -> (j < pixels_x c)%nat ->
  at_ im i j = pixel_value (upsample_factor c) (pixels_x c) (pixels_y c) x0 y0 (sub c) (sub_mean leg (quad_level c) (scene_brightness ray src ll so lo le) (sub c)) i j.
Proof.
  intros C. destruct (scene_val ray leg c src ll x0 y0 so lo le chunk C) as (mu & E & M). unfold call. rewrite E. cbn [bind]. unfold convolve. cbn [andb].
  destruct (built_fields leg c) as (_ & E2 & _). rewrite native_val; try assumption.
  - eexists. split; [reflexivity|]. cbn [rows cols at_]. split; [reflexivity|]. split; [reflexivity|]. intros i j Hi Hj. unfold pixel_value. f_equal.
    apply fsum_ext. intros a Ha. apply fsum_ext. intros b Hb. rewrite M.
    + assert (A1 : forall t n p k, sub_centre t (sub c) (n + p * 2) (p + k) = sub_centre t (sub c) n k) by (intros; unfold sub_centre; rewrite !plus_INR, !mult_INR; cbn [INR]; field).
      unfold nx, ny. rewrite !A1. reflexivity.
    + unfold ny. assert (D := sub_index _ _ _ _ Hi Ha). lia.
    + unfold nx. assert (D := sub_index _ _ _ _ Hj Hb). lia.
  - cbn [rows bld rebuilt]. rewrite E2. cbn [snd]. unfold ny. lia.
  - cbn [cols bld rebuilt]. rewrite E2. cbn [fst]. unfold nx. lia.
Qed.
Lemma blurred_one d B x y : kr = 1%nat -> kc = 1%nat -> psf 0%nat 0%nat <> 0 -> blurred kr kc psf d B x y = B x y.
Proof.
  intros -> -> N. unfold blurred. cbn. replace (x - (0 - 0) * d) with x by ring. replace (y - (0 - 0) * d) with y by ring. rewrite !Rplus_0_l. field. exact N.
Qed.
Lemma call_blurred ray src ll x0 y0 so lo le chunk : chunk <> Some 0%nat -> mode_ok c kr kc -> psf_sum kr kc psf <> 0 -> exists im,
  call ray (rebuilt leg c) src ll kr kc psf x0 y0 so lo le true chunk = Ok im /\ rows im = pixels_y c /\ cols im = pixels_x c /\
  forall i j, (i < pixels_y c)%nat -> (j < pixels_x c)%nat ->
  at_ im i j = pixel_value (upsample_factor c) (pixels_x c) (pixels_y c) x0 y0 (sub c) (blurred kr kc psf (sub c) (sub_mean leg (quad_level c) (scene_brightness ray src ll so lo le) (sub c))) i j.
Proof.
  intros C MO PS. destruct (bool_dec ((kr =? 1)%nat && (kc =? 1)%nat) true) as [ONE|ONE].
  { assert (H := ONE). apply andb_prop in H. destruct H as [A B]. apply Nat.eqb_eq in A, B.
    destruct (call_plain ray src ll x0 y0 so lo le chunk C) as (im & E & ER & EC & EV). exists im. split; [|split; [exact ER|split; [exact EC|]]].
    - rewrite <- E. unfold call, convolve. rewrite ONE. reflexivity.
    - intros i j Hi Hj. rewrite EV by assumption. unfold pixel_value. f_equal. apply fsum_ext. intros a _. apply fsum_ext. intros b _. symmetry. apply blurred_one; try assumption.
      revert PS. unfold psf_sum. rewrite A, B. cbn. rewrite !Rplus_0_l. auto. }
  apply not_true_is_false in ONE.
  destruct (scene_val ray leg c src ll x0 y0 so lo le chunk C) as (mu & E & M). unfold call. rewrite E. cbn [bind]. unfold convolve. rewrite ONE. cbn [andb negb].
  destruct (built_fields leg c) as (E1 & E2 & E3). cbn [bld cfg rebuilt]. rewrite E1, E2, E3. cbn [fst snd].
  destruct MO as [MO|[(MO & SQ & PQ)|[-> ->]]]; [| |discriminate ONE].
  - rewrite MO. cbn [String.eqb Ascii.eqb Bool.eqb]. rewrite native_val; cbn [rows cols]; try assumption; [|unfold ny; lia|unfold nx; lia].
    eexists. split; [reflexivity|]. cbn [rows cols at_]. split; [reflexivity|]. split; [reflexivity|]. intros i j Hi Hj. unfold pixel_value. f_equal.
    apply fsum_ext. intros a Ha. apply fsum_ext. intros b Hb. assert (D1 := sub_index _ _ _ _ Hi Ha). assert (D2 := sub_index _ _ _ _ Hj Hb).
    rewrite (conv2d_val c kr kc psf SH KR KC) by assumption. apply plain_conv_blurred; assumption.
  - rewrite MO. cbn [String.eqb Ascii.eqb Bool.eqb].
    assert (NE : nx c = ny c) by (unfold nx, ny; rewrite (padx_eq c kr kc SH), (pady_eq c kr kc SH), SQ, PQ; reflexivity).
    assert (G1 := nfl_ge (nx c)). assert (G2 := nfl_ge (ny c)).
    rewrite native_val; cbn [rows cols]; try assumption; [|rewrite NE; unfold ny in *; lia|rewrite <- NE; unfold nx in *; lia].
    eexists. split; [reflexivity|]. cbn [rows cols at_]. split; [reflexivity|]. split; [reflexivity|]. intros i j Hi Hj. unfold pixel_value. f_equal.
    apply fsum_ext. intros a Ha. apply fsum_ext. intros b Hb. assert (D1 := sub_index _ _ _ _ Hi Ha). assert (D2 := sub_index _ _ _ _ Hj Hb).
    rewrite (fft_val c kr kc psf SH KR KC) by assumption. apply plain_conv_blurred; assumption.
Qed.
End Value.
