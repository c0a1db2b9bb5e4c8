(** * PixelatedConvergence: padding, windowing, changing the mode, convergence *)
From Coq Require Import Reals Lra Lia Psatz Arith ZArith List Bool String.
From Coquelicot Require Import Coquelicot.
From Verif Require Import Py Fsum RealFun Geo_Model Interp2_Model Interp2_Spec Interp2_Proofs Dft_Model Dft_Proofs PixMap_Spec PixMap_Proofs PixConv_Model PixConv_Spec PixConv_Proofs PixConv2_Proofs PixConv3_Proofs PixPad_Spec.
Local Open Scope R_scope.

Definition opt2 (A : nat -> nat -> R) (a b : option nat) : R := match a, b with Some a, Some b => A a b | _, _ => 0 end.
Lemma rolled_any s i : (0 < s)%nat -> (i < Nat.div s 2 + 1)%nat -> (i + Nat.div (s + 1) 2 <= s)%nat -> rolled s (- Z.of_nat s / 2) i = Nat.modulo (i + Nat.div (s + 1) 2) s.
Proof.
  intros S _ _. unfold rolled. replace (Z.of_nat i - - Z.of_nat s / 2)%Z with (Z.of_nat (i + Nat.div (s + 1) 2)) by (rewrite Nat2Z.inj_add, <- half_up; lia).
  rewrite <- Nat2Z.inj_mod. apply Nat2Z.id.
Qed.
Lemma padded_map n A K ps padding : (1 <= n)%nat -> usable n padding "fft" -> exists m, convolved A (with_tilde n K) ps n padding "fft" = Ok (n, m) /\
  let s := next_fast_len (2 * n) in let c := Nat.div (s + 1) 2 in
  forall i j, (i < n)%nat -> (j < n)%nat ->
  m i j = fsum s (fun a => fsum s (fun b => opt2 A (stands_at padding n a) (stands_at padding n b) * zero_pad (2 * n) (2 * n) K (wrap s (i + c) a) (wrap s (j + c) b))) * (ps ^ 2 / PI).
Proof.
  intros N U. destruct U as [U|[_ U]]; [discriminate|].
  assert (G : forall h f, fft2_padded A n padding = Ok (rfft2 h h f (next_fast_len (2 * n)) (next_fast_len (2 * n))) ->
    (forall a b, zero_pad h h f a b = opt2 A (stands_at padding n a) (stands_at padding n b)) ->
    exists m, convolved A (with_tilde n K) ps n padding "fft" = Ok (n, m) /\
    let s := next_fast_len (2 * n) in let c := Nat.div (s + 1) 2 in
    forall i j, (i < n)%nat -> (j < n)%nat ->
    m i j = fsum s (fun a => fsum s (fun b => opt2 A (stands_at padding n a) (stands_at padding n b) * zero_pad (2 * n) (2 * n) K (wrap s (i + c) a) (wrap s (j + c) b))) * (ps ^ 2 / PI)).
  { intros h f E Z. unfold convolved. rewrite E. unfold with_tilde, fft_size. cbn [String.eqb Ascii.eqb Bool.eqb bind k_tilde]. eexists. split; [reflexivity|].
    set (s := next_fast_len (2 * n)). set (c := Nat.div (s + 1) 2). cbv zeta. intros i j Hi Hj. destruct (size_bounds n N) as (S1 & C1 & C2). unfold unpad_fft, fft_size. fold s. fold s in S1. fold c in C1, C2.
    rewrite !(rolled_val s n) by assumption. fold c. rewrite (rfft2_product h h f (2 * n) (2 * n) K) by lia. f_equal.
    apply fsum_ext. intros a _. apply fsum_ext. intros b _. rewrite Z. reflexivity. }
  destruct U as [[->| ->]|[N2 [->| ->]]].
  - apply (G n A); [reflexivity|]. intros a b. unfold zero_pad, stands_at. cbn [String.eqb Ascii.eqb Bool.eqb]. destruct (Nat.ltb a n), (Nat.ltb b n); reflexivity.
  - apply (G (2 * n)%nat (fun i j => A (Nat.modulo i n) (Nat.modulo j n))); [reflexivity|]. intros a b. unfold zero_pad, stands_at. cbn [String.eqb Ascii.eqb Bool.eqb].
    destruct (Nat.ltb_spec a n), (Nat.ltb_spec a (2 * n)), (Nat.ltb_spec b n), (Nat.ltb_spec b (2 * n)); try lia; cbn [andb opt2]; try reflexivity; repeat rewrite (Nat.mod_small a) by lia; repeat rewrite (Nat.mod_small b) by lia; reflexivity.
  - apply (G (2 * n - 1)%nat (fun i j => A (pad_reflect n i) (pad_reflect n j))).
    + unfold fft2_padded, fft_size. cbn [String.eqb Ascii.eqb Bool.eqb orb]. replace (Nat.leb n 1) with false by (symmetry; apply Nat.leb_gt; lia). reflexivity.
    + intros a b. unfold zero_pad, stands_at, pad_reflect. cbn [String.eqb Ascii.eqb Bool.eqb].
      destruct (Nat.ltb_spec a n), (Nat.ltb_spec a (2 * n - 1)), (Nat.ltb_spec b n), (Nat.ltb_spec b (2 * n - 1)); try lia; cbn [andb opt2]; try reflexivity; f_equal; lia.
  - apply (G (2 * n - 1)%nat (fun i j => A (pad_circular n i) (pad_circular n j))).
    + unfold fft2_padded, fft_size. cbn [String.eqb Ascii.eqb Bool.eqb orb]. replace (Nat.leb n 1) with false by (symmetry; apply Nat.leb_gt; lia). reflexivity.
    + assert (M : forall a, (n <= a < 2 * n - 1)%nat -> Nat.modulo a n = (a - n)%nat).
      { intros a Ha. replace a with (a - n + 1 * n)%nat at 1 by lia. rewrite Nat.mod_add by lia. apply Nat.mod_small. lia. }
      intros a b. unfold zero_pad, stands_at, pad_circular. cbn [String.eqb Ascii.eqb Bool.eqb].
      destruct (Nat.ltb_spec a n), (Nat.ltb_spec a (2 * n - 1)), (Nat.ltb_spec b n), (Nat.ltb_spec b (2 * n - 1)); try lia; cbn [andb opt2]; try reflexivity; rewrite ?M by lia; reflexivity.
Qed.
(** ** the kernels *)
Lemma window_val ps n w u v : 0 < ps -> (1 <= n)%nat -> 0 < w ->
  build_window_pixelated_convergence w (2 * n) (2 * n) u v = taper ps n w ((INR v - INR n + 1 / 2) * ps) ((INR u - INR n + 1 / 2) * ps).
Proof.
  intros P N W. assert (NP : 1 <= INR n) by (apply (le_INR 1); lia).
  assert (E : forall k, linspace_m1_1 (2 * n) k = (INR k - INR n + 1 / 2) / (INR n - 1 / 2)).
  { intros k. unfold linspace_m1_1. destruct n as [|n]; [lia|]. replace (2 * S n)%nat with (S (S (2 * n))) by lia. rewrite !S_INR, mult_INR. cbn [INR]. assert (0 <= INR n) by apply pos_INR. field. lra. }
  unfold build_window_pixelated_convergence, taper. rewrite !E. set (X := INR v - INR n + 1 / 2). set (Y := INR u - INR n + 1 / 2). set (h := INR n - 1 / 2). assert (0 < h) by (unfold h; lra).
  assert (R : sqrt ((X / h) ^ 2 + (Y / h) ^ 2) = sqrt ((X * ps) ^ 2 + (Y * ps) ^ 2) / (h * ps)).
  { assert (HP : 0 < h * ps) by (apply Rmult_lt_0_compat; assumption). replace ((X / h) ^ 2 + (Y / h) ^ 2) with (((X * ps) ^ 2 + (Y * ps) ^ 2) / (h * ps) ^ 2) by (field; lra).
    rewrite sqrt_div_alt by (apply pow_lt, HP). rewrite sqrt_pow2 by lra. reflexivity. }
  rewrite R. set (r := sqrt ((X * ps) ^ 2 + (Y * ps) ^ 2) / (h * ps)). unfold clampR.
  destruct (Rle_dec w 0) as [Z|_]; [lra|]. assert (D : forall t, (1 - r) / w = t -> 1 - r = t * w) by (intros t <-; field; lra). specialize (D _ eq_refl). set (t := (1 - r) / w) in *.
  destruct (Rle_dec r (1 - w)).
  - assert (1 <= t) by nra. rewrite Rmax_left by lra. apply Rmin_right. lra.
  - destruct (Rle_dec 1 r).
    + assert (t <= 0) by nra. rewrite Rmax_right by lra. apply Rmin_left. lra.
    + assert (0 < t) by nra. assert (t < 1) by nra. rewrite Rmax_left by lra. apply Rmin_left. lra.
Qed.
Definition tapered_x ps n w X Y : R := taper ps n w X Y * point_x X Y.
Definition tapered_y ps n w X Y : R := taper ps n w X Y * point_y X Y.
(** the window used by an object built in fft mode *)
Definition eff_window (padding : string) (w : R) : R := if String.eqb padding "zero" then 0 else w.
Lemma fft_kernels ps n padding w L : (1 <= n)%nat -> 0 < ps -> new_pixconv ps 2 (n, n) padding "fft" w = Ok L ->
  exists Kx Ky Kp, pc_ax L = with_tilde n Kx /\ pc_ay L = with_tilde n Ky /\ pc_pot L = with_tilde n Kp /\
  forall u v, let X := (INR v - INR n + 1 / 2) * ps in let Y := (INR u - INR n + 1 / 2) * ps in
  Kx u v = tapered_x ps n (eff_window padding w) X Y /\ Ky u v = tapered_y ps n (eff_window padding w) X Y /\ Kp u v = ln (sqrt (X ^ 2 + Y ^ 2)).
Proof.
  intros N P. assert (V := fun u v => KXY_val ps n u v P N). unfold KX, KY, KP in V. unfold new_pixconv. cbn [Nat.eqb negb fst snd]. rewrite Nat.eqb_refl. cbn [negb].
  destruct (build_kernels_pixelated_convergence ps n) as [[ax ay] pot]. cbn [fst snd] in V. cbn [known_mode String.eqb Ascii.eqb Bool.eqb orb]. intros H. injection H as <-. cbn [pc_ax pc_ay pc_pot].
  eexists _, _, _. split; [reflexivity|]. split; [reflexivity|]. split; [reflexivity|]. cbv zeta. intros u v. set (X := (INR v - INR n + 1 / 2) * ps). set (Y := (INR u - INR n + 1 / 2) * ps). destruct (V u v) as (V1 & V2 & V3). fold X Y in V1, V2, V3.
  unfold tapered_x, tapered_y, eff_window. destruct (String.eqb padding "zero"); cbn [negb andb].
  - unfold taper. destruct (Rle_dec 0 0); [|lra]. rewrite V1, V2, V3. repeat split; ring.
  - destruct (Rlt_dec 0 w) as [W|W].
    + rewrite V1, V2, V3, (window_val ps n w) by assumption. fold X Y. repeat split; ring.
    + unfold taper. destruct (Rle_dec w 0); [|lra]. rewrite V1, V2, V3. repeat split; ring.
Qed.
(** ** the value at pixel centres for every padding *)
Definition seen (n s : nat) (ps : R) (A : nat -> nat -> R) (padding : string) (f : R -> R -> R) (i j a b : nat) : R :=
  match stands_at padding n a, stands_at padding n b, displacement ps n s i a, displacement ps n s j b with
  | Some a', Some b', Some Y, Some X => A a' b' * f X Y | _, _, _, _ => 0 end.
Lemma seen_val n s ps A padding K f i j a b : (a < s)%nat -> (b < s)%nat -> (forall u v, K u v = f ((INR v - INR n + 1 / 2) * ps) ((INR u - INR n + 1 / 2) * ps)) ->
  let c := Nat.div (s + 1) 2 in
  opt2 A (stands_at padding n a) (stands_at padding n b) * zero_pad (2 * n) (2 * n) K (wrap s (i + c) a) (wrap s (j + c) b) = seen n s ps A padding f i j a b.
Proof.
  intros Ha Hb HK c. unfold seen, opt2, displacement, zero_pad, wrap. fold c.
  destruct (stands_at padding n a); [|ring]. destruct (stands_at padding n b); [|ring].
  destruct (Nat.ltb (Nat.modulo (i + c + (s - a)) s) (2 * n)); cbn [andb]; [|ring]. destruct (Nat.ltb (Nat.modulo (j + c + (s - b)) s) (2 * n)); [|ring]. rewrite HK. reflexivity.
Qed.
Lemma padded_value n ps w padding L x0 y0 A sc i j : (1 <= n)%nat -> 0 < ps -> usable n padding "fft" -> new_pixconv ps 2 (n, n) padding "fft" w = Ok L -> (i < n)%nat -> (j < n)%nat ->
  let fov := INR n * ps in let s := next_fast_len (2 * n) in
  let total f := ps ^ 2 / PI * (sc * fsum s (fun a => fsum s (fun b => seen n s ps A padding f i j a b))) in
  pc_reduced_deflection_angle L x0 y0 A sc (pixel_pos x0 fov n j) (pixel_pos y0 fov n i) = Ok (total (tapered_x ps n (eff_window padding w)), total (tapered_y ps n (eff_window padding w))) /\
  pc_potential L x0 y0 A sc (pixel_pos x0 fov n j) (pixel_pos y0 fov n i) = Ok (total (fun X Y => ln (sqrt (X ^ 2 + Y ^ 2)))).
Proof.
  intros N P U HL Hi Hj fov s total. destruct (new_fields _ _ _ _ _ _ HL) as (E1 & E2 & E3 & E4 & _). destruct (fft_kernels ps n padding w L N P HL) as (Kx & Ky & Kp & K1 & K2 & K3 & HK).
  destruct (size_bounds n N) as (S1 & _). fold s in S1.
  assert (T : forall K f m, (forall u v, K u v = f ((INR v - INR n + 1 / 2) * ps) ((INR u - INR n + 1 / 2) * ps)) ->
    (let c := Nat.div (s + 1) 2 in forall i j, (i < n)%nat -> (j < n)%nat -> m i j = fsum s (fun a => fsum s (fun b => opt2 (fun a b => A a b * sc) (stands_at padding n a) (stands_at padding n b) * zero_pad (2 * n) (2 * n) K (wrap s (i + c) a) (wrap s (j + c) b))) * (ps ^ 2 / PI)) ->
    m i j = total f).
  { intros K f m HKf M. cbv zeta in M. rewrite (M i j Hi Hj). unfold total. rewrite Rmult_comm. f_equal. rewrite <- fsum_scal_l. apply fsum_ext. intros a Ha. rewrite <- fsum_scal_l. apply fsum_ext. intros b Hb.
    rewrite (seen_val n s ps (fun a b => A a b * sc) padding K f i j a b Ha Hb HKf). unfold seen.
    destruct (stands_at padding n a); [|ring]. destruct (stands_at padding n b); [|ring]. destruct (displacement ps n s i a); [|ring]. destruct (displacement ps n s j b); ring. }
  unfold pc_reduced_deflection_angle, reduced_deflection_angle_pixelated_convergence, pc_potential, potential_pixelated_convergence. rewrite E1, E2, E3, E4, K1, K2, K3.
  destruct (padded_map n (fun a b => A a b * sc) Kx ps padding N U) as (m1 & -> & M1). destruct (padded_map n (fun a b => A a b * sc) Ky ps padding N U) as (m2 & -> & M2).
  destruct (padded_map n (fun a b => A a b * sc) Kp ps padding N U) as (m3 & -> & M3). fold s in M1, M2, M3. cbv zeta in M1, M2, M3. cbn [bind]. unfold pixel_pos, fov. rewrite !sample_centre by assumption. cbn [bind].
  rewrite (T Kx (tapered_x ps n (eff_window padding w)) m1) by (exact M1 || (intros; apply HK)). rewrite (T Ky (tapered_y ps n (eff_window padding w)) m2) by (exact M2 || (intros; apply HK)).
  rewrite (T Kp (fun X Y => ln (sqrt (X ^ 2 + Y ^ 2))) m3) by (exact M3 || (intros; apply HK)). split; reflexivity.
Qed.
(** ** cyclic boundaries *)
Lemma fsum_cyc1 n f : fsum n f = fsum n (fun a => f (Nat.modulo (a + 1) n)).
Proof.
  destruct n as [|n]; [reflexivity|]. rewrite fsum_S_l. cbn [fsum]. replace (n + 1)%nat with (S n) by lia. rewrite Nat.mod_same by lia.
  rewrite Rplus_comm. f_equal. apply fsum_ext. intros i Hi. replace (i + 1)%nat with (S i) by lia. rewrite Nat.mod_small by lia. reflexivity.
Qed.
Lemma fsum_cyc n e f : fsum n f = fsum n (fun a => f (Nat.modulo (a + e) n)).
Proof.
  destruct n as [|n]; [reflexivity|]. induction e as [|e IH]; [apply fsum_ext; intros i Hi; rewrite Nat.add_0_r, Nat.mod_small by lia; reflexivity|].
  rewrite IH, (fsum_cyc1 (S n) (fun a => f (Nat.modulo (a + e) (S n)))). apply fsum_ext. intros i Hi. f_equal. rewrite Nat.add_mod_idemp_l by lia. f_equal. lia.
Qed.
Lemma mod_mod_double a n : (1 <= n)%nat -> Nat.modulo (Nat.modulo a (2 * n)) n = Nat.modulo a n.
Proof.
  intros N. assert (D := Nat.div_mod a (2 * n) ltac:(lia)). rewrite D at 2. replace (2 * n * (a / (2 * n)) + a mod (2 * n))%nat with (a mod (2 * n) + (2 * (a / (2 * n))) * n)%nat by lia.
  rewrite Nat.mod_add by lia. reflexivity.
Qed.
Lemma stands_tile n a : (1 <= n)%nat -> (a < 2 * n)%nat -> stands_at "tile" n a = Some (Nat.modulo a n).
Proof.
  intros N H. unfold stands_at. cbn [String.eqb Ascii.eqb Bool.eqb]. destruct (Nat.ltb_spec a n); [rewrite Nat.mod_small by lia; reflexivity|]. destruct (Nat.ltb_spec a (2 * n)); [reflexivity|lia].
Qed.
(** the reindexing of one axis *)
Lemma turn n i u : (1 <= n)%nat -> (i < n)%nat -> exists e, forall a, (a < 2 * n)%nat ->
  Nat.modulo (Nat.modulo (a + e) (2 * n)) n = Nat.modulo (a + u) n /\
  forall ps, displacement ps n (2 * n) (Nat.modulo (i + u) n) (Nat.modulo (a + e) (2 * n)) = displacement ps n (2 * n) i a.
Proof.
  intros N Hi. set (i' := Nat.modulo (i + u) n). assert (I' : (i' < n)%nat) by (apply Nat.mod_upper_bound; lia). exists (i' + 2 * n - i)%nat. intros a Ha.
  assert (D := Nat.div_mod (i + u) n ltac:(lia)). fold i' in D. set (q := Nat.div (i + u) n) in *. split.
  - rewrite mod_mod_double by assumption. rewrite <- (Nat.mod_add (a + u) 2 n) by lia. rewrite <- (Nat.mod_add (a + (i' + 2 * n - i)) q n) by lia. f_equal. nia.
  - intros ps. unfold displacement. set (c := Nat.div (2 * n + 1) 2). set (b := Nat.modulo (a + (i' + 2 * n - i)) (2 * n)).
    assert (B : (b < 2 * n)%nat) by (apply Nat.mod_upper_bound; lia). assert (DB := Nat.div_mod (a + (i' + 2 * n - i)) (2 * n) ltac:(lia)). fold b in DB. set (k := Nat.div (a + (i' + 2 * n - i)) (2 * n)) in *.
    assert (Q : Nat.modulo (i' + c + (2 * n - b)) (2 * n) = Nat.modulo (i + c + (2 * n - a)) (2 * n)); [|rewrite Q; reflexivity].
    rewrite <- (Nat.mod_add (i + c + (2 * n - a)) k (2 * n)) by lia. rewrite <- (Nat.mod_add (i' + c + (2 * n - b)) 1 (2 * n)) by lia. f_equal. nia.
Qed.
Lemma tile_sum n ps A f i j u v : (1 <= n)%nat -> (i < n)%nat -> (j < n)%nat ->
  fsum (2 * n) (fun a => fsum (2 * n) (fun b => seen n (2 * n) ps (moved n u v A) "tile" f i j a b)) =
  fsum (2 * n) (fun a => fsum (2 * n) (fun b => seen n (2 * n) ps A "tile" f (Nat.modulo (i + u) n) (Nat.modulo (j + v) n) a b)).
Proof.
  intros N Hi Hj. destruct (turn n i u N Hi) as [e He]. destruct (turn n j v N Hj) as [g Hg].
  rewrite (fsum_cyc (2 * n) e (fun a => fsum (2 * n) (fun b => seen n (2 * n) ps A "tile" f (Nat.modulo (i + u) n) (Nat.modulo (j + v) n) a b))). apply fsum_ext. intros a Ha.
  rewrite (fsum_cyc (2 * n) g (fun b => seen n (2 * n) ps A "tile" f (Nat.modulo (i + u) n) (Nat.modulo (j + v) n) (Nat.modulo (a + e) (2 * n)) b)). apply fsum_ext. intros b Hb.
  destruct (He a Ha) as [E1 E2]. destruct (Hg b Hb) as [G1 G2]. unfold seen. rewrite E2, G2.
  rewrite !stands_tile by (assumption || (apply Nat.mod_upper_bound; lia)). rewrite E1, G1. unfold moved. rewrite !Nat.add_mod_idemp_l by lia. reflexivity.
Qed.
Lemma tile_moves n ps w L x0 y0 A sc i j u v : (1 <= n)%nat -> 0 < ps -> next_fast_len (2 * n) = (2 * n)%nat -> new_pixconv ps 2 (n, n) "tile" "fft" w = Ok L -> (i < n)%nat -> (j < n)%nat ->
  let fov := INR n * ps in let i' := Nat.modulo (i + u) n in let j' := Nat.modulo (j + v) n in
  pc_reduced_deflection_angle L x0 y0 (moved n u v A) sc (pixel_pos x0 fov n j) (pixel_pos y0 fov n i) = pc_reduced_deflection_angle L x0 y0 A sc (pixel_pos x0 fov n j') (pixel_pos y0 fov n i') /\
  pc_potential L x0 y0 (moved n u v A) sc (pixel_pos x0 fov n j) (pixel_pos y0 fov n i) = pc_potential L x0 y0 A sc (pixel_pos x0 fov n j') (pixel_pos y0 fov n i').
Proof.
  intros N P S HL Hi Hj fov i' j'. assert (U : usable n "tile" "fft") by (right; split; [reflexivity|left; right; reflexivity]). unfold fov.
  assert (I' : (i' < n)%nat) by (apply Nat.mod_upper_bound; lia). assert (J' : (j' < n)%nat) by (apply Nat.mod_upper_bound; lia).
  destruct (padded_value n ps w "tile" L x0 y0 (moved n u v A) sc i j N P U HL Hi Hj) as [-> ->]. destruct (padded_value n ps w "tile" L x0 y0 A sc i' j' N P U HL I' J') as [-> ->]. rewrite S.
  rewrite !(tile_sum n ps A _ i j u v) by assumption. split; reflexivity.
Qed.
(** ** where it fails *)
Lemma fsum_two n f x y : (x < y)%nat -> (y < n)%nat -> (forall k, (k < n)%nat -> k <> x -> k <> y -> f k = 0) -> fsum n f = f x + f y.
Proof.
  intros XY Y Z. rewrite (fsum_ext n f (fun k => (if Nat.eqb k x then f k else 0) + (if Nat.eqb k y then f k else 0))).
  - rewrite fsum_plus, (fsum_single n (fun k => if Nat.eqb k x then f k else 0) x), (fsum_single n (fun k => if Nat.eqb k y then f k else 0) y); try lia; cbv beta.
    + rewrite !Nat.eqb_refl. reflexivity.
    + intros k _ Hk. rewrite (proj2 (Nat.eqb_neq _ _) Hk). reflexivity.
    + intros k _ Hk. rewrite (proj2 (Nat.eqb_neq _ _) Hk). reflexivity.
  - intros k Hk. destruct (Nat.eqb_spec k x), (Nat.eqb_spec k y); subst; try lia; try ring. rewrite Z by assumption. ring.
Qed.
Definition felt (n s : nat) (ps : R) (f : R -> R -> R) (i j a b : nat) : R :=
  match displacement ps n s i a, displacement ps n s j b with Some Y, Some X => f X Y | _, _ => 0 end.
Lemma tile_bright n s ps A f i j p q : (1 <= n)%nat -> (2 * n <= s)%nat -> (p < n)%nat -> (q < n)%nat -> (forall a b, (a < n)%nat -> (b < n)%nat -> A a b = bright p q a b) ->
  fsum s (fun a => fsum s (fun b => seen n s ps A "tile" f i j a b)) =
  felt n s ps f i j p q + felt n s ps f i j p (q + n) + (felt n s ps f i j (p + n) q + felt n s ps f i j (p + n) (q + n)).
Proof.
  intros N S Hp Hq HA.
  assert (O : forall a p, (a < s)%nat -> (p < n)%nat -> a <> p -> a <> (p + n)%nat -> stands_at "tile" n a = None \/ exists a', (a' < n)%nat /\ a' <> p /\ stands_at "tile" n a = Some a').
  { intros a p0 Ha Hp0 N1 N2. destruct (Nat.lt_ge_cases a (2 * n)) as [B|B].
    - right. exists (Nat.modulo a n). split; [apply Nat.mod_upper_bound; lia|]. split; [|apply stands_tile; assumption]. intros E. assert (D := Nat.div_mod a n ltac:(lia)). rewrite E in D.
      assert (Nat.div a n < 2)%nat by (apply Nat.div_lt_upper_bound; lia). destruct (Nat.div a n) as [|[|k]]; lia.
    - left. unfold stands_at. cbn [String.eqb Ascii.eqb Bool.eqb]. destruct (Nat.ltb_spec a n); [lia|]. destruct (Nat.ltb_spec a (2 * n)); [lia|reflexivity]. }
  assert (I : forall p0, (p0 < n)%nat -> stands_at "tile" n p0 = Some p0 /\ stands_at "tile" n (p0 + n) = Some p0).
  { intros p0 Hp0. rewrite !stands_tile by lia. rewrite Nat.mod_small by lia. split; [reflexivity|]. rewrite <- (Nat.mul_1_l n) at 1. rewrite Nat.mod_add by lia. rewrite Nat.mod_small by lia. reflexivity. }
  assert (G : forall a b, (a = p \/ a = p + n)%nat -> (b = q \/ b = q + n)%nat -> seen n s ps A "tile" f i j a b = felt n s ps f i j a b).
  { intros a b Ha Hb. unfold seen, felt. destruct (I p Hp) as [I1 I2]. destruct (I q Hq) as [I3 I4].
    replace (stands_at "tile" n a) with (Some p) by (destruct Ha as [->| ->]; congruence). replace (stands_at "tile" n b) with (Some q) by (destruct Hb as [->| ->]; congruence).
    rewrite HA by assumption. unfold bright. rewrite !Nat.eqb_refl. cbn [andb]. destruct (displacement ps n s i a); [|reflexivity]. destruct (displacement ps n s j b); [ring|reflexivity]. }
  rewrite (fsum_two s _ p (p + n)); [|lia|lia|].
  - rewrite (fsum_two s (fun b => seen n s ps A "tile" f i j p b) q (q + n)); [|lia|lia|].
    + rewrite (fsum_two s (fun b => seen n s ps A "tile" f i j (p + n)%nat b) q (q + n)); [|lia|lia|].
      * rewrite !G by tauto. reflexivity.
      * intros b Hb B1 B2. unfold seen. destruct (O b q Hb Hq B1 B2) as [->|(b' & Hb' & B3 & ->)]; [destruct (stands_at "tile" n (p + n)); reflexivity|]. rewrite (proj2 (I p Hp)), HA by assumption.
        unfold bright. rewrite (proj2 (Nat.eqb_neq _ _) B3), andb_false_r. destruct (displacement ps n s i (p + n)); [|reflexivity]. destruct (displacement ps n s j b); [ring|reflexivity].
    + intros b Hb B1 B2. unfold seen. destruct (O b q Hb Hq B1 B2) as [->|(b' & Hb' & B3 & ->)]; [destruct (stands_at "tile" n p); reflexivity|]. rewrite (proj1 (I p Hp)), HA by assumption.
        unfold bright. rewrite (proj2 (Nat.eqb_neq _ _) B3), andb_false_r. destruct (displacement ps n s i p); [|reflexivity]. destruct (displacement ps n s j b); [ring|reflexivity].
  - intros a Ha A1 A2. apply fsum_zero. intros b Hb. unfold seen. destruct (O a p Ha Hp A1 A2) as [->|(a' & Ha' & A3 & ->)]; [reflexivity|].
    assert (B : stands_at "tile" n b = None \/ exists b', (b' < n)%nat /\ stands_at "tile" n b = Some b').
    { destruct (Nat.lt_ge_cases b (2 * n)) as [B|B]; [right; exists (Nat.modulo b n); split; [apply Nat.mod_upper_bound; lia|apply stands_tile; assumption]|].
      left. unfold stands_at. cbn [String.eqb Ascii.eqb Bool.eqb]. destruct (Nat.ltb_spec b n); [lia|]. destruct (Nat.ltb_spec b (2 * n)); [lia|reflexivity]. }
    destruct B as [->|(b' & Hb' & ->)]; [reflexivity|]. rewrite HA by assumption. unfold bright. rewrite (proj2 (Nat.eqb_neq _ _) A3). cbn [andb]. destruct (displacement ps n s i a); [|reflexivity]. destruct (displacement ps n s j b); [ring|reflexivity].
Qed.
Lemma taper_none ps n X Y : taper ps n 0 X Y = 1.
Proof. unfold taper. destruct (Rle_dec 0 0); [reflexivity|lra]. Qed.
Lemma ok_pair_ne (a b c d : R) : a <> c -> Ok (a, b) <> Ok (c, d).
Proof. intros H E. apply H. injection E as E _. exact E. Qed.
Lemma nfl_26 : next_fast_len 26 = 27%nat. Proof. vm_compute. reflexivity. Qed.
Lemma tile_fails : exists L, new_pixconv 1 2 (13, 13)%nat "tile" "fft" 0 = Ok L /\
  pc_reduced_deflection_angle L 0 0 (moved 13 1 0 (bright 0 0)) 1 (pixel_pos 0 13 13 0) (pixel_pos 0 13 13 0) <>
  pc_reduced_deflection_angle L 0 0 (bright 0 0) 1 (pixel_pos 0 13 13 0) (pixel_pos 0 13 13 1).
Proof.
  destruct (new_ok 1 13 "tile" "fft" 0 (or_introl eq_refl)) as [L HL]. exists L. split; [exact HL|].
  assert (U : usable 13 "tile" "fft") by (right; split; [reflexivity|left; right; reflexivity]).
  assert (F : 13 = INR 13 * 1) by (rewrite INR_IZR_INZ; cbn; ring). rewrite F.
  destruct (padded_value 13 1 0 "tile" L 0 0 (moved 13 1 0 (bright 0 0)) 1 0 0 ltac:(lia) ltac:(lra) U HL ltac:(lia) ltac:(lia)) as [-> _].
  destruct (padded_value 13 1 0 "tile" L 0 0 (bright 0 0) 1 1 0 ltac:(lia) ltac:(lra) U HL ltac:(lia) ltac:(lia)) as [-> _].
  change (2 * 13)%nat with 26%nat. rewrite nfl_26. apply ok_pair_ne.
  rewrite (tile_bright 13 27 1 (moved 13 1 0 (bright 0 0)) _ 0 0 12 0) by
    (lia || (intros a b Ha Hb; unfold moved, bright; rewrite Nat.add_0_r, (Nat.mod_small b) by lia; f_equal; f_equal; do 13 (destruct a as [|a]; [reflexivity|]); lia)).
  rewrite (tile_bright 13 27 1 (bright 0 0) _ 1 0 0 0) by (lia || reflexivity).
  unfold felt, displacement. cbn -[INR tapered_x eff_window]. cbn [eff_window String.eqb Ascii.eqb Bool.eqb]. unfold tapered_x, eff_window. cbn [String.eqb Ascii.eqb Bool.eqb]. rewrite !taper_none. unfold point_x.
  rewrite !INR_IZR_INZ. cbn [Z.of_nat Pos.of_succ_nat Pos.succ]. assert (Q := PI_RGT_0). intros E. apply Rmult_eq_reg_l in E; [|apply Rgt_not_eq, Rdiv_lt_0_compat; lra]. lra.
Qed.
Lemma nfl_4 : next_fast_len 4 = 4%nat. Proof. vm_compute. reflexivity. Qed.
Lemma circular_fails : exists L, new_pixconv 1 2 (2, 2)%nat "circular" "fft" 0 = Ok L /\
  pc_reduced_deflection_angle L 0 0 (moved 2 1 1 (bright 0 0)) 1 (pixel_pos 0 2 2 1) (pixel_pos 0 2 2 1) <>
  pc_reduced_deflection_angle L 0 0 (bright 0 0) 1 (pixel_pos 0 2 2 0) (pixel_pos 0 2 2 0).
Proof.
  destruct (new_ok 1 2 "circular" "fft" 0 (or_introl eq_refl)) as [L HL]. exists L. split; [exact HL|].
  assert (U : usable 2 "circular" "fft") by (right; split; [reflexivity|right; split; [lia|right; reflexivity]]).
  assert (F : 2 = INR 2 * 1) by (cbn [INR]; ring). rewrite F.
  destruct (padded_value 2 1 0 "circular" L 0 0 (moved 2 1 1 (bright 0 0)) 1 1 1 ltac:(lia) ltac:(lra) U HL ltac:(lia) ltac:(lia)) as [-> _].
  destruct (padded_value 2 1 0 "circular" L 0 0 (bright 0 0) 1 0 0 ltac:(lia) ltac:(lra) U HL ltac:(lia) ltac:(lia)) as [-> _].
  change (2 * 2)%nat with 4%nat. rewrite nfl_4. apply ok_pair_ne. unfold eff_window. cbn [String.eqb Ascii.eqb Bool.eqb].
  unfold seen, displacement, moved, bright. cbn -[INR tapered_x]. unfold tapered_x. rewrite !taper_none. unfold point_x.
  rewrite !INR_IZR_INZ. cbn [Z.of_nat Pos.of_succ_nat Pos.succ]. assert (Q := PI_RGT_0). intros E. apply Rmult_eq_reg_l in E; [|apply Rgt_not_eq, Rdiv_lt_0_compat; lra]. lra.
Qed.
(** ** changing the mode *)
Lemma set_mode_zero ps n mode mode' w L L' L'' : new_pixconv ps 2 (n, n) "zero" mode w = Ok L -> set_convolution_mode L mode' = Ok L' -> new_pixconv ps 2 (n, n) "zero" mode' w = Ok L'' -> L' = L''.
Proof.
  unfold new_pixconv. cbn [Nat.eqb negb fst snd]. rewrite Nat.eqb_refl. cbn [negb]. destruct (build_kernels_pixelated_convergence ps n) as [[ax ay] pot]. cbn [String.eqb Ascii.eqb Bool.eqb negb andb].
  destruct (known_mode mode); [|discriminate]. intros H. injection H as <-. unfold set_convolution_mode. destruct (known_mode mode'); [|discriminate]. cbn. intros H. injection H as <-. intros H. injection H as <-. reflexivity.
Qed.
Lemma set_mode_back ps n padding mode w L mode' L' : new_pixconv ps 2 (n, n) padding mode w = Ok L -> set_convolution_mode L mode' = Ok L' -> set_convolution_mode L' mode = Ok L.
Proof.
  intros HL. assert (N := new_fields _ _ _ _ _ _ HL). destruct N as (_ & _ & _ & E & K). unfold set_convolution_mode. destruct (known_mode mode') eqn:K'; [|discriminate]. intros H. injection H as <-. cbn.
  replace (known_mode mode) with true by (unfold known_mode; symmetry; apply orb_true_iff; rewrite !String.eqb_eq; exact K). rewrite <- E. destruct L; reflexivity.
Qed.
Lemma set_mode_known L mode : (exists L', set_convolution_mode L mode = Ok L' /\ pc_mode L' = mode) <-> (mode = "fft" \/ mode = "conv2d")%string.
Proof.
  unfold set_convolution_mode. split.
  - intros (L' & H & _). destruct (known_mode mode) eqn:K; [|discriminate]. unfold known_mode in K. apply orb_true_iff in K. rewrite !String.eqb_eq in K. exact K.
  - intros K. replace (known_mode mode) with true by (unfold known_mode; symmetry; apply orb_true_iff; rewrite !String.eqb_eq; exact K). eexists. split; reflexivity.
Qed.
Lemma set_mode_unknown L mode : ~ (mode = "fft" \/ mode = "conv2d")%string -> set_convolution_mode L mode = Raise ValueError.
Proof. intros H. unfold set_convolution_mode. destruct (known_mode mode) eqn:K; [|reflexivity]. exfalso. apply H. unfold known_mode in K. apply orb_true_iff in K. rewrite !String.eqb_eq in K. exact K. Qed.
Lemma set_mode_fails : exists L L' L'' ax ay ax' ay', new_pixconv 1 2 (1, 1)%nat "tile" "fft" (1 / 8) = Ok L /\ set_convolution_mode L "conv2d" = Ok L' /\ new_pixconv 1 2 (1, 1)%nat "tile" "conv2d" (1 / 8) = Ok L'' /\
  pc_reduced_deflection_angle L' 0 0 (bright 0 0) 1 (pixel_pos 0 (INR 1 * 1) 2 0) (pixel_pos 0 (INR 1 * 1) 2 0) = Ok (ax, ay) /\ ax = 0 /\
  pc_reduced_deflection_angle L'' 0 0 (bright 0 0) 1 (pixel_pos 0 (INR 1 * 1) 2 0) (pixel_pos 0 (INR 1 * 1) 2 0) = Ok (ax', ay') /\ ax' < 0.
Proof.
  destruct (new_ok 1 1 "tile" "fft" (1 / 8) (or_introl eq_refl)) as [L HL]. destruct (new_ok 1 1 "tile" "conv2d" (1 / 8) (or_intror eq_refl)) as [L'' HL''].
  destruct (proj2 (set_mode_known L "conv2d") (or_intror eq_refl)) as (L' & HL' & _). exists L, L', L''.
  destruct (fft_kernels 1 1 "tile" (1 / 8) L ltac:(lia) ltac:(lra) HL) as (Kx & Ky & Kp & K1 & K2 & K3 & HK).
  destruct (new_fields _ _ _ _ _ _ HL) as (E1 & E2 & E3 & E4 & _). destruct (new_fields _ _ _ _ _ _ HL'') as (F1 & F2 & F3 & F4 & _).
  destruct (new_kernels _ _ _ _ _ _ (or_intror eq_refl) HL'') as (Q1 & Q2 & _).
  assert (P : L' = {| pc_n := 1%nat; pc_pixelscale := 1; pc_padding := "tile"; pc_mode := "conv2d"; pc_ax := with_tilde 1 Kx; pc_ay := with_tilde 1 Ky; pc_pot := with_tilde 1 Kp |}).
  { unfold set_convolution_mode in HL'. cbn in HL'. injection HL' as <-. rewrite E1, E2, E3, K1, K2, K3. reflexivity. }
  unfold pc_reduced_deflection_angle, reduced_deflection_angle_pixelated_convergence. rewrite F1, F2, F3, F4, Q1, Q2, P. cbn [pc_n pc_pixelscale pc_padding pc_mode pc_ax pc_ay].
  destruct (conv_map 1 (fun i j => bright 0 0 i j * 1) Kx 1 "tile" ltac:(lia)) as (m1 & -> & M1). destruct (conv_map 1 (fun i j => bright 0 0 i j * 1) Ky 1 "tile" ltac:(lia)) as (m2 & -> & M2).
  destruct (conv_map 1 (fun i j => bright 0 0 i j * 1) (KX 1 1) 1 "tile" ltac:(lia)) as (m3 & -> & M3). destruct (conv_map 1 (fun i j => bright 0 0 i j * 1) (KY 1 1) 1 "tile" ltac:(lia)) as (m4 & -> & M4).
  cbn [bind]. unfold pixel_pos. rewrite !(sample_centre 0 0 1 1 (2 * 1)) by (lia || lra). cbn [bind].
  assert (V : forall K, conv_entry 1 (fun i j => bright 0 0 i j * 1) K 0 0 = K 0%nat 0%nat) by (intros K; unfold conv_entry, bright; cbn; ring).
  do 4 eexists. split; [exact HL|]. split; [rewrite HL', P; reflexivity|]. split; [exact HL''|]. split; [reflexivity|]. split; [|split; [reflexivity|]].
  - rewrite M1, V. destruct (HK 0%nat 0%nat) as [-> _]. unfold tapered_x, eff_window. cbn [String.eqb Ascii.eqb Bool.eqb INR]. unfold taper.
    set (X := (0 - 1 + 1 / 2) * 1). assert (E : X = - (1 / 2)) by (unfold X; field).
    assert (S : 1 <= sqrt (X ^ 2 + X ^ 2) / ((INR 1 - 1 / 2) * 1)).
    { assert (1 / 2 <= sqrt (X ^ 2 + X ^ 2)); [|cbn [INR]; lra]. rewrite <- (sqrt_pow2 (1 / 2)) at 1 by lra. apply sqrt_le_1; rewrite ?E; lra. }
    destruct (Rle_dec (1 / 8) 0); [lra|]. destruct (Rle_dec _ (1 - 1 / 8)); [lra|]. destruct (Rle_dec 1 _); [ring|contradiction].
  - rewrite M3, V. destruct (KXY_val 1 1 0 0 ltac:(lra) ltac:(lia)) as [-> _]. cbn [INR]. unfold point_x.
    assert (Q := PI_RGT_0). assert (0 < 1 ^ 2 / PI) by (apply Rdiv_lt_0_compat; lra). set (t := 1 ^ 2 / PI) in *.
    replace ((0 - 1 + 1 / 2) * 1 / (((0 - 1 + 1 / 2) * 1) ^ 2 + ((0 - 1 + 1 / 2) * 1) ^ 2)) with (-1) by field. lra.
Qed.
(** ** convergence *)
Lemma new_n ps n padding mode w L : new_pixconv ps 2 (n, n) padding mode w = Ok L -> pc_n L = n /\ pc_pixelscale L = ps.
Proof. intros H. destruct (new_fields _ _ _ _ _ _ H) as (A & B & _). split; assumption. Qed.
Lemma conv_at ps n padding mode w L x0 y0 A sc i j : 0 < ps -> new_pixconv ps 2 (n, n) padding mode w = Ok L -> (i < n)%nat -> (j < n)%nat ->
  pc_convergence L x0 y0 A sc (pixel_centre x0 ps n j) (pixel_centre y0 ps n i) = Ok (sc * A i j).
Proof.
  intros P HL Hi Hj. destruct (new_n _ _ _ _ _ _ HL) as [-> ->] || (destruct (new_n _ _ _ _ _ _ HL) as [E1 E2]; unfold pc_convergence; rewrite E1, E2). 
  rewrite !centre_scaled by assumption. unfold centre. rewrite centre2 by (lia || (left; reflexivity) || (right; right; reflexivity)). f_equal. ring.
Qed.
Lemma conv_outside ps n padding mode w L x0 y0 A sc x y : 0 < ps -> (1 <= n)%nat -> new_pixconv ps 2 (n, n) padding mode w = Ok L -> beyond x0 ps n x \/ beyond y0 ps n y -> pc_convergence L x0 y0 A sc x y = Ok 0.
Proof.
  intros P N HL B. destruct (new_n _ _ _ _ _ _ HL) as [E1 E2]. unfold pc_convergence. rewrite E1, E2.
  assert (O : (x - x0) / (INR n * ps) * 2 < -1 \/ 1 < (x - x0) / (INR n * ps) * 2 \/ (y - y0) / (INR n * ps) * 2 < -1 \/ 1 < (y - y0) / (INR n * ps) * 2).
  { destruct B as [B|B]; apply beyond_scaled in B; try assumption; tauto. }
  rewrite zeros2 by (lia || (left; reflexivity) || exact O). reflexivity.
Qed.
Lemma conv_between ps n padding mode w L x0 y0 A sc x y lo hi : 0 < ps -> (1 <= n)%nat -> new_pixconv ps 2 (n, n) padding mode w = Ok L ->
  pixel_centre x0 ps n 0 <= x <= pixel_centre x0 ps n (n - 1) -> pixel_centre y0 ps n 0 <= y <= pixel_centre y0 ps n (n - 1) ->
  (forall i j, (i < n)%nat -> (j < n)%nat -> Rabs (pixel_centre y0 ps n i - y) < ps -> Rabs (pixel_centre x0 ps n j - x) < ps -> lo <= sc * A i j <= hi) ->
  exists v, pc_convergence L x0 y0 A sc x y = Ok v /\ lo <= v <= hi.
Proof.
  intros P N HL Hx Hy H. destruct (new_n _ _ _ _ _ _ HL) as [E1 E2]. unfold pc_convergence. rewrite E1, E2. assert (NP : 1 <= INR n) by (apply (le_INR 1); lia).
  assert (S : forall z z0 i, (i < n)%nat -> pixel_centre z0 ps n i - z = (centre n i - (z - z0) / (INR n * ps) * 2) * (INR n * ps / 2)) by (intros; unfold pixel_centre, centre; field; lra).
  assert (F : 0 < INR n * ps / 2) by nra.
  assert (HU : forall z z0, pixel_centre z0 ps n 0 <= z <= pixel_centre z0 ps n (n - 1) -> in_hull n ((z - z0) / (INR n * ps) * 2)).
  { intros z z0 B. assert (S0 := S z z0 0%nat ltac:(lia)). assert (S1 := S z z0 (n - 1)%nat ltac:(lia)). split; nra. }
  assert (SR : forall z z0 i, surrounds n ((z - z0) / (INR n * ps) * 2) i -> Rabs (pixel_centre z0 ps n i - z) < ps).
  { intros z z0 i [Hi B]. rewrite S by assumption. rewrite Rabs_mult, (Rabs_pos_eq (INR n * ps / 2)) by lra. apply Rlt_le_trans with (2 / INR n * (INR n * ps / 2)); [apply Rmult_lt_compat_r; assumption|]. right. field. lra. }
  apply final_bounds2; try assumption; try lia; try (apply HU; assumption); [right; right; reflexivity|].
  intros i j Si Sj. rewrite Rmult_comm. apply H; try (apply Si || apply Sj); apply SR; assumption.
Qed.
Local Open Scope string_scope.
Lemma constructor ps ndim rows cols padding mode w :
  (exists L, new_pixconv ps ndim (rows, cols) padding mode w = Ok L) <-> ndim = 2%nat /\ rows = cols /\ (mode = "fft" \/ mode = "conv2d").
Proof.
  unfold new_pixconv, known_mode; simpl fst; simpl snd. split.
  - intros [L H]. destruct (Nat.eqb_spec ndim 2) as [->|]; simpl in H; [|discriminate].
    destruct (Nat.eqb_spec rows cols) as [->|]; simpl in H; [|discriminate]. split; [reflexivity|split; [reflexivity|]].
    destruct (String.eqb_spec mode "fft") as [->|]; [left; reflexivity|]. destruct (String.eqb_spec mode "conv2d") as [->|]; [right; reflexivity|].
    simpl in H. discriminate.
  - intros (-> & -> & H). cbv zeta. rewrite !Nat.eqb_refl. cbn [negb]. destruct H as [-> | ->]; eexists; reflexivity.
Qed.
