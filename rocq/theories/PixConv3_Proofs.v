(** * PixelatedConvergence: single pixels, and the two modes compared *)
From Coq Require Import Reals Lra Lia Psatz Arith ZArith List Bool String.
From Coquelicot Require Import Coquelicot.
From Verif Require Import Py Fsum RealFun Geo_Model Interp2_Model Interp2_Spec Interp2_Proofs Dft_Model Dft_Proofs PixConv_Model PixConv_Spec PixConv_Proofs PixConv2_Proofs.
Local Open Scope R_scope.

Definition KX ps n := fst (fst (build_kernels_pixelated_convergence ps n)).
Definition KY ps n := snd (fst (build_kernels_pixelated_convergence ps n)).
Definition KP ps n := snd (build_kernels_pixelated_convergence ps n).
Lemma new_kernels ps n padding mode wk L : (padding = "zero" \/ mode = "conv2d")%string -> new_pixconv ps 2 (n, n) padding mode wk = Ok L ->
  pc_ax L = with_tilde n (KX ps n) /\ pc_ay L = with_tilde n (KY ps n) /\ pc_pot L = with_tilde n (KP ps n).
Proof.
  intros C. unfold new_pixconv. cbn [Nat.eqb negb fst snd]. rewrite Nat.eqb_refl. cbn [negb]. unfold KX, KY, KP. destruct (build_kernels_pixelated_convergence ps n) as [[ax ay] pot]. cbn [fst snd].
  assert (W : (negb (String.eqb padding "zero") && String.eqb mode "fft" && (if Rlt_dec 0 wk then true else false))%bool = false) by (destruct C as [->| ->]; [reflexivity|cbn; rewrite andb_false_r; reflexivity]).
  rewrite W. destruct (known_mode mode); [|discriminate]. intros H. injection H as <-. cbn. repeat (split; [reflexivity|]). reflexivity.
Qed.
Definition shift (n : nat) : nat := (Nat.div (next_fast_len (2 * n) + 1) 2 - n)%nat.
Lemma shift_bounds n : (1 <= n)%nat -> (Nat.div (next_fast_len (2 * n) + 1) 2 = n + shift n)%nat /\ (shift n < n)%nat.
Proof. intros N. destruct (size_bounds n N) as (_ & C & _). unfold shift. lia. Qed.
Lemma shift_fast n : next_fast_len (2 * n) = (2 * n)%nat -> shift n = 0%nat.
Proof. intros E. unfold shift. rewrite E. replace (2 * n + 1)%nat with (1 + n * 2)%nat by lia. rewrite Nat.div_add by lia. cbn [Nat.div Nat.divmod fst]. lia. Qed.
(** value of the three fields at pixel centres, fft mode, zero padding *)
Section Fft.
Variables (n : nat) (ps wk : R) (L : pixconv) (x0 y0 : R).
Hypothesis N1 : (1 <= n)%nat. Hypothesis P : 0 < ps. Hypothesis HL : new_pixconv ps 2 (n, n) "zero" "fft" wk = Ok L.
Notation fov := (INR n * ps).
Lemma fft_deflection A sc i j : (i < n)%nat -> (j < n)%nat ->
  pc_reduced_deflection_angle L x0 y0 A sc (pixel_pos x0 fov n j) (pixel_pos y0 fov n i) =
  Ok (fft_entry n (fun a b => A a b * sc) (KX ps n) i j * (ps ^ 2 / PI), fft_entry n (fun a b => A a b * sc) (KY ps n) i j * (ps ^ 2 / PI)).
Proof.
  intros Hi Hj. destruct (new_fields _ _ _ _ _ _ HL) as (E1 & E2 & E3 & E4 & _). destruct (new_kernels _ _ _ _ _ _ (or_introl eq_refl) HL) as (K1 & K2 & K3).
  unfold pc_reduced_deflection_angle, reduced_deflection_angle_pixelated_convergence. rewrite E1, E2, E3, E4, K1, K2.
  destruct (fft_map n (fun a b => A a b * sc) (KX ps n) ps N1) as (m1 & -> & M1). destruct (fft_map n (fun a b => A a b * sc) (KY ps n) ps N1) as (m2 & -> & M2). cbn [bind].
  unfold pixel_pos. rewrite !sample_centre by assumption. cbn [bind]. rewrite M1, M2 by assumption. reflexivity.
Qed.
Lemma fft_potential A sc i j : (i < n)%nat -> (j < n)%nat ->
  pc_potential L x0 y0 A sc (pixel_pos x0 fov n j) (pixel_pos y0 fov n i) = Ok (fft_entry n (fun a b => A a b * sc) (KP ps n) i j * (ps ^ 2 / PI)).
Proof.
  intros Hi Hj. destruct (new_fields _ _ _ _ _ _ HL) as (E1 & E2 & E3 & E4 & _). destruct (new_kernels _ _ _ _ _ _ (or_introl eq_refl) HL) as (K1 & K2 & K3).
  unfold pc_potential, potential_pixelated_convergence. rewrite E1, E2, E3, E4, K3.
  destruct (fft_map n (fun a b => A a b * sc) (KP ps n) ps N1) as (m1 & -> & M1). cbn [bind].
  unfold pixel_pos. rewrite !sample_centre by assumption. rewrite M1 by assumption. reflexivity.
Qed.
End Fft.
Section Conv.
Variables (n : nat) (ps wk : R) (L : pixconv) (x0 y0 : R) (padding : string).
Hypothesis N1 : (1 <= n)%nat. Hypothesis P : 0 < ps. Hypothesis HL : new_pixconv ps 2 (n, n) padding "conv2d" wk = Ok L.
Notation fov := (INR n * ps).
Lemma conv_deflection A sc x y : exists m1 m2, 
  pc_reduced_deflection_angle L x0 y0 A sc x y = bind (sample x0 y0 fov ((2 * n)%nat, m1) x y) (fun a => bind (sample x0 y0 fov ((2 * n)%nat, m2) x y) (fun b => Ok (a, b))) /\
  (forall p q, m1 p q = conv_entry n (fun a b => A a b * sc) (KX ps n) p q * (ps ^ 2 / PI)) /\ (forall p q, m2 p q = conv_entry n (fun a b => A a b * sc) (KY ps n) p q * (ps ^ 2 / PI)).
Proof.
  destruct (new_fields _ _ _ _ _ _ HL) as (E1 & E2 & E3 & E4 & _). destruct (new_kernels _ _ _ _ _ _ (or_intror eq_refl) HL) as (K1 & K2 & K3).
  unfold pc_reduced_deflection_angle, reduced_deflection_angle_pixelated_convergence. rewrite E1, E2, E3, E4, K1, K2.
  destruct (conv_map n (fun a b => A a b * sc) (KX ps n) ps padding N1) as (m1 & -> & M1). destruct (conv_map n (fun a b => A a b * sc) (KY ps n) ps padding N1) as (m2 & -> & M2). cbn [bind].
  exists m1, m2. repeat split; assumption.
Qed.
Lemma conv_potential A sc x y : exists m, pc_potential L x0 y0 A sc x y = sample x0 y0 fov ((2 * n)%nat, m) x y /\
  (forall p q, m p q = conv_entry n (fun a b => A a b * sc) (KP ps n) p q * (ps ^ 2 / PI)).
Proof.
  destruct (new_fields _ _ _ _ _ _ HL) as (E1 & E2 & E3 & E4 & _). destruct (new_kernels _ _ _ _ _ _ (or_intror eq_refl) HL) as (K1 & K2 & K3).
  unfold pc_potential, potential_pixelated_convergence. rewrite E1, E2, E3, E4, K3.
  destruct (conv_map n (fun a b => A a b * sc) (KP ps n) ps padding N1) as (m1 & -> & M1). cbn [bind]. exists m1. split; [reflexivity|exact M1].
Qed.
End Conv.
(** the two arrays agree up to an offset *)
Definition offset (n : nat) : nat := (n + shift n - (n - 1 - Nat.div (n - 1) 2))%nat.
Lemma entries_agree n A K i j : (1 <= n)%nat -> (i < n)%nat -> (j < n)%nat -> (i + offset n < 2 * n)%nat -> (j + offset n < 2 * n)%nat ->
  fft_entry n A K i j = conv_entry n A K (i + offset n) (j + offset n).
Proof.
  intros N Hi Hj Oi Oj. destruct (shift_bounds n N) as [SB SL]. unfold fft_entry, conv_entry. rewrite SB. unfold offset in *. set (h := Nat.div (n - 1) 2) in *.
  apply fsum_ext. intros a Ha. apply fsum_ext. intros b Hb. f_equal. unfold zero_pad, at_Z.
  set (u := (i + (n + shift n) - a)%nat). set (v := (j + (n + shift n) - b)%nat).
  replace (Z.of_nat (i + (n + shift n - (n - 1 - h))) + Z.of_nat (n - 1 - h) - Z.of_nat a)%Z with (Z.of_nat u) by (unfold u; lia).
  replace (Z.of_nat (j + (n + shift n - (n - 1 - h))) + Z.of_nat (n - 1 - h) - Z.of_nat b)%Z with (Z.of_nat v) by (unfold v; lia).
  rewrite !Nat2Z.id. rewrite (proj2 (Z.leb_le 0 (Z.of_nat u))), (proj2 (Z.leb_le 0 (Z.of_nat v))) by lia. cbn [andb].
  destruct (Nat.ltb_spec u (2 * n)), (Z.ltb_spec (Z.of_nat u) (Z.of_nat (2 * n))); try lia; cbn [andb]; try reflexivity.
  destruct (Nat.ltb_spec v (2 * n)), (Z.ltb_spec (Z.of_nat v) (Z.of_nat (2 * n))); try lia; reflexivity.
Qed.
Lemma offset_fast n : (1 <= n)%nat -> next_fast_len (2 * n) = (2 * n)%nat -> forall i, (i < n)%nat -> (i + offset n < 2 * n)%nat.
Proof.
  intros N F i Hi. unfold offset. rewrite (shift_fast n F). assert (D := Nat.div_mod (n - 1) 2 ltac:(lia)). lia.
Qed.
Lemma modes_agree n ps wk wk' Lf Lc x0 y0 A sc i j : (1 <= n)%nat -> 0 < ps ->
  new_pixconv ps 2 (n, n) "zero" "fft" wk = Ok Lf -> new_pixconv ps 2 (n, n) "zero" "conv2d" wk' = Ok Lc ->
  (i < n)%nat -> (j < n)%nat -> (i + offset n < 2 * n)%nat -> (j + offset n < 2 * n)%nat ->
  let fov := INR n * ps in
  pc_reduced_deflection_angle Lf x0 y0 A sc (pixel_pos x0 fov n j) (pixel_pos y0 fov n i) =
  pc_reduced_deflection_angle Lc x0 y0 A sc (pixel_pos x0 fov (2 * n) (j + offset n)) (pixel_pos y0 fov (2 * n) (i + offset n)) /\
  pc_potential Lf x0 y0 A sc (pixel_pos x0 fov n j) (pixel_pos y0 fov n i) =
  pc_potential Lc x0 y0 A sc (pixel_pos x0 fov (2 * n) (j + offset n)) (pixel_pos y0 fov (2 * n) (i + offset n)).
Proof.
  intros N P HF HC Hi Hj Oi Oj fov. unfold fov. split.
  - rewrite (fft_deflection n ps wk Lf x0 y0 N P HF) by assumption.
    destruct (conv_deflection n ps wk' Lc x0 y0 "zero" N HC A sc (pixel_pos x0 (INR n * ps) (2 * n) (j + offset n)) (pixel_pos y0 (INR n * ps) (2 * n) (i + offset n))) as (m1 & m2 & -> & M1 & M2).
    unfold pixel_pos. rewrite !sample_centre by assumption. cbn [bind]. rewrite M1, M2, !(entries_agree n) by assumption. reflexivity.
  - rewrite (fft_potential n ps wk Lf x0 y0 N P HF) by assumption.
    destruct (conv_potential n ps wk' Lc x0 y0 "zero" N HC A sc (pixel_pos x0 (INR n * ps) (2 * n) (j + offset n)) (pixel_pos y0 (INR n * ps) (2 * n) (i + offset n))) as (m1 & -> & M1).
    unfold pixel_pos. rewrite !sample_centre by assumption. rewrite M1, !(entries_agree n) by assumption. reflexivity.
Qed.
(** ** the deflection as a sum over displaced point masses *)
Lemma zero_pad_in h w K u v : (u < h)%nat -> (v < w)%nat -> zero_pad h w K u v = K u v.
Proof. intros A B. unfold zero_pad. rewrite (proj2 (Nat.ltb_lt _ _) A), (proj2 (Nat.ltb_lt _ _) B). reflexivity. Qed.
Lemma KXY_val ps n u v : 0 < ps -> (1 <= n)%nat -> let X := (INR v - INR n + 1 / 2) * ps in let Y := (INR u - INR n + 1 / 2) * ps in
  KX ps n u v = point_x X Y /\ KY ps n u v = point_y X Y /\ KP ps n u v = ln (sqrt (X ^ 2 + Y ^ 2)).
Proof.
  intros P N X Y. assert (K := kernel_val ps n u v P N). unfold KX, KY, KP. destruct (build_kernels_pixelated_convergence ps n) as [[ax ay] pot]. exact K.
Qed.
Definition displaced (ps : R) (d i a : nat) : R := (INR i - INR a + INR d + 1 / 2) * ps.
Definition reach (n d i a : nat) : bool := Nat.ltb (i + d) (n + a).
Lemma entry_sum n ps A sc i j K f : (1 <= n)%nat -> (i < n)%nat -> (j < n)%nat ->
  (forall u v, K u v = f ((INR v - INR n + 1 / 2) * ps) ((INR u - INR n + 1 / 2) * ps)) ->
  fft_entry n (fun a b => A a b * sc) K i j =
  sc * fsum n (fun a => fsum n (fun b => if (reach n (shift n) i a && reach n (shift n) j b)%bool then A a b * f (displaced ps (shift n) j b) (displaced ps (shift n) i a) else 0)).
Proof.
  intros N Hi Hj HK. destruct (shift_bounds n N) as [SB SL]. unfold fft_entry. rewrite SB, <- fsum_scal_l. apply fsum_ext. intros a Ha. rewrite <- fsum_scal_l. apply fsum_ext. intros b Hb.
  unfold zero_pad, reach. destruct (Nat.ltb_spec (i + (n + shift n) - a) (2 * n)), (Nat.ltb_spec (i + shift n) (n + a)); try lia; cbn [andb]; try ring.
  destruct (Nat.ltb_spec (j + (n + shift n) - b) (2 * n)), (Nat.ltb_spec (j + shift n) (n + b)); try lia; cbn [andb]; try ring.
  rewrite HK. unfold displaced. rewrite !minus_INR, !plus_INR by lia.
  replace (INR i + (INR n + INR (shift n)) - INR a - INR n + 1 / 2) with (INR i - INR a + INR (shift n) + 1 / 2) by ring.
  replace (INR j + (INR n + INR (shift n)) - INR b - INR n + 1 / 2) with (INR j - INR b + INR (shift n) + 1 / 2) by ring. ring.
Qed.
Lemma fft_value n ps wk L x0 y0 A sc i j : (1 <= n)%nat -> 0 < ps -> new_pixconv ps 2 (n, n) "zero" "fft" wk = Ok L -> (i < n)%nat -> (j < n)%nat ->
  let fov := INR n * ps in let d := shift n in
  let total f := ps ^ 2 / PI * (sc * fsum n (fun a => fsum n (fun b => if (reach n d i a && reach n d j b)%bool then A a b * f (displaced ps d j b) (displaced ps d i a) else 0))) in
  pc_reduced_deflection_angle L x0 y0 A sc (pixel_pos x0 fov n j) (pixel_pos y0 fov n i) = Ok (total point_x, total point_y) /\
  pc_potential L x0 y0 A sc (pixel_pos x0 fov n j) (pixel_pos y0 fov n i) = Ok (total (fun X Y => ln (sqrt (X ^ 2 + Y ^ 2)))).
Proof.
  intros N P HL Hi Hj fov d total. unfold fov, total, d. rewrite (fft_deflection n ps wk L x0 y0 N P HL), (fft_potential n ps wk L x0 y0 N P HL) by assumption.
  rewrite (entry_sum n ps A sc i j (KX ps n) point_x N Hi Hj) by (intros; apply KXY_val; assumption).
  rewrite (entry_sum n ps A sc i j (KY ps n) point_y N Hi Hj) by (intros; apply KXY_val; assumption).
  rewrite (entry_sum n ps A sc i j (KP ps n) (fun X Y => ln (sqrt (X ^ 2 + Y ^ 2))) N Hi Hj) by (intros; apply KXY_val; assumption).
  split; f_equal; [f_equal|]; ring.
Qed.
(** ** single bright pixels *)
Lemma bright_sum n a b (f : nat -> nat -> R) : (a < n)%nat -> (b < n)%nat -> fsum n (fun i => fsum n (fun j => bright a b i j * f i j)) = f a b.
Proof.
  intros Ha Hb. rewrite (fsum_single n _ a) by (assumption || (intros i Hi Ni; apply fsum_zero; intros j Hj; unfold bright; rewrite (proj2 (Nat.eqb_neq i a) Ni); cbn [andb]; ring)).
  rewrite (fsum_single n _ b) by (assumption || (intros j Hj Nj; unfold bright; rewrite (proj2 (Nat.eqb_neq j b) Nj), andb_false_r; ring)).
  unfold bright. rewrite !Nat.eqb_refl. cbn [andb]. ring.
Qed.
Lemma bright_value n ps wk L x0 y0 a b sc i j : (1 <= n)%nat -> 0 < ps -> new_pixconv ps 2 (n, n) "zero" "fft" wk = Ok L -> (i < n)%nat -> (j < n)%nat -> (a < n)%nat -> (b < n)%nat ->
  reach n (shift n) i a = true -> reach n (shift n) j b = true ->
  let fov := INR n * ps in let X := displaced ps (shift n) j b in let Y := displaced ps (shift n) i a in
  pc_reduced_deflection_angle L x0 y0 (bright a b) sc (pixel_pos x0 fov n j) (pixel_pos y0 fov n i) = Ok (ps ^ 2 / PI * (sc * point_x X Y), ps ^ 2 / PI * (sc * point_y X Y)).
Proof.
  intros N P HL Hi Hj Ha Hb R1 R2 fov X Y. destruct (fft_value n ps wk L x0 y0 (bright a b) sc i j N P HL Hi Hj) as [V _]. unfold fov. rewrite V.
  assert (G : forall f : R -> R -> R, fsum n (fun a0 => fsum n (fun b0 => if (reach n (shift n) i a0 && reach n (shift n) j b0)%bool then bright a b a0 b0 * f (displaced ps (shift n) j b0) (displaced ps (shift n) i a0) else 0)) = f X Y).
  { intros f. etransitivity; [|exact (bright_sum n a b (fun a0 b0 => f (displaced ps (shift n) j b0) (displaced ps (shift n) i a0)) Ha Hb)].
    apply fsum_ext. intros a0 Ha0. apply fsum_ext. intros b0 Hb0. unfold bright. destruct (Nat.eqb_spec a0 a) as [->|]; cbn [andb]; [|destruct (_ && _)%bool; ring].
    destruct (Nat.eqb_spec b0 b) as [->|]; [rewrite R1, R2; reflexivity|destruct (_ && _)%bool; ring]. }
  rewrite !G. reflexivity.
Qed.
Lemma bright_own_pixel n ps wk a b x0 y0 : (1 <= n)%nat -> 0 < ps -> (a < n)%nat -> (b < n)%nat ->
  exists L ax ay, new_pixconv ps 2 (n, n) "zero" "fft" wk = Ok L /\
  pc_reduced_deflection_angle L x0 y0 (bright a b) 1 (pixel_pos x0 (INR n * ps) n b) (pixel_pos y0 (INR n * ps) n a) = Ok (ax, ay) /\ 0 < ax /\ 0 < ay.
Proof.
  intros N P Ha Hb. destruct (new_ok ps n "zero" "fft" wk (or_introl eq_refl)) as [L HL]. destruct (shift_bounds n N) as [SB SL].
  exists L. eexists. eexists. split; [exact HL|]. split; [apply (bright_value n ps wk L x0 y0 a b 1 a b N P HL Ha Hb Ha Hb); unfold reach; apply Nat.ltb_lt; lia|].
  assert (D : 0 <= INR (shift n)) by apply pos_INR. assert (PP := PI_RGT_0). assert (C : 0 < ps ^ 2 / PI) by (apply Rdiv_lt_0_compat; [apply pow_lt, P|exact PP]).
  assert (DX : forall k, 0 < displaced ps (shift n) k k) by (intros k; unfold displaced; apply Rmult_lt_0_compat; lra).
  assert (X := DX b). assert (Y := DX a). set (u := displaced ps (shift n) b b) in *. set (v := displaced ps (shift n) a a) in *.
  assert (Q : 0 < u ^ 2 + v ^ 2) by (apply d2_pos; lra).
  split; apply Rmult_lt_0_compat; try exact C; rewrite Rmult_1_l; apply Rdiv_lt_0_compat; assumption.
Qed.
(** antisymmetry about the displaced position *)
Lemma bright_antisymmetric n ps wk L x0 y0 a b sc i j i' j' : (1 <= n)%nat -> 0 < ps -> new_pixconv ps 2 (n, n) "zero" "fft" wk = Ok L ->
  (a < n)%nat -> (b < n)%nat -> (i < n)%nat -> (j < n)%nat -> (i' < n)%nat -> (j' < n)%nat ->
  (i + i' + 2 * shift n + 1 = 2 * a)%nat -> (j + j' + 2 * shift n + 1 = 2 * b)%nat ->
  let fov := INR n * ps in exists ax ay,
  pc_reduced_deflection_angle L x0 y0 (bright a b) sc (pixel_pos x0 fov n j) (pixel_pos y0 fov n i) = Ok (ax, ay) /\
  pc_reduced_deflection_angle L x0 y0 (bright a b) sc (pixel_pos x0 fov n j') (pixel_pos y0 fov n i') = Ok (- ax, - ay).
Proof.
  intros N P HL Ha Hb Hi Hj Hi' Hj' SI SJ fov. destruct (shift_bounds n N) as [SB SL].
  rewrite !(bright_value n ps wk L x0 y0 a b sc) by (assumption || (unfold reach; apply Nat.ltb_lt; lia)). eexists. eexists. split; [reflexivity|].
  assert (G : forall k k' c, (k + k' + 2 * shift n + 1 = 2 * c)%nat -> displaced ps (shift n) k' c = - displaced ps (shift n) k c).
  { intros k k' c H. apply (f_equal INR) in H. rewrite !plus_INR, !mult_INR in H. cbn [INR] in H. unfold displaced. assert (E : INR k' = 2 * INR c - INR k - 2 * INR (shift n) - 1) by lra. rewrite E. field. }
  rewrite (G _ _ _ SI), (G _ _ _ SJ). unfold point_x, point_y. set (u := displaced ps (shift n) j b). set (v := displaced ps (shift n) i a).
  replace ((- u) ^ 2 + (- v) ^ 2) with (u ^ 2 + v ^ 2) by ring. f_equal. unfold Rdiv. f_equal; ring.
Qed.
(** ** conv2d at the centre of a pixel of the n by n map *)
Lemma half_sample x0 y0 ps n m i j : (1 <= n)%nat -> (i < n)%nat -> (j < n)%nat -> 0 < ps ->
  sample x0 y0 (INR n * ps) ((2 * n)%nat, m) (pixel_pos x0 (INR n * ps) n j) (pixel_pos y0 (INR n * ps) n i) =
  Ok ((m (2 * i)%nat (2 * j)%nat + m (2 * i + 1)%nat (2 * j)%nat + m (2 * i)%nat (2 * j + 1)%nat + m (2 * i + 1)%nat (2 * j + 1)%nat) / 4).
Proof.
  intros H Hi Hj P. assert (NP : 0 < INR n) by (apply lt_0_INR; lia). assert (F : 0 < INR n * ps) by nra. rewrite sample_val. cbn [fst snd]. unfold pixel_pos.
  replace ((x0 + centre n j * (INR n * ps / 2) - x0) / (INR n * ps / 2)) with (centre n j) by (field; lra).
  replace ((y0 + centre n i * (INR n * ps / 2) - y0) / (INR n * ps / 2)) with (centre n i) by (field; lra).
  rewrite !outside_false by (unfold centre; match goal with |- context [INR ?k] => assert (T := centre_inside n k ltac:(assumption)); lra end). cbn [orb]. f_equal.
  assert (T : forall k, to_pixel (2 * n) (centre n k) = INR (2 * k) + 1 / 2) by (intros k; unfold to_pixel, centre; rewrite !mult_INR; cbn [INR]; field; lra).
  rewrite !T. assert (FL : forall k, (k < n)%nat -> clampZ (rfloor (INR (2 * k) + 1 / 2)) 0 (Z.of_nat (2 * n) - 2) = Z.of_nat (2 * k)).
  { intros k Hk. replace (rfloor (INR (2 * k) + 1 / 2)) with (Z.of_nat (2 * k)).
    - unfold clampZ. lia.
    - symmetry. apply rfloor_unique. rewrite <- INR_IZR_INZ. lra. }
  unfold linear2. cbv zeta. rewrite !FL by assumption. unfold ax.
  assert (AX : forall k, ((if (Z.of_nat k <? 0) then Z.of_nat (2 * n) + Z.of_nat k else Z.of_nat k) = Z.of_nat k)%Z) by (intros k; destruct (Z.ltb_spec (Z.of_nat k) 0); lia).
  replace (Z.of_nat (2 * i) + 1)%Z with (Z.of_nat (2 * i + 1)) by lia. replace (Z.of_nat (2 * j) + 1)%Z with (Z.of_nat (2 * j + 1)) by lia.
  rewrite !AX, !Nat2Z.id, <- !INR_IZR_INZ, (plus_INR (2 * i)), (plus_INR (2 * j)). cbn [INR]. field.
Qed.
Lemma conv_bright n a b K p q : (1 <= n)%nat -> (a < n)%nat -> (b < n)%nat ->
  let l := (n - 1 - Nat.div (n - 1) 2)%nat in (a <= p + l)%nat -> (b <= q + l)%nat -> (p + l - a < 2 * n)%nat -> (q + l - b < 2 * n)%nat ->
  conv_entry n (fun i j => bright a b i j * 1) K p q = K (p + l - a)%nat (q + l - b)%nat.
Proof.
  intros N Ha Hb l A B C D. unfold conv_entry. fold l.
  transitivity (fsum n (fun i => fsum n (fun j => bright a b i j * at_Z (2 * n) (2 * n) K (Z.of_nat p + Z.of_nat l - Z.of_nat i) (Z.of_nat q + Z.of_nat l - Z.of_nat j)))).
  { apply fsum_ext. intros i _. apply fsum_ext. intros j _. ring. }
  rewrite (bright_sum n a b (fun i j => at_Z (2 * n) (2 * n) K (Z.of_nat p + Z.of_nat l - Z.of_nat i) (Z.of_nat q + Z.of_nat l - Z.of_nat j))) by assumption.
  replace (Z.of_nat p + Z.of_nat l - Z.of_nat a)%Z with (Z.of_nat (p + l - a)) by lia. replace (Z.of_nat q + Z.of_nat l - Z.of_nat b)%Z with (Z.of_nat (q + l - b)) by lia.
  unfold at_Z. rewrite !Nat2Z.id. repeat match goal with |- context [(0 <=? Z.of_nat ?k)%Z] => rewrite (proj2 (Z.leb_le 0 (Z.of_nat k))) by lia end.
  rewrite !(fun k => proj2 (Z.ltb_lt (Z.of_nat k) (Z.of_nat (2 * n)))) by lia. reflexivity.
Qed.
(** x-deflection, in units of ps^2/pi, of the bright pixel (m, m) at its own centre in conv2d mode *)
Lemma conv_own n ps wk padding L x0 y0 m : (1 <= n)%nat -> 0 < ps -> (m < n)%nat -> new_pixconv ps 2 (n, n) padding "conv2d" wk = Ok L ->
  let l := Nat.div (n - 1) 2 in let u := (INR m - INR l - 1 / 2) * ps in let v := (INR m - INR l + 1 / 2) * ps in exists ay,
  pc_reduced_deflection_angle L x0 y0 (bright m m) 1 (pixel_pos x0 (INR n * ps) n m) (pixel_pos y0 (INR n * ps) n m) =
  Ok (ps ^ 2 / PI * ((point_x u u + point_x u v + point_x v u + point_x v v) / 4), ay).
Proof.
  intros N P Hm HL l u v. destruct (conv_deflection n ps wk L x0 y0 padding N HL (bright m m) 1 (pixel_pos x0 (INR n * ps) n m) (pixel_pos y0 (INR n * ps) n m)) as (m1 & m2 & -> & M1 & _).
  rewrite !half_sample by assumption. cbn [bind]. eexists. f_equal. f_equal. rewrite !M1. assert (LL : (l <= n - 1)%nat) by (apply Nat.div_le_upper_bound; lia). fold l.
  rewrite !(conv_bright n m m) by (fold l; lia). fold l.
  assert (U : (INR (2 * m + (n - 1 - l) - m) - INR n + 1 / 2) * ps = u) by (unfold u; rewrite minus_INR, plus_INR, !minus_INR, mult_INR by lia; cbn [INR]; field).
  assert (V : (INR (2 * m + 1 + (n - 1 - l) - m) - INR n + 1 / 2) * ps = v) by (unfold v; rewrite minus_INR, !plus_INR, !minus_INR, mult_INR by lia; cbn [INR]; field).
  rewrite !(fun a b => proj1 (KXY_val ps n a b P N)). rewrite U, V. field. apply PI_neq0.
Qed.
Lemma point_x_sign X Y : X <> 0 -> (0 < X -> 0 < point_x X Y) /\ (X < 0 -> point_x X Y < 0).
Proof.
  intros H. assert (D := d2_pos X Y H). unfold point_x. split; intros S.
  - apply Rdiv_lt_0_compat; assumption.
  - replace (X / (X ^ 2 + Y ^ 2)) with (- (- X / (X ^ 2 + Y ^ 2))) by (field; lra). assert (0 < - X / (X ^ 2 + Y ^ 2)) by (apply Rdiv_lt_0_compat; lra). lra.
Qed.
Lemma conv_own_positive n ps wk padding x0 y0 : (2 <= n)%nat -> 0 < ps ->
  exists L ax ay, new_pixconv ps 2 (n, n) padding "conv2d" wk = Ok L /\
  pc_reduced_deflection_angle L x0 y0 (bright (n - 1) (n - 1)) 1 (pixel_pos x0 (INR n * ps) n (n - 1)) (pixel_pos y0 (INR n * ps) n (n - 1)) = Ok (ax, ay) /\ 0 < ax.
Proof.
  intros N P. destruct (new_ok ps n padding "conv2d" wk (or_intror eq_refl)) as [L HL].
  destruct (conv_own n ps wk padding L x0 y0 (n - 1) ltac:(lia) P ltac:(lia) HL) as [ay E]. exists L. eexists. exists ay. split; [exact HL|]. split; [exact E|].
  set (l := Nat.div (n - 1) 2). assert (LL : (l + 1 <= n - 1)%nat) by (unfold l; assert (D := Nat.div_mod (n - 1) 2 ltac:(lia)); destruct (Nat.eq_dec n 2) as [->|]; [cbn; lia|lia]).
  apply le_INR in LL. rewrite plus_INR in LL. cbn [INR] in LL. set (u := (INR (n - 1) - INR l - 1 / 2) * ps). set (v := (INR (n - 1) - INR l + 1 / 2) * ps).
  assert (U : 0 < u) by (apply Rmult_lt_0_compat; lra). assert (V : 0 < v) by (apply Rmult_lt_0_compat; lra). assert (C : 0 < ps ^ 2 / PI) by (apply Rdiv_lt_0_compat; [apply pow_lt, P|apply PI_RGT_0]).
  assert (S1 := proj1 (point_x_sign u u ltac:(lra)) U). assert (S2 := proj1 (point_x_sign u v ltac:(lra)) U). assert (S3 := proj1 (point_x_sign v u ltac:(lra)) V). assert (S4 := proj1 (point_x_sign v v ltac:(lra)) V).
  apply Rmult_lt_0_compat; [exact C|lra].
Qed.
Lemma modes_differ n ps wk wk' x0 y0 : (1 <= n)%nat -> 0 < ps ->
  exists Lf Lc ax ay bx b_y, new_pixconv ps 2 (n, n) "zero" "fft" wk = Ok Lf /\ new_pixconv ps 2 (n, n) "zero" "conv2d" wk' = Ok Lc /\
  let x := pixel_pos x0 (INR n * ps) n 0 in let y := pixel_pos y0 (INR n * ps) n 0 in
  pc_reduced_deflection_angle Lf x0 y0 (bright 0 0) 1 x y = Ok (ax, ay) /\ pc_reduced_deflection_angle Lc x0 y0 (bright 0 0) 1 x y = Ok (bx, b_y) /\ bx <= 0 < ax.
Proof.
  intros N P. destruct (bright_own_pixel n ps wk 0 0 x0 y0 N P ltac:(lia) ltac:(lia)) as (Lf & ax & ay & HF & EF & AX & AY).
  destruct (new_ok ps n "zero" "conv2d" wk' (or_intror eq_refl)) as [Lc HC]. destruct (conv_own n ps wk' "zero" Lc x0 y0 0 N P ltac:(lia) HC) as [b_y EC].
  exists Lf, Lc, ax, ay. eexists. exists b_y. split; [exact HF|]. split; [exact HC|]. intros x y. split; [exact EF|]. split; [exact EC|]. split; [|exact AX].
  set (l := Nat.div (n - 1) 2). cbn [INR]. assert (C : 0 < ps ^ 2 / PI) by (apply Rdiv_lt_0_compat; [apply pow_lt, P|apply PI_RGT_0]).
  assert (S : point_x ((0 - INR l - 1 / 2) * ps) ((0 - INR l - 1 / 2) * ps) + point_x ((0 - INR l - 1 / 2) * ps) ((0 - INR l + 1 / 2) * ps) +
    point_x ((0 - INR l + 1 / 2) * ps) ((0 - INR l - 1 / 2) * ps) + point_x ((0 - INR l + 1 / 2) * ps) ((0 - INR l + 1 / 2) * ps) <= 0).
  { destruct (Nat.eq_dec l 0) as [Z|NZ].
    - rewrite Z. cbn [INR]. replace ((0 - 0 - 1 / 2) * ps) with (- (ps / 2)) by field. replace ((0 - 0 + 1 / 2) * ps) with (ps / 2) by field. unfold point_x. replace ((- (ps / 2)) ^ 2) with ((ps / 2) ^ 2) by ring. apply Req_le. unfold Rdiv. ring.
    - assert (1 <= INR l) by (apply (le_INR 1); lia). set (u := (0 - INR l - 1 / 2) * ps). set (v := (0 - INR l + 1 / 2) * ps).
      assert (U : u < 0) by (unfold u; nra). assert (V : v < 0) by (unfold v; nra).
      assert (S1 := proj2 (point_x_sign u u ltac:(lra)) U). assert (S2 := proj2 (point_x_sign u v ltac:(lra)) U). assert (S3 := proj2 (point_x_sign v u ltac:(lra)) V). assert (S4 := proj2 (point_x_sign v v ltac:(lra)) V). lra. }
  match type of S with ?t <= 0 => set (w := t) in * end. assert (0 <= ps ^ 2 / PI * (- w / 4)) by (apply Rmult_le_pos; lra).
  replace (ps ^ 2 / PI * (w / 4)) with (- (ps ^ 2 / PI * (- w / 4))) by (field; apply PI_neq0). lra.
Qed.
