(** * PixelatedConvergence: what the two convolution modes compute *)
From Coq Require Import Reals Lra Lia Psatz Arith ZArith List Bool String FunctionalExtensionality.
From Coquelicot Require Import Coquelicot.
From Verif Require Import Py Fsum RealFun Geo_Model Interp2_Model Interp2_Spec Interp2_Proofs Dft_Model Dft_Proofs PixConv_Model PixConv_Spec PixConv_Proofs.
Local Open Scope R_scope.

Lemma obj_deflection_lin L x0 y0 u v A B sc x y :
  pc_reduced_deflection_angle L x0 y0 (fun i j => u * A i j + v * B i j) sc x y =
  combined (pair_combo u v) (pc_reduced_deflection_angle L x0 y0 A sc x y) (pc_reduced_deflection_angle L x0 y0 B sc x y).
Proof.
  unfold pc_reduced_deflection_angle. rewrite <- deflection_lin. f_equal. extensionality i. extensionality j. unfold combo. ring.
Qed.
Lemma obj_potential_lin L x0 y0 u v A B sc x y :
  pc_potential L x0 y0 (fun i j => u * A i j + v * B i j) sc x y =
  combined (fun a b => u * a + v * b) (pc_potential L x0 y0 A sc x y) (pc_potential L x0 y0 B sc x y).
Proof.
  unfold pc_potential. rewrite <- potential_lin. f_equal. extensionality i. extensionality j. unfold combo. ring.
Qed.
Lemma obj_deflection_scale L x0 y0 A sc x y :
  pc_reduced_deflection_angle L x0 y0 A sc x y = bind (pc_reduced_deflection_angle L x0 y0 A 1 x y) (fun a => Ok (sc * fst a, sc * snd a)).
Proof.
  transitivity (pc_reduced_deflection_angle L x0 y0 (fun i j => sc * A i j + 0 * A i j) 1 x y).
  - unfold pc_reduced_deflection_angle. f_equal. extensionality i. extensionality j. ring.
  - rewrite obj_deflection_lin. unfold combined. destruct (pc_reduced_deflection_angle L x0 y0 A 1 x y) as [[a b]|]; [|reflexivity]. cbn. unfold pair_combo; cbn. f_equal. f_equal; ring.
Qed.
Lemma obj_potential_scale L x0 y0 A sc x y :
  pc_potential L x0 y0 A sc x y = bind (pc_potential L x0 y0 A 1 x y) (fun a => Ok (sc * a)).
Proof.
  transitivity (pc_potential L x0 y0 (fun i j => sc * A i j + 0 * A i j) 1 x y).
  - unfold pc_potential. f_equal. extensionality i. extensionality j. ring.
  - rewrite obj_potential_lin. unfold combined. destruct (pc_potential L x0 y0 A 1 x y) as [a|]; [|reflexivity]. cbn. f_equal; ring.
Qed.
Lemma obj_zero_map L x0 y0 A sc x y : (forall i j, A i j = 0) ->
  (forall a, pc_reduced_deflection_angle L x0 y0 A sc x y = Ok a -> a = (0, 0)) /\ (forall p, pc_potential L x0 y0 A sc x y = Ok p -> p = 0).
Proof.
  intros Z. assert (E : A = fun i j => 0 * A i j + 0 * A i j) by (extensionality i; extensionality j; rewrite Z; ring). rewrite E. rewrite obj_deflection_lin, obj_potential_lin. unfold combined. split.
  - intros a. destruct (pc_reduced_deflection_angle L x0 y0 A sc x y) as [[u v]|]; [|discriminate]. cbn. intros H. injection H as <-. unfold pair_combo; cbn. f_equal; ring.
  - intros p. destruct (pc_potential L x0 y0 A sc x y) as [u|]; [|discriminate]. cbn. intros H. injection H as <-. ring.
Qed.
(** ** totality *)
Lemma new_fields ps n padding mode wk L : new_pixconv ps 2 (n, n) padding mode wk = Ok L ->
  pc_n L = n /\ pc_pixelscale L = ps /\ pc_padding L = padding /\ pc_mode L = mode /\ (mode = "fft" \/ mode = "conv2d")%string.
Proof.
  unfold new_pixconv. cbn [Nat.eqb negb fst snd]. rewrite Nat.eqb_refl. cbn [negb]. destruct (build_kernels_pixelated_convergence ps n) as [[ax ay] pot].
  destruct (known_mode mode) eqn:K; [|discriminate]. intros H. injection H as <-. cbn. repeat (split; [reflexivity|]). unfold known_mode in K. apply orb_true_iff in K. rewrite !String.eqb_eq in K. exact K.
Qed.
Lemma new_ok ps n padding mode wk : (mode = "fft" \/ mode = "conv2d")%string -> exists L, new_pixconv ps 2 (n, n) padding mode wk = Ok L.
Proof.
  intros K. unfold new_pixconv. cbn [Nat.eqb negb fst snd]. rewrite Nat.eqb_refl. cbn [negb]. destruct (build_kernels_pixelated_convergence ps n) as [[ax ay] pot].
  replace (known_mode mode) with true by (unfold known_mode; symmetry; apply orb_true_iff; rewrite !String.eqb_eq; exact K). eexists. reflexivity.
Qed.
Lemma convolved_total A K ps n padding mode : usable n padding mode -> exists m, convolved A K ps n padding mode = Ok m.
Proof.
  intros U. unfold convolved, fft2_padded. destruct (fft_size n) as [s0 s1]. destruct U as [->|[-> U]]; [cbn; eexists; reflexivity|]. cbn [String.eqb Ascii.eqb Bool.eqb].
  destruct U as [[->| ->]|[N [->| ->]]]; cbn; try (eexists; reflexivity).
  all: replace (Nat.leb n 1) with false by (symmetry; apply Nat.leb_gt; lia); cbn; eexists; reflexivity.
Qed.
Lemma obj_total ps n padding mode wk L x0 y0 A sc x y : usable n padding mode -> new_pixconv ps 2 (n, n) padding mode wk = Ok L ->
  (exists a, pc_reduced_deflection_angle L x0 y0 A sc x y = Ok a) /\ (exists p, pc_potential L x0 y0 A sc x y = Ok p).
Proof.
  intros U H. destruct (new_fields _ _ _ _ _ _ H) as (E1 & E2 & E3 & E4 & _). unfold pc_reduced_deflection_angle, pc_potential, reduced_deflection_angle_pixelated_convergence, potential_pixelated_convergence. rewrite E1, E2, E3, E4.
  destruct (convolved_total (fun i j => A i j * sc) (pc_ax L) ps n padding mode U) as [m1 ->]. destruct (convolved_total (fun i j => A i j * sc) (pc_ay L) ps n padding mode U) as [m2 ->]. destruct (convolved_total (fun i j => A i j * sc) (pc_pot L) ps n padding mode U) as [m3 ->].
  cbn [bind]. rewrite !sample_val. cbn [bind]. split; eexists; reflexivity.
Qed.
(** ** the grids *)
Lemma mesh_coord ps m k : (2 <= m)%nat -> linspace_m1_1 m k * ps * (INR m - 1) / 2 = (INR k - (INR m - 1) / 2) * ps.
Proof.
  intros H. destruct m as [|[|m]]; try lia. unfold linspace_m1_1. assert (P : INR (S (S m)) - 1 = INR (S m)) by (rewrite (S_INR (S m)); ring).
  rewrite P. assert (0 < INR (S m)) by (apply lt_0_INR; lia). field. lra.
Qed.
Lemma half_int_ne ps (u n : nat) : 0 < ps -> (INR u - (INR (2 * n) - 1) / 2) * ps <> 0.
Proof.
  intros P E. apply Rmult_integral in E. destruct E as [E|E]; [|lra]. rewrite mult_INR in E. cbn [INR] in E.
  assert (F : IZR (2 * Z.of_nat u + 1) = IZR (2 * Z.of_nat n)) by (rewrite plus_IZR, !mult_IZR, <- !INR_IZR_INZ; lra). apply eq_IZR in F. lia.
Qed.
Lemma d2_pos a b : a <> 0 -> 0 < a ^ 2 + b ^ 2.
Proof. intros H. assert (0 < a ^ 2) by (apply pow2_gt_0, H). assert (0 <= b ^ 2) by apply pow2_ge_0. lra. Qed.
Lemma kernel_val ps n i j : 0 < ps -> (1 <= n)%nat ->
  let '(kx, ky, kp) := build_kernels_pixelated_convergence ps n in
  let X := (INR j - INR n + 1 / 2) * ps in let Y := (INR i - INR n + 1 / 2) * ps in
  kx i j = X / (X ^ 2 + Y ^ 2) /\ ky i j = Y / (X ^ 2 + Y ^ 2) /\ kp i j = ln (sqrt (X ^ 2 + Y ^ 2)).
Proof.
  intros P N. unfold build_kernels_pixelated_convergence, meshgrid. rewrite !(mesh_coord ps (2 * n)) by lia.
  assert (E : forall k : nat, (INR k - (INR (2 * n) - 1) / 2) * ps = (INR k - INR n + 1 / 2) * ps) by (intros k; rewrite mult_INR; cbn [INR]; field).
  rewrite !E. assert (NX : (INR j - INR n + 1 / 2) * ps <> 0) by (rewrite <- E; apply half_int_ne, P).
  set (X := (INR j - INR n + 1 / 2) * ps) in *. set (Y := (INR i - INR n + 1 / 2) * ps). assert (D := d2_pos X Y NX). unfold safe_divide, safe_log.
  destruct (Req_EM_T (X ^ 2 + Y ^ 2) 0) as [Z|_]; [exfalso; lra|]. assert (S := sqrt_lt_R0 _ D).
  destruct (Req_EM_T (sqrt (X ^ 2 + Y ^ 2)) 0) as [Z|_]; [exfalso; lra|]. destruct (Rlt_dec (sqrt (X ^ 2 + Y ^ 2)) 0) as [Z|_]; [exfalso; lra|]. repeat split; reflexivity.
Qed.
Lemma fsum_trunc n s f : (n <= s)%nat -> (forall a, (n <= a < s)%nat -> f a = 0) -> fsum s f = fsum n f.
Proof.
  intros H Z. induction s as [|s IH]; [replace n with 0%nat by lia; reflexivity|]. destruct (Nat.eq_dec n (S s)) as [->|N]; [reflexivity|].
  cbn [fsum]. rewrite IH by (lia || (intros; apply Z; lia)). rewrite (Z s) by lia. ring.
Qed.
(** ceil(s/2) *)
Lemma half_up s : (- (- Z.of_nat s / 2) = Z.of_nat (Nat.div (s + 1) 2))%Z.
Proof. rewrite Nat2Z.inj_div, Nat2Z.inj_add. change (Z.of_nat 1) with 1%Z. change (Z.of_nat 2) with 2%Z.
  assert (A := Z_div_mod_eq_full (- Z.of_nat s) 2). assert (B := Z.mod_pos_bound (- Z.of_nat s) 2 ltac:(lia)).
  assert (A' := Z_div_mod_eq_full (Z.of_nat s + 1) 2). assert (B' := Z.mod_pos_bound (Z.of_nat s + 1) 2 ltac:(lia)). lia.
Qed.
Lemma rolled_val s n i : (2 * n <= s)%nat -> (i < n)%nat -> rolled s (- Z.of_nat s / 2) i = (i + Nat.div (s + 1) 2)%nat.
Proof.
  intros H Hi. unfold rolled. replace (Z.of_nat i - - Z.of_nat s / 2)%Z with (Z.of_nat i + Z.of_nat (Nat.div (s + 1) 2))%Z by (rewrite <- half_up; lia).
  assert (D := Nat.div_mod (s + 1) 2 ltac:(lia)). assert (M := Nat.mod_upper_bound (s + 1) 2 ltac:(lia)). rewrite Z.mod_small by lia. lia.
Qed.
Lemma wrap_val s p a : (a <= p)%nat -> (a <= s)%nat -> (p - a < s)%nat -> wrap s p a = (p - a)%nat.
Proof.
  intros A S P. unfold wrap. replace (p + (s - a))%nat with (p - a + 1 * s)%nat by lia. rewrite Nat.mod_add by lia. apply Nat.mod_small, P.
Qed.
Lemma size_bounds n : (1 <= n)%nat -> let s := next_fast_len (2 * n) in let c := Nat.div (s + 1) 2 in (2 * n <= s)%nat /\ (n <= c < 2 * n)%nat /\ (c + n <= s)%nat.
Proof.
  intros N s c. destruct (nfl_spec (2 * n) ltac:(lia)) as [[A B] _]. assert (B' := nfl_even n N). fold s in A, B, B'. assert (D := Nat.div_mod (s + 1) 2 ltac:(lia)). assert (M := Nat.mod_upper_bound (s + 1) 2 ltac:(lia)). fold c in D. lia.
Qed.
(** the fft map with zero padding *)
Definition fft_entry (n : nat) (A K : nat -> nat -> R) (i j : nat) : R :=
  let c := Nat.div (next_fast_len (2 * n) + 1) 2 in
  fsum n (fun a => fsum n (fun b => A a b * zero_pad (2 * n) (2 * n) K (i + c - a) (j + c - b))).
Lemma fft_map n A K ps : (1 <= n)%nat -> exists m, convolved A (with_tilde n K) ps n "zero" "fft" = Ok (n, m) /\
  forall i j, (i < n)%nat -> (j < n)%nat -> m i j = fft_entry n A K i j * (ps ^ 2 / PI).
Proof.
  intros N. unfold convolved, with_tilde, fft2_padded, fft_size. cbn [String.eqb Ascii.eqb Bool.eqb bind k_tilde]. eexists. split; [reflexivity|].
  intros i j Hi Hj. destruct (size_bounds n N) as (S1 & C1 & C2). unfold unpad_fft, fft_size, fft_entry. set (s := next_fast_len (2 * n)) in *. set (c := Nat.div (s + 1) 2) in *.
  rewrite !(rolled_val s n) by assumption. fold c. rewrite (rfft2_product n n A (2 * n) (2 * n) K) by lia. f_equal.
  rewrite (fsum_trunc n s) by (lia || (intros a Ha; apply fsum_zero; intros b Hb; unfold zero_pad at 1; replace (Nat.ltb a n) with false by (symmetry; apply Nat.ltb_ge; lia); cbn [andb]; ring)).
  apply fsum_ext. intros a Ha. rewrite (fsum_trunc n s) by (lia || (intros b Hb; unfold zero_pad at 1; replace (Nat.ltb b n) with false by (symmetry; apply Nat.ltb_ge; lia); rewrite andb_false_r; ring)).
  apply fsum_ext. intros b Hb. rewrite !wrap_val by lia. f_equal. unfold zero_pad. rewrite (proj2 (Nat.ltb_lt a n) Ha), (proj2 (Nat.ltb_lt b n) Hb). reflexivity.
Qed.
(** the conv2d map *)
Definition conv_entry (n : nat) (A K : nat -> nat -> R) (p q : nat) : R :=
  let l := Z.of_nat (n - 1 - Nat.div (n - 1) 2) in
  fsum n (fun a => fsum n (fun b => A a b * at_Z (2 * n) (2 * n) K (Z.of_nat p + l - Z.of_nat a) (Z.of_nat q + l - Z.of_nat b))).
Lemma conv_map n A K ps padding : (1 <= n)%nat -> exists m, convolved A (with_tilde n K) ps n padding "conv2d" = Ok ((2 * n)%nat, m) /\
  forall p q, m p q = conv_entry n A K p q * (ps ^ 2 / PI).
Proof.
  intros N. unfold convolved, with_tilde, fft_size. cbn [String.eqb Ascii.eqb Bool.eqb k_raw]. eexists. split; [reflexivity|]. intros p q. cbv beta. apply Rmult_eq_compat_r. unfold conv2d_same, conv_entry.
  set (l := Nat.div (n - 1) 2). assert (L : (l <= n - 1)%nat) by (apply Nat.div_le_upper_bound; lia).
  rewrite fsum_rev. apply fsum_ext. intros a Ha. rewrite fsum_rev. apply fsum_ext. intros b Hb. unfold flip2.
  replace (n - 1 - (n - 1 - a))%nat with a by lia. replace (n - 1 - (n - 1 - b))%nat with b by lia. rewrite Rmult_comm. f_equal. f_equal; lia.
Qed.
(** ** sampling at pixel centres *)
Lemma sample_centre x0 y0 ps n N m i j : (1 <= n)%nat -> (i < N)%nat -> (j < N)%nat -> 0 < ps ->
  sample x0 y0 (INR n * ps) (N, m) (x0 + centre N j * (INR n * ps / 2)) (y0 + centre N i * (INR n * ps / 2)) = Ok (m i j).
Proof.
  intros H Hi Hj P. assert (NP : 0 < INR n) by (apply lt_0_INR; lia). assert (F : 0 < INR n * ps) by nra. unfold sample. cbn [fst snd].
  replace ((x0 + centre N j * (INR n * ps / 2) - x0) / (INR n * ps / 2)) with (centre N j) by (field; lra).
  replace ((y0 + centre N i * (INR n * ps / 2) - y0) / (INR n * ps / 2)) with (centre N i) by (field; lra).
  apply centre2; [lia|lia|left; reflexivity|right; right; reflexivity|exact Hi|exact Hj].
Qed.
