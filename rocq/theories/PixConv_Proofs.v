(** * PixelatedConvergence: linearity *)
From Coq Require Import Reals Lra Lia Arith ZArith List Bool String.
From Coquelicot Require Import Coquelicot.
From Verif Require Import Py Fsum RealFun Geo_Model Interp2_Model Interp2_Spec Interp2_Proofs Dft_Model Dft_Proofs PixConv_Model PixConv_Spec.
Local Open Scope R_scope.

(** ** next_fast_len *)
Lemma strip_1 f p : (2 <= p)%nat -> strip f p 1 = 1%nat.
Proof. intros H. destruct f; [reflexivity|]. cbn [strip]. rewrite Nat.mod_small by lia. reflexivity. Qed.
Lemma strip_2 k f : (k <= f)%nat -> strip f 2 (2 ^ k) = 1%nat.
Proof.
  revert f. induction k as [|k IH]; intros f H; [apply strip_1; lia|]. destruct f as [|f]; [lia|]. cbn [strip].
  replace (2 ^ S k)%nat with (2 ^ k * 2)%nat by (cbn; lia). rewrite Nat.mod_mul by lia. cbn [Nat.eqb]. rewrite Nat.div_mul by lia. apply IH. lia.
Qed.
Lemma smooth_pow2 k : smooth (2 ^ k) = true.
Proof.
  unfold smooth. apply Nat.eqb_eq. rewrite strip_2 by (apply Nat.lt_le_incl, Nat.pow_gt_lin_r; lia). rewrite !strip_1 by lia. reflexivity.
Qed.
Lemma pow2_between t : (1 <= t)%nat -> exists k, (t <= 2 ^ k < 2 * t)%nat.
Proof.
  intros H. destruct (Nat.eq_dec t 1) as [->|N]; [exists 0%nat; cbn; lia|]. exists (Nat.log2_up t). destruct (Nat.log2_up_spec t ltac:(lia)) as [A B].
  assert (P : (0 < Nat.log2_up t)%nat) by (apply Nat.log2_up_pos; lia). destruct (Nat.log2_up t) as [|m]; [lia|]. cbn [Nat.pred] in A. cbn [Nat.pow] in *. lia.
Qed.
Lemma find_first f m a k j : find f (seq a m) = Some k -> (a <= j < k)%nat -> f j = false.
Proof.
  revert a. induction m as [|m IH]; intros a; cbn [seq find]; [discriminate|]. destruct (f a) eqn:E; [intros H; injection H as <-; lia|].
  intros F H. destruct (Nat.eq_dec j a) as [->|N]; [exact E|]. apply (IH (S a)); [exact F|lia].
Qed.
(** the smallest admissible length *)
Lemma nfl_spec t : (1 <= t)%nat -> (t <= next_fast_len t < 2 * t)%nat /\ smooth (next_fast_len t) = true /\ (forall k, (t <= k)%nat -> smooth k = true -> (next_fast_len t <= k)%nat).
Proof.
  intros H. unfold next_fast_len. destruct (find smooth (seq t t)) as [k|] eqn:E.
  - assert (F := find_some _ _ E). destruct F as [I S]. apply in_seq in I. split; [lia|]. split; [exact S|]. intros j J SJ.
    destruct (Nat.le_gt_cases k j) as [L|L]; [exact L|]. assert (N := find_first _ _ _ _ j E ltac:(lia)). rewrite N in SJ. discriminate.
  - exfalso. destruct (pow2_between t H) as [k Hk]. assert (F := find_none _ _ E (2 ^ k)%nat ltac:(apply in_seq; lia)). rewrite smooth_pow2 in F. discriminate.
Qed.
Lemma nfl_even n : (1 <= n)%nat -> (next_fast_len (2 * n) <= 4 * n - 2)%nat.
Proof.
  intros H. destruct (nfl_spec (2 * n) ltac:(lia)) as (_ & _ & M). destruct (pow2_between (2 * n) ltac:(lia)) as [k Hk]. specialize (M _ (proj1 Hk) (smooth_pow2 k)).
  destruct k as [|k]; cbn [Nat.pow] in *; lia.
Qed.

(** ** linearity of the transforms *)
Lemma dft_lin N (u v : R) x y k : dft N (fun a => RtoC u * x a + RtoC v * y a)%C k = (RtoC u * dft N x k + RtoC v * dft N y k)%C.
Proof. unfold dft. rewrite <- !csum_scal, <- csum_plus. apply csum_ext. intros; ring. Qed.
Lemma idft_lin N (u v : R) x y k : idft N (fun a => RtoC u * x a + RtoC v * y a)%C k = (RtoC u * idft N x k + RtoC v * idft N y k)%C.
Proof.
  unfold idft. transitivity (RtoC (/ INR N) * (RtoC u * csum N (fun k0 => x k0 * cis (2 * PI * INR (k0 * k) / INR N)) + RtoC v * csum N (fun k0 => y k0 * cis (2 * PI * INR (k0 * k) / INR N))))%C; [|ring].
  f_equal. rewrite <- !csum_scal, <- csum_plus. apply csum_ext. intros; ring.
Qed.
Definition combo (u v : R) (A B : nat -> nat -> R) (i j : nat) : R := u * A i j + v * B i j.
Lemma rfft2_lin h w u v A B s0 s1 k l : rfft2 h w (combo u v A B) s0 s1 k l = (RtoC u * rfft2 h w A s0 s1 k l + RtoC v * rfft2 h w B s0 s1 k l)%C.
Proof.
  unfold rfft2, dft2. rewrite <- dft_lin. apply dft_ext. intros a _. rewrite <- dft_lin. apply dft_ext. intros b _.
  rewrite <- !RtoC_mult, <- RtoC_plus. f_equal. unfold zero_pad, combo. destruct (_ && _)%bool; ring.
Qed.
Lemma hermitian_lin s0 s1 (u v : R) X Y k l : hermitian s0 s1 (fun k l => RtoC u * X k l + RtoC v * Y k l)%C k l = (RtoC u * hermitian s0 s1 X k l + RtoC v * hermitian s0 s1 Y k l)%C.
Proof.
  unfold hermitian. destruct (Nat.leb l (s1 / 2)); [reflexivity|]. unfold Cconj, Cplus, Cmult, RtoC; cbn. f_equal; ring.
Qed.
Lemma hermitian_ext s0 s1 X Y k l : (forall k l, X k l = Y k l) -> hermitian s0 s1 X k l = hermitian s0 s1 Y k l.
Proof. intros H. unfold hermitian. rewrite !H. reflexivity. Qed.
Lemma irfft2_ext X Y s0 s1 p q : (forall k l, X k l = Y k l) -> irfft2 X s0 s1 p q = irfft2 Y s0 s1 p q.
Proof. intros H. unfold irfft2. f_equal. apply idft_ext. intros k _. apply idft_ext. intros l _. apply hermitian_ext, H. Qed.
Lemma irfft2_lin (u v : R) X Y s0 s1 p q : irfft2 (fun k l => RtoC u * X k l + RtoC v * Y k l)%C s0 s1 p q = u * irfft2 X s0 s1 p q + v * irfft2 Y s0 s1 p q.
Proof.
  unfold irfft2. rewrite (idft_ext s0 _ (fun k => RtoC u * idft s1 (hermitian s0 s1 X k) q + RtoC v * idft s1 (hermitian s0 s1 Y k) q)%C).
  - rewrite idft_lin. unfold Cplus, Cmult, RtoC; cbn. ring.
  - intros k _. rewrite <- idft_lin. apply idft_ext. intros l _. apply hermitian_lin.
Qed.
Lemma conv2d_lin H W im h w u v A B p q : conv2d_same H W im h w (combo u v A B) p q = u * conv2d_same H W im h w A p q + v * conv2d_same H W im h w B p q.
Proof.
  unfold conv2d_same. rewrite <- !fsum_scal_l, <- fsum_plus. apply fsum_ext. intros a _. rewrite <- !fsum_scal_l, <- fsum_plus. apply fsum_ext. intros b _. unfold combo. ring.
Qed.
(** errors do not depend on the map; values combine *)
Lemma fft2_padded_lin u v A B n padding :
  match fft2_padded A n padding, fft2_padded B n padding, fft2_padded (combo u v A B) n padding with
  | Ok X, Ok Y, Ok Z => forall k l, Z k l = (RtoC u * X k l + RtoC v * Y k l)%C
  | Raise a, Raise b, Raise c => a = b /\ b = c
  | _, _, _ => False end.
Proof.
  unfold fft2_padded. destruct (fft_size n) as [s0 s1]. repeat match goal with |- context [if ?b then _ else _] => destruct b end; try (intros k l; first [apply rfft2_lin | apply (rfft2_lin _ _ u v (fun i j => A _ _) (fun i j => B _ _))]); try (split; reflexivity).
Qed.
Lemma convolved_lin u v A B K ps n padding mode :
  match convolved A K ps n padding mode, convolved B K ps n padding mode, convolved (combo u v A B) K ps n padding mode with
  | Ok (a, X), Ok (b, Y), Ok (c, Z) => a = c /\ b = c /\ forall k l, Z k l = combo u v X Y k l
  | Raise a, Raise b, Raise c => a = b /\ b = c
  | _, _, _ => False end.
Proof.
  unfold convolved. destruct (fft_size n) as [s0 s1] eqn:FS. destruct (String.eqb mode "fft").
  - assert (L := fft2_padded_lin u v A B n padding). destruct (fft2_padded A n padding) as [X|], (fft2_padded B n padding) as [Y|], (fft2_padded (combo u v A B) n padding) as [Z|]; cbn [bind]; try exact L.
    split; [reflexivity|]. split; [reflexivity|]. intros p q. unfold combo, unpad_fft. rewrite FS.
    rewrite (irfft2_ext _ (fun k l => RtoC u * (X k l * k_tilde K k l) + RtoC v * (Y k l * k_tilde K k l))%C).
    + rewrite irfft2_lin. ring.
    + intros k l. rewrite L. ring.
  - destruct (String.eqb mode "conv2d"); [|split; reflexivity]. split; [reflexivity|]. split; [reflexivity|]. intros p q. unfold combo at 2.
    change (flip2 n (combo u v A B)) with (combo u v (flip2 n A) (flip2 n B)). rewrite conv2d_lin. ring.
Qed.
Lemma linear2_lin h w u v A B x y : linear2 h w (combo u v A B) x y = u * linear2 h w A x y + v * linear2 h w B x y.
Proof. unfold linear2, combo. ring. Qed.
Lemma linear2_ext h w A B x y : (forall i j, A i j = B i j) -> linear2 h w A x y = linear2 h w B x y.
Proof. intros H. unfold linear2. rewrite !H. reflexivity. Qed.
Lemma sample_val x0 y0 fov m x y : sample x0 y0 fov m x y = Ok (if (outside ((y - y0) / (fov / 2)) || outside ((x - x0) / (fov / 2)))%bool then 0
  else linear2 (fst m) (fst m) (snd m) (to_pixel (fst m) ((x - x0) / (fov / 2))) (to_pixel (fst m) ((y - y0) / (fov / 2)))).
Proof. reflexivity. Qed.
Lemma sample_lin x0 y0 fov n u v A B Z x y : (forall k l, Z k l = combo u v A B k l) ->
  sample x0 y0 fov (n, Z) x y = combined (fun a b => u * a + v * b) (sample x0 y0 fov (n, A) x y) (sample x0 y0 fov (n, B) x y).
Proof.
  intros H. rewrite !sample_val. cbn [combined bind fst snd]. f_equal. destruct (_ || _)%bool; [ring|]. rewrite (linear2_ext _ _ _ _ _ _ H). apply linear2_lin.
Qed.
Lemma potential_lin u v A B K x0 y0 x y ps fov n padding mode :
  potential_pixelated_convergence x0 y0 (combo u v A B) x y K ps fov n padding mode =
  combined (fun a b => u * a + v * b) (potential_pixelated_convergence x0 y0 A x y K ps fov n padding mode) (potential_pixelated_convergence x0 y0 B x y K ps fov n padding mode).
Proof.
  unfold potential_pixelated_convergence. assert (L := convolved_lin u v A B K ps n padding mode).
  destruct (convolved A K ps n padding mode) as [[a X]|], (convolved B K ps n padding mode) as [[b Y]|], (convolved (combo u v A B) K ps n padding mode) as [[c Z]|]; cbn [bind]; try contradiction.
  - destruct L as (-> & -> & L). apply sample_lin, L.
  - destruct L as [-> ->]. reflexivity.
Qed.
Lemma deflection_lin u v A B K1 K2 x0 y0 x y ps fov n padding mode :
  reduced_deflection_angle_pixelated_convergence x0 y0 (combo u v A B) x y K1 K2 ps fov n padding mode =
  combined (pair_combo u v) (reduced_deflection_angle_pixelated_convergence x0 y0 A x y K1 K2 ps fov n padding mode) (reduced_deflection_angle_pixelated_convergence x0 y0 B x y K1 K2 ps fov n padding mode).
Proof.
  unfold reduced_deflection_angle_pixelated_convergence. assert (L := convolved_lin u v A B K1 ps n padding mode). assert (M := convolved_lin u v A B K2 ps n padding mode).
  destruct (convolved A K1 ps n padding mode) as [[a X]|], (convolved B K1 ps n padding mode) as [[b Y]|], (convolved (combo u v A B) K1 ps n padding mode) as [[c Z]|]; cbn [bind]; try contradiction.
  - destruct (convolved A K2 ps n padding mode) as [[a' X']|], (convolved B K2 ps n padding mode) as [[b' Y']|], (convolved (combo u v A B) K2 ps n padding mode) as [[c' Z']|]; cbn [bind]; try contradiction.
    + destruct L as (-> & -> & L), M as (-> & -> & M). rewrite (sample_lin _ _ _ _ _ _ _ _ _ _ _ L), (sample_lin _ _ _ _ _ _ _ _ _ _ _ M). rewrite !sample_val. reflexivity.
    + destruct M as [-> ->]. reflexivity.
  - destruct L as [-> ->]. reflexivity.
Qed.
(** ** the object *)
