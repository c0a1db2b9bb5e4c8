(** * Effects of the PSF on simulated images *)
From Coq Require Import Reals Arith ZArith Lia Lra List String FunctionalExtensionality.
From Coquelicot Require Import Rcomplements.
From Verif Require Import Py Fsum Quad_Model Quad_Spec PixConv_Model PixConv_Spec Sim_Model Sim_Spec Sim_Proofs Sim2_Proofs PixMean_Spec PixMean2_Proofs PsfEffect_Spec.
Import ListNotations.
Local Open Scope R_scope.

(** ** scaling the PSF *)
Lemma call_scaled ray S src ll kr kc psf c x0 y0 so lo le conv chunk : c <> 0 -> total kr kc psf <> 0 ->
  call ray S src ll kr kc (fun i j => c * psf i j) x0 y0 so lo le conv chunk = call ray S src ll kr kc psf x0 y0 so lo le conv chunk.
Proof.
  intros C T. unfold call. f_equal. extensionality mu. f_equal.
  assert (E : psf_sum kr kc (fun i j => c * psf i j) = c * psf_sum kr kc psf).
  { unfold psf_sum. rewrite <- fsum_scal_l. apply fsum_ext. intros u _. apply fsum_scal_l. }
  assert (T' : psf_sum kr kc psf <> 0) by exact T.
  assert (Q : forall t, c * t / (c * psf_sum kr kc psf) = t / psf_sum kr kc psf) by (intros t; field; split; assumption).
  unfold convolve, flip_hw. cbv zeta. rewrite E.
  replace (fun i j => c * psf i j / (c * psf_sum kr kc psf)) with (fun i j => psf i j / psf_sum kr kc psf) by (extensionality i; extensionality j; rewrite Q; reflexivity).
  replace (fun i j => c * psf (kr - 1 - i)%nat (kc - 1 - j)%nat / (c * psf_sum kr kc psf)) with (fun i j => psf (kr - 1 - i)%nat (kc - 1 - j)%nat / psf_sum kr kc psf)
    by (extensionality i; extensionality j; rewrite Q; reflexivity).
  reflexivity.
Qed.

(** ** sums over the PSF *)
Lemma total_single kr kc psf u v : single_pixel kr kc psf u v -> forall g : nat -> nat -> R,
  fsum kr (fun a => fsum kc (fun b => psf a b * g a b)) = psf u v * g u v.
Proof.
  intros (U & V & _ & Z) g. rewrite (fsum_single kr _ u U).
  - apply (fsum_single kc (fun b => psf u b * g u b) v V). intros b Hb N. rewrite (Z u b U Hb (or_intror N)). ring.
  - intros a Ha N. apply fsum_zero. intros b Hb. rewrite (Z a b Ha Hb (or_introl N)). ring.
Qed.
Lemma total_is kr kc psf u v : single_pixel kr kc psf u v -> total kr kc psf = psf u v.
Proof.
  intros SP. assert (E := total_single kr kc psf u v SP (fun _ _ => 1)). rewrite Rmult_1_r in E. rewrite <- E. unfold total. apply fsum_ext. intros a _. apply fsum_ext. intros; ring.
Qed.
Lemma blurred_total kr kc psf d B x y :
  blurred kr kc psf d B x y = fsum kr (fun u => fsum kc (fun v => psf u v * B (x - (INR v - INR (kc / 2)) * d) (y - (INR u - INR (kr / 2)) * d))) / total kr kc psf.
Proof.
  unfold blurred. change (fsum kr (fun u' => fsum kc (psf u'))) with (total kr kc psf). rewrite <- fsum_div. apply fsum_ext. intros u _. rewrite <- fsum_div. apply fsum_ext. intros v _.
  unfold Rdiv. ring.
Qed.
Lemma blurred_single kr kc psf u v d B x y : single_pixel kr kc psf u v ->
  blurred kr kc psf d B x y = B (x - (INR v - INR (kc / 2)) * d) (y - (INR u - INR (kr / 2)) * d).
Proof.
  intros SP. rewrite blurred_total, (total_single _ _ _ u v SP (fun u v => B (x - (INR v - INR (kc / 2)) * d) (y - (INR u - INR (kr / 2)) * d))), (total_is _ _ _ u v SP).
  destruct SP as (_ & _ & N & _). field. exact N.
Qed.
Lemma blurred_range kr kc psf d B x y a b : (forall u v, (u < kr)%nat -> (v < kc)%nat -> 0 <= psf u v) -> total kr kc psf <> 0 -> (forall x y, a <= B x y <= b) ->
  a <= blurred kr kc psf d B x y <= b.
Proof.
  intros P T H. assert (T0 : 0 < total kr kc psf). { assert (0 <= total kr kc psf); [|lra]. apply fsum_nonneg. intros u Hu. apply fsum_nonneg. intros v Hv. apply P; assumption. }
  rewrite blurred_total. set (t := total kr kc psf) in *.
  assert (M : forall z, z * t = fsum kr (fun u => fsum kc (fun v => psf u v * z))).
  { intros z. unfold t, total. rewrite <- fsum_scal_l. apply fsum_ext. intros u _. rewrite <- fsum_scal_l. apply fsum_ext. intros; ring. }
  set (s := fsum kr _). assert (L1 : a * t <= s). { rewrite M. apply fsum_le. intros u Hu. apply fsum_le. intros v Hv. apply Rmult_le_compat_l; [apply P; assumption|apply H]. }
  assert (L2 : s <= b * t). { rewrite M. apply fsum_le. intros u Hu. apply fsum_le. intros v Hv. apply Rmult_le_compat_l; [apply P; assumption|apply H]. }
  clearbody s t. split; apply Rmult_le_reg_r with t; try exact T0; replace (s / t * t) with s by (field; lra); assumption.
Qed.
Lemma pixel_value_range up px py x0 y0 d B i j a b : (1 <= up)%nat -> (forall x y, a <= B x y <= b) -> a <= pixel_value up px py x0 y0 d B i j <= b.
Proof.
  intros U H. unfold pixel_value. rewrite mult_INR. assert (U0 : 0 < INR up) by (apply lt_0_INR; lia). assert (UU : 0 < INR up * INR up) by (apply Rmult_lt_0_compat; assumption).
  set (s := fsum up _).
  assert (M : forall z, z * (INR up * INR up) = fsum up (fun _ => fsum up (fun _ => z))) by (intros z; rewrite !fsum_const; ring).
  assert (L1 : a * (INR up * INR up) <= s). { rewrite M. apply fsum_le. intros. apply fsum_le. intros. apply H. }
  assert (L2 : s <= b * (INR up * INR up)). { rewrite M. apply fsum_le. intros. apply fsum_le. intros. apply H. }
  clearbody s. split; apply Rmult_le_reg_r with (INR up * INR up); try exact UU; replace (s / (INR up * INR up) * (INR up * INR up)) with s by (field; lra); assumption.
Qed.
Lemma sub_mean_range leg lv F d x y a b : rule_inside leg lv -> 0 <= d -> (forall x y, a <= F x y <= b) -> a <= sub_mean leg lv F d x y <= b.
Proof.
  intros RU D H. assert (N := sub_mean_near leg lv F d x y ((a + b) / 2) ((b - a) / 2) RU D). assert (M := N ltac:(intros u w _ _; apply Rabs_le; specialize (H u w); lra)). apply Rabs_le_between in M. lra.
Qed.

(** ** shifted sums *)
Lemma fsum_shift N m (g : Z -> R) : (forall k, (k < Z.of_nat m)%Z \/ (Z.of_nat N - Z.of_nat m <= k)%Z -> g k = 0) -> forall s, (- Z.of_nat m <= s <= Z.of_nat m)%Z ->
  fsum N (fun k => g (Z.of_nat k - s)%Z) = fsum N (fun k => g (Z.of_nat k)).
Proof.
  intros Z0 s Hs. destruct (Nat.le_gt_cases N m) as [NM|NM].
  { rewrite !fsum_zero; [reflexivity| |]; intros k Hk; apply Z0; lia. }
  destruct (Z_le_dec 0 s) as [P|P].
  - set (t := Z.to_nat s). assert (T : s = Z.of_nat t) by (unfold t; lia). replace N with (t + (N - t))%nat at 1 by lia. rewrite fsum_app.
    rewrite (fsum_zero t) by (intros k Hk; apply Z0; lia). replace N with ((N - t) + t)%nat at 2 by lia. rewrite fsum_app.
    rewrite (fsum_zero t (fun i => g _)) by (intros k Hk; apply Z0; lia). rewrite Rplus_0_l, Rplus_0_r. apply fsum_ext. intros k _. f_equal. lia.
  - set (t := Z.to_nat (- s)). assert (T : s = (- Z.of_nat t)%Z) by (unfold t; lia). replace N with ((N - t) + t)%nat at 1 by lia. rewrite fsum_app.
    rewrite (fsum_zero t (fun i => g _)) by (intros k Hk; apply Z0; lia). replace N with (t + (N - t))%nat at 2 by lia. rewrite fsum_app.
    rewrite (fsum_zero t (fun k => g _)) by (intros k Hk; apply Z0; lia). rewrite Rplus_0_l, Rplus_0_r. apply fsum_ext. intros k _. f_equal. lia.
Qed.
(** centre of sub-pixel k, which may be outside the field *)
Definition zc (x0 d : R) (n : nat) (k : Z) : R := x0 + (IZR k - (INR n - 1) / 2) * d.
Lemma zc_nat x0 d n k : sub_centre x0 d n k = zc x0 d n (Z.of_nat k).
Proof. unfold sub_centre, zc. rewrite <- INR_IZR_INZ. reflexivity. Qed.
Lemma zc_shift x0 d n k v m : zc x0 d n k - (INR v - INR m) * d = zc x0 d n (k - (Z.of_nat v - Z.of_nat m)).
Proof. unfold zc. rewrite !minus_IZR, <- !INR_IZR_INZ. ring. Qed.
Lemma zc_outside x0 d n m k : 0 < d -> (k < Z.of_nat m)%Z \/ (Z.of_nat n - Z.of_nat m <= k)%Z ->
  forall u, zc x0 d n k - d / 2 <= u <= zc x0 d n k + d / 2 -> (INR n / 2 - INR m) * d <= Rabs (u - x0).
Proof.
  intros D H u Hu. unfold zc in Hu. destruct H as [H|H].
  - assert (K : IZR k + 1 <= INR m). { rewrite (INR_IZR_INZ m), <- plus_IZR. apply IZR_le. lia. }
    assert (P : 0 <= (INR m - IZR k - 1) * d) by (apply Rmult_le_pos; lra). rewrite Rabs_minus_sym. eapply Rle_trans; [|apply Rle_abs]. lra.
  - assert (K : INR n - INR m <= IZR k). { rewrite (INR_IZR_INZ m), (INR_IZR_INZ n), <- minus_IZR. apply IZR_le. lia. }
    assert (P : 0 <= (IZR k - INR n + INR m) * d) by (apply Rmult_le_pos; lra). eapply Rle_trans; [|apply Rle_abs]. lra.
Qed.
Lemma sub_mean_dark leg lv B d x y x0 y0 a b : rule_inside leg lv -> 0 <= d -> dark_outside B x0 y0 a b ->
  (forall u, x - d / 2 <= u <= x + d / 2 -> a <= Rabs (u - x0)) \/ (forall u, y - d / 2 <= u <= y + d / 2 -> b <= Rabs (u - y0)) -> sub_mean leg lv B d x y = 0.
Proof.
  intros RU D DK H. assert (N := sub_mean_near leg lv B d x y 0 0 RU D). rewrite Rminus_0_r in N. apply Rabs_eq_0. apply Rle_antisym; [|apply Rabs_pos]. apply N.
  intros u w Hu Hw. rewrite DK; [rewrite Rminus_0_r, Rabs_R0; lra|]. destruct H as [H|H]; [left; apply H, Hu|right; apply H, Hw].
Qed.

(** all sub-pixels of the field *)
Definition all_sub (up px py : nat) (x0 y0 d : R) (B : R -> R -> R) : R :=
  fsum (py * up) (fun a => fsum (px * up) (fun b => B (sub_centre x0 d (px * up) b) (sub_centre y0 d (py * up) a))).
Lemma all_pixels up px py x0 y0 d B : fsum py (fun i => fsum px (fun j => pixel_value up px py x0 y0 d B i j)) = all_sub up px py x0 y0 d B / INR (up * up).
Proof.
  unfold all_sub, pixel_value. rewrite fsum_blocks, <- fsum_div. apply fsum_ext. intros i _. rewrite (fsum_div px). f_equal. rewrite fsum_swap.
  apply fsum_ext. intros a _. rewrite fsum_blocks. reflexivity.
Qed.
Lemma all_blurred leg lv up px py kr kc psf x0 y0 d B : (1 <= kr)%nat -> (1 <= kc)%nat -> 0 < d -> rule_inside leg lv -> total kr kc psf <> 0 ->
  dark_outside B x0 y0 ((INR (px * up) / 2 - INR (kc / 2)) * d) ((INR (py * up) / 2 - INR (kr / 2)) * d) ->
  all_sub up px py x0 y0 d (blurred kr kc psf d (sub_mean leg lv B d)) = all_sub up px py x0 y0 d (sub_mean leg lv B d).
Proof.
  intros KR KC D RU T DK. set (M := sub_mean leg lv B d). unfold all_sub.
  assert (E : forall a b, blurred kr kc psf d M (sub_centre x0 d (px * up) b) (sub_centre y0 d (py * up) a) =
    fsum kr (fun u => fsum kc (fun v => psf u v * M (zc x0 d (px * up) (Z.of_nat b - (Z.of_nat v - Z.of_nat (kc / 2)))) (zc y0 d (py * up) (Z.of_nat a - (Z.of_nat u - Z.of_nat (kr / 2)))))) / total kr kc psf).
  { intros a b. rewrite blurred_total. f_equal. apply fsum_ext. intros u _. apply fsum_ext. intros v _. rewrite !zc_nat, !zc_shift. reflexivity. }
  rewrite (fsum_ext (py * up) _ (fun a => fsum (px * up) (fun b => fsum kr (fun u => fsum kc (fun v => psf u v *
    M (zc x0 d (px * up) (Z.of_nat b - (Z.of_nat v - Z.of_nat (kc / 2)))) (zc y0 d (py * up) (Z.of_nat a - (Z.of_nat u - Z.of_nat (kr / 2)))))))/ total kr kc psf)).
  2: { intros a _. rewrite <- fsum_div. apply fsum_ext. intros b _. apply E. }
  rewrite fsum_div.
  set (F := fsum (py * up) (fun a => fsum (px * up) (fun b => M (sub_centre x0 d (px * up) b) (sub_centre y0 d (py * up) a)))).
  assert (S : forall u v, (u < kr)%nat -> (v < kc)%nat -> fsum (py * up) (fun a => fsum (px * up) (fun b =>
    M (zc x0 d (px * up) (Z.of_nat b - (Z.of_nat v - Z.of_nat (kc / 2)))) (zc y0 d (py * up) (Z.of_nat a - (Z.of_nat u - Z.of_nat (kr / 2)))))) = F).
  { intros u v Hu Hv. destruct (half_split kr KR) as (_ & R1 & _). destruct (half_split kc KC) as (_ & C1 & _).
    set (su := (Z.of_nat u - Z.of_nat (kr / 2))%Z). set (sv := (Z.of_nat v - Z.of_nat (kc / 2))%Z).
    rewrite (fsum_shift (py * up) (kr / 2) (fun k => fsum (px * up) (fun b => M (zc x0 d (px * up) (Z.of_nat b - sv)) (zc y0 d (py * up) k)))).
    3: unfold su; lia.
    2: { intros k Hk. apply fsum_zero. intros b _. unfold M. eapply sub_mean_dark; [exact RU|lra|exact DK|]. right. apply zc_outside; assumption. }
    unfold F. apply fsum_ext. intros a _. rewrite (fsum_shift (px * up) (kc / 2) (fun k => M (zc x0 d (px * up) k) (zc y0 d (py * up) (Z.of_nat a)))).
    3: unfold sv; lia.
    2: { intros k Hk. unfold M. eapply sub_mean_dark; [exact RU|lra|exact DK|]. left. apply zc_outside; assumption. }
    apply fsum_ext. intros b _. rewrite !zc_nat. reflexivity. }
  transitivity (fsum kr (fun u => fsum kc (fun v => psf u v * F)) / total kr kc psf).
  - f_equal. rewrite (fsum_ext (py * up) _ (fun a => fsum kr (fun u => fsum kc (fun v => fsum (px * up) (fun b => psf u v *
      M (zc x0 d (px * up) (Z.of_nat b - (Z.of_nat v - Z.of_nat (kc / 2)))) (zc y0 d (py * up) (Z.of_nat a - (Z.of_nat u - Z.of_nat (kr / 2))))))))).
    2: { intros a _. rewrite fsum_swap. apply fsum_ext. intros u _. apply fsum_swap. }
    rewrite fsum_swap. apply fsum_ext. intros u Hu. rewrite fsum_swap. apply fsum_ext. intros v Hv. rewrite <- (S u v Hu Hv), <- fsum_scal_l. apply fsum_ext. intros a _. rewrite <- fsum_scal_l. reflexivity.
  - rewrite (fsum_ext kr _ (fun u => fsum kc (fun v => psf u v) * F)) by (intros; apply fsum_scal_r). rewrite fsum_scal_r. change (fsum kr (fun u => fsum kc (fun v => psf u v))) with (total kr kc psf).
    field. exact T.
Qed.

(** ** images *)
Section Image.
Variables (leg : nat -> (nat -> R) * (nat -> R)) (ps : R) (px py up : nat) (lv : option nat) (mode : string) (kr kc : nat).
Variables (ray : R -> R -> R * R) (src ll : option light) (so lo le : bool) (chunk : option nat).
Hypothesis PX : (1 <= px)%nat. Hypothesis PY : (1 <= py)%nat. Hypothesis UP : (1 <= up)%nat. Hypothesis KR : (1 <= kr)%nat. Hypothesis KC : (1 <= kc)%nat.
Hypothesis CH : chunk <> Some 0%nat. Hypothesis MO : mode_agrees mode px py kr kc.
Notation B := (scene_brightness ray src ll so lo le).
Notation d := (ps / INR up).
Notation run psf x0 y0 conv := (call ray (new_sim leg ps px (Some py) up lv mode (kr, kc)) src ll kr kc psf x0 y0 so lo le conv chunk).

Lemma run_psf psf x0 y0 : total kr kc psf <> 0 -> exists im, run psf x0 y0 true = Ok im /\ rows im = py /\ cols im = px /\
  forall i j, (i < py)%nat -> (j < px)%nat -> at_ im i j = pixel_value up px py x0 y0 d (blurred kr kc psf d (sub_mean leg lv B d)) i j.
Proof.
  intros T. destruct MO as [-> | (-> & E1 & E2)]; [apply new_conv2d; assumption|apply new_fft; assumption].
Qed.
Lemma run_single psf u v x0 y0 : single_pixel kr kc psf u v -> exists im im0,
  run psf x0 y0 true = Ok im /\ run psf (x0 - (INR v - INR (kc / 2)) * d) (y0 - (INR u - INR (kr / 2)) * d) false = Ok im0 /\
  rows im = py /\ cols im = px /\ rows im0 = py /\ cols im0 = px /\ forall i j, (i < py)%nat -> (j < px)%nat -> at_ im i j = at_ im0 i j.
Proof.
  intros SP. assert (T : total kr kc psf <> 0) by (rewrite (total_is _ _ _ u v SP); apply SP).
  destruct (run_psf psf x0 y0 T) as (im & E1 & E2 & E3 & E4).
  destruct (new_plain leg ps px py up lv kr kc psf ray src ll (x0 - (INR v - INR (kc / 2)) * d) (y0 - (INR u - INR (kr / 2)) * d) so lo le chunk PX PY UP KR KC CH mode) as (im0 & F1 & F2 & F3 & F4).
  exists im, im0. repeat split; try assumption. intros i j Hi Hj. rewrite (E4 i j Hi Hj), (F4 i j Hi Hj). unfold pixel_value. f_equal. apply fsum_ext. intros a _. apply fsum_ext. intros b _.
  rewrite (blurred_single _ _ _ u v _ _ _ _ SP). unfold sub_centre. f_equal; ring.
Qed.
Lemma run_range psf x0 y0 a b : 0 < ps -> rule_inside leg lv -> (forall u v, (u < kr)%nat -> (v < kc)%nat -> 0 <= psf u v) -> total kr kc psf <> 0 -> (forall x y, a <= B x y <= b) ->
  exists im, run psf x0 y0 true = Ok im /\ rows im = py /\ cols im = px /\ forall i j, (i < py)%nat -> (j < px)%nat -> a <= at_ im i j <= b.
Proof.
  intros PS RU P T H. destruct (run_psf psf x0 y0 T) as (im & E1 & E2 & E3 & E4). exists im. split; [exact E1|]. split; [exact E2|]. split; [exact E3|].
  assert (D : 0 < d) by (apply Rdiv_lt_0_compat; [exact PS|apply lt_0_INR; lia]).
  intros i j Hi Hj. rewrite (E4 i j Hi Hj). apply pixel_value_range; [exact UP|]. intros x y. apply blurred_range; try assumption. intros x' y'. apply sub_mean_range; [exact RU|lra|exact H].
Qed.
Lemma run_mix psf1 psf2 x0 y0 : total kr kc psf1 <> 0 -> total kr kc psf2 <> 0 -> total kr kc (fun u v => psf1 u v + psf2 u v) <> 0 ->
  exists im im1 im2, run (fun u v => psf1 u v + psf2 u v) x0 y0 true = Ok im /\ run psf1 x0 y0 true = Ok im1 /\ run psf2 x0 y0 true = Ok im2 /\
  (rows im = py /\ rows im1 = py /\ rows im2 = py) /\ (cols im = px /\ cols im1 = px /\ cols im2 = px) /\
  forall i j, (i < py)%nat -> (j < px)%nat ->
  at_ im i j = (total kr kc psf1 * at_ im1 i j + total kr kc psf2 * at_ im2 i j) / (total kr kc psf1 + total kr kc psf2).
Proof.
  intros T1 T2 T. assert (TS : total kr kc (fun u v => psf1 u v + psf2 u v) = total kr kc psf1 + total kr kc psf2).
  { unfold total. rewrite <- fsum_plus. apply fsum_ext. intros u _. apply fsum_plus. }
  destruct (run_psf _ x0 y0 T) as (im & E1 & E2 & E3 & E4). destruct (run_psf _ x0 y0 T1) as (im1 & F1 & F2 & F3 & F4). destruct (run_psf _ x0 y0 T2) as (im2 & G1 & G2 & G3 & G4).
  exists im, im1, im2. repeat split; try assumption. intros i j Hi Hj. rewrite (E4 i j Hi Hj), (F4 i j Hi Hj), (G4 i j Hi Hj). rewrite TS in T.
  assert (U0 : INR (up * up) <> 0) by (apply not_0_INR; lia).
  set (M := sub_mean leg lv B d).
  assert (Q : forall x y, blurred kr kc (fun u v => psf1 u v + psf2 u v) d M x y = (total kr kc psf1 * blurred kr kc psf1 d M x y + total kr kc psf2 * blurred kr kc psf2 d M x y) / (total kr kc psf1 + total kr kc psf2)).
  { intros x y. rewrite !blurred_total, TS.
    rewrite (fsum_ext kr _ (fun u => fsum kc (fun v => psf1 u v * M (x - (INR v - INR (kc / 2)) * d) (y - (INR u - INR (kr / 2)) * d)) + fsum kc (fun v => psf2 u v * M (x - (INR v - INR (kc / 2)) * d) (y - (INR u - INR (kr / 2)) * d)))).
    2: { intros u _. rewrite <- fsum_plus. apply fsum_ext. intros; ring. }
    rewrite fsum_plus. set (s1 := fsum kr _). set (s2 := fsum kr _). clearbody s1 s2. unfold Rdiv. rewrite <- !(Rmult_comm (_ * / total kr kc psf1)), <- !(Rmult_comm (_ * / total kr kc psf2)).
    replace (s1 * / total kr kc psf1 * total kr kc psf1) with s1 by (field; exact T1). replace (s2 * / total kr kc psf2 * total kr kc psf2) with s2 by (field; exact T2). reflexivity. }
  unfold pixel_value. set (w := total kr kc psf1 + total kr kc psf2) in *.
  rewrite (fsum_ext up _ (fun a => (total kr kc psf1 * fsum up (fun b => blurred kr kc psf1 d M (sub_centre x0 d (px * up) (j * up + b)) (sub_centre y0 d (py * up) (i * up + a))) +
    total kr kc psf2 * fsum up (fun b => blurred kr kc psf2 d M (sub_centre x0 d (px * up) (j * up + b)) (sub_centre y0 d (py * up) (i * up + a)))) / w)).
  2: { intros a _. rewrite <- !fsum_scal_l, <- fsum_plus, <- fsum_div. apply fsum_ext. intros b _. apply Q. }
  rewrite fsum_div, fsum_plus, !fsum_scal_l. field. split; assumption.
Qed.
Lemma run_flux psf x0 y0 : 0 < ps -> rule_inside leg lv -> total kr kc psf <> 0 ->
  dark_outside B x0 y0 ((INR (px * up) / 2 - INR (kc / 2)) * d) ((INR (py * up) / 2 - INR (kr / 2)) * d) ->
  exists im im0, run psf x0 y0 true = Ok im /\ run psf x0 y0 false = Ok im0 /\ rows im = py /\ cols im = px /\ rows im0 = py /\ cols im0 = px /\
  fsum py (fun i => fsum px (fun j => at_ im i j)) = fsum py (fun i => fsum px (fun j => at_ im0 i j)).
Proof.
  intros PS RU T DK. destruct (run_psf psf x0 y0 T) as (im & E1 & E2 & E3 & E4).
  destruct (new_plain leg ps px py up lv kr kc psf ray src ll x0 y0 so lo le chunk PX PY UP KR KC CH mode) as (im0 & F1 & F2 & F3 & F4).
  exists im, im0. repeat split; try assumption.
  rewrite (fsum_ext py _ (fun i => fsum px (fun j => pixel_value up px py x0 y0 d (blurred kr kc psf d (sub_mean leg lv B d)) i j))) by (intros i Hi; apply fsum_ext; intros j Hj; apply E4; assumption).
  rewrite (fsum_ext py (fun i => fsum px (fun j => at_ im0 i j)) (fun i => fsum px (fun j => pixel_value up px py x0 y0 d (sub_mean leg lv B d) i j))) by (intros i Hi; apply fsum_ext; intros j Hj; apply F4; assumption).
  rewrite !all_pixels, all_blurred; try assumption; [reflexivity|]. apply Rdiv_lt_0_compat; [exact PS|apply lt_0_INR; lia].
Qed.
End Image.
