(** * Change of the unit of angle: PixelatedConvergence *)
From Coq Require Import Reals ZArith List Arith Lia Lra Psatz String FunctionalExtensionality.
From Coquelicot Require Import Coquelicot.
From Verif Require Import Py Fsum RealFun Geo_Model Interp2_Model Dft_Model Dft_Proofs PixConv_Model PixConv_Spec PixConv_Proofs PixConv2_Proofs Scale_Proofs.
Local Open Scope R_scope.

Section Pix.
Variables (l ps : R) (n : nat).
Hypotheses (L : 0 < l) (P : 0 < ps) (N : (1 <= n)%nat).
Lemma kernels_scale : let '(kx, ky, _) := build_kernels_pixelated_convergence ps n in let '(kx', ky', _) := build_kernels_pixelated_convergence (l * ps) n in
  kx' = (fun i j => / l * kx i j) /\ ky' = (fun i j => / l * ky i j).
Proof.
  assert (A := fun i j => kernel_val ps n i j P N). assert (B := fun i j => kernel_val (l * ps) n i j (Rmult_lt_0_compat _ _ L P) N).
  destruct (build_kernels_pixelated_convergence ps n) as [[kx ky] kp]. destruct (build_kernels_pixelated_convergence (l * ps) n) as [[kx' ky'] kp']. cbv zeta in A, B.
  assert (H : forall i j, 0 < ((INR j - INR n + 1 / 2) * ps) ^ 2 + ((INR i - INR n + 1 / 2) * ps) ^ 2).
  { intros i j. apply d2_pos. assert (E := half_int_ne ps j n P). intros Z. apply E. rewrite <- Z. rewrite mult_INR. cbn [INR]. field. }
  split; extensionality i; extensionality j; destruct (A i j) as (A1 & A2 & _), (B i j) as (B1 & B2 & _).
  - rewrite A1, B1. specialize (H i j). replace ((INR j - INR n + 1 / 2) * (l * ps)) with (l * ((INR j - INR n + 1 / 2) * ps)) by ring. replace ((INR i - INR n + 1 / 2) * (l * ps)) with (l * ((INR i - INR n + 1 / 2) * ps)) by ring.
    set (X := (INR j - INR n + 1 / 2) * ps) in *. set (Y := (INR i - INR n + 1 / 2) * ps) in *. clearbody X Y. replace ((l * X) ^ 2 + (l * Y) ^ 2) with (l ^ 2 * (X ^ 2 + Y ^ 2)) by ring. set (d := X ^ 2 + Y ^ 2) in *. clearbody d. field. split; lra.
  - rewrite A2, B2. specialize (H i j). replace ((INR j - INR n + 1 / 2) * (l * ps)) with (l * ((INR j - INR n + 1 / 2) * ps)) by ring. replace ((INR i - INR n + 1 / 2) * (l * ps)) with (l * ((INR i - INR n + 1 / 2) * ps)) by ring.
    set (X := (INR j - INR n + 1 / 2) * ps) in *. set (Y := (INR i - INR n + 1 / 2) * ps) in *. clearbody X Y. replace ((l * X) ^ 2 + (l * Y) ^ 2) with (l ^ 2 * (X ^ 2 + Y ^ 2)) by ring. set (d := X ^ 2 + Y ^ 2) in *. clearbody d. field. split; lra.
Qed.
Lemma conv2d_image H W c im h w k p q : conv2d_same H W (fun i j => c * im i j) h w k p q = c * conv2d_same H W im h w k p q.
Proof.
  unfold conv2d_same. rewrite <- fsum_scal_l. apply fsum_ext. intros a Ha. rewrite <- fsum_scal_l. apply fsum_ext. intros b Hb. unfold at_Z. destruct (_ && _)%bool; ring.
Qed.
Lemma convolved_scale A K padding mode :
  match convolved A (with_tilde n K) ps n padding mode, convolved A (with_tilde n (fun i j => / l * K i j)) (l * ps) n padding mode with
  | Ok (a, X), Ok (b, Y) => a = b /\ forall i j, Y i j = l * X i j
  | Raise e, Raise f => e = f
  | _, _ => False end.
Proof.
  unfold convolved, with_tilde. destruct (fft_size n) as [s0 s1] eqn:FS. cbn [k_tilde k_raw]. destruct (String.eqb mode "fft").
  - destruct (fft2_padded A n padding) as [T|e]; cbn [bind]; [|reflexivity]. split; [reflexivity|]. intros p q. unfold unpad_fft. rewrite FS.
    rewrite (irfft2_ext _ (fun k1 l1 => RtoC (/ l) * (T k1 l1 * rfft2 (2 * n) (2 * n) K s0 s1 k1 l1) + RtoC 0 * (T k1 l1 * rfft2 (2 * n) (2 * n) K s0 s1 k1 l1))%C).
    + rewrite irfft2_lin. unfold Rdiv. field. split; [apply PI_neq0|lra].
    + intros k1 l1. assert (E := rfft2_lin (2 * n) (2 * n) (/ l) 0 K K s0 s1 k1 l1). replace (combo (/ l) 0 K K) with (fun i j : nat => / l * K i j) in E by (extensionality i; extensionality j; unfold combo; ring). rewrite E. ring.
  - destruct (String.eqb mode "conv2d"); [|reflexivity]. split; [reflexivity|]. intros p q. rewrite conv2d_image. unfold Rdiv. field. split; [apply PI_neq0|lra].
Qed.
Lemma sample_scale x0 y0 fov m X Y x y : 0 < fov -> (forall i j, Y i j = l * X i j) ->
  sample (l * x0) (l * y0) (l * fov) (m, Y) (l * x) (l * y) = bind (sample x0 y0 fov (m, X) x y) (fun a => Ok (l * a)).
Proof.
  intros F H. rewrite !sample_val. cbn [bind fst snd]. f_equal. rewrite !sub_scale.
  replace (l * (y - y0) / (l * fov / 2)) with ((y - y0) / (fov / 2)) by (field; lra). replace (l * (x - x0) / (l * fov / 2)) with ((x - x0) / (fov / 2)) by (field; lra).
  destruct (_ || _)%bool; [ring|]. rewrite (linear2_ext _ _ Y (combo l 0 X X)) by (intros i j; rewrite H; unfold combo; ring). rewrite linear2_lin. ring.
Qed.
Lemma pix_deflection_scales padding mode wk L0 L1 x0 y0 A sc x y : new_pixconv ps 2 (n, n) padding mode wk = Ok L0 -> new_pixconv (l * ps) 2 (n, n) padding mode wk = Ok L1 ->
  pc_reduced_deflection_angle L1 (l * x0) (l * y0) A sc (l * x) (l * y) = bind (pc_reduced_deflection_angle L0 x0 y0 A sc x y) (fun a => Ok (l * fst a, l * snd a)).
Proof.
  intros H0 H1. assert (K := kernels_scale). unfold new_pixconv in H0, H1. cbn [Nat.eqb negb fst snd] in H0, H1. rewrite Nat.eqb_refl in H0, H1. cbn [negb] in H0, H1.
  destruct (build_kernels_pixelated_convergence ps n) as [[kx ky] kp]. destruct (build_kernels_pixelated_convergence (l * ps) n) as [[kx' ky'] kp']. destruct K as [-> ->].
  destruct (known_mode mode); [|discriminate]. injection H0 as <-. injection H1 as <-. unfold pc_reduced_deflection_angle. cbn [pc_n pc_pixelscale pc_padding pc_mode pc_ax pc_ay].
  set (B := fun i j => A i j * sc). clearbody B. set (b := (_ && _ && _)%bool). clearbody b. replace (INR n * (l * ps)) with (l * (INR n * ps)) by ring.
  assert (F : 0 < INR n * ps) by (apply Rmult_lt_0_compat; [apply lt_0_INR; lia|exact P]). set (fov := INR n * ps) in *. clearbody fov.
  change (n + (n + 0))%nat with (2 * n)%nat. set (win := build_window_pixelated_convergence wk (2 * n) (2 * n)). clearbody win.
  set (wx := if b then fun i j => kx i j * win i j else kx). set (wy := if b then fun i j => ky i j * win i j else ky).
  replace (if b then fun i j => / l * kx i j * win i j else fun i j => / l * kx i j) with (fun i j => / l * wx i j) by (unfold wx; destruct b; [extensionality i; extensionality j; ring|reflexivity]).
  replace (if b then fun i j => / l * ky i j * win i j else fun i j => / l * ky i j) with (fun i j => / l * wy i j) by (unfold wy; destruct b; [extensionality i; extensionality j; ring|reflexivity]).
  clearbody wx wy. unfold reduced_deflection_angle_pixelated_convergence.
  assert (CX := convolved_scale B wx padding mode). assert (CY := convolved_scale B wy padding mode).
  destruct (convolved B (with_tilde n wx) ps n padding mode) as [[a X]|e], (convolved B (with_tilde n (fun i j => / l * wx i j)) (l * ps) n padding mode) as [[a' X']|e']; cbn [bind]; try contradiction; [|subst; reflexivity].
  destruct (convolved B (with_tilde n wy) ps n padding mode) as [[c Y]|f], (convolved B (with_tilde n (fun i j => / l * wy i j)) (l * ps) n padding mode) as [[c' Y']|f']; cbn [bind]; try contradiction; [|subst; reflexivity].
  destruct CX as [-> CX], CY as [-> CY]. rewrite (sample_scale x0 y0 fov a' X X' x y F CX), (sample_scale x0 y0 fov c' Y Y' x y F CY). rewrite !sample_val. reflexivity.
Qed.
Lemma pix_convergence_scales padding mode wk L0 L1 x0 y0 A sc x y : new_pixconv ps 2 (n, n) padding mode wk = Ok L0 -> new_pixconv (l * ps) 2 (n, n) padding mode wk = Ok L1 ->
  pc_convergence L1 (l * x0) (l * y0) A sc (l * x) (l * y) = pc_convergence L0 x0 y0 A sc x y.
Proof.
  intros H0 H1. apply new_fields in H0, H1. destruct H0 as (N0 & P0 & _), H1 as (N1 & P1 & _). unfold pc_convergence. rewrite N0, N1, P0, P1, !sub_scale. assert (F : 0 < INR n) by (apply lt_0_INR; lia). cbv zeta.
  replace (l * (x - x0) / (INR n * (l * ps)) * 2) with ((x - x0) / (INR n * ps) * 2) by (field; lra). replace (l * (y - y0) / (INR n * (l * ps)) * 2) with ((y - y0) / (INR n * ps) * 2) by (field; lra). reflexivity.
Qed.
End Pix.
