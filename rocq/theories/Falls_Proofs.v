(** * Convergence falls with the distance: simple lenses, and everything that is a projection of a falling density *)
From Coq Require Import Reals Lra Psatz.
From Coquelicot Require Import Coquelicot.
From Verif Require Import Const_Model RealFun Geo_Model LensBase_Model LensBasic_Model Epl_Model Jaffe_Model Light_Model Project_Spec Scale_Proofs Scale2_Proofs Falls_Spec.
Local Open Scope R_scope.

Lemma inv_falls c a b : 0 < c -> 0 < a -> a < b -> 0 < c / b < c / a.
Proof. intros C A B. split; [apply Rdiv_lt_0_compat; lra|]. apply Rmult_lt_compat_l; [exact C|]. apply Rinv_lt_contravar; [apply Rmult_lt_0_compat; lra|exact B]. Qed.
Lemma sis_falls x0 y0 Rein s : 0 < Rein -> 0 <= s -> falls_outward (convergence_sis x0 y0 Rein s) x0 y0.
Proof. intros H S x y x' y' P L. unfold convergence_sis. cbn [translate_rotate]. cbv zeta. unfold distance in *. apply inv_falls; lra. Qed.

(** the elliptical radius on a ray *)
Section Ray.
Variables (x0 y0 q phi a b : R).
Hypotheses (Q : 0 < q) (AB : a <> 0 \/ b <> 0).
Let X := a * cos phi + b * sin phi.
Let Y := - a * sin phi + b * cos phi.
Lemma on_ray k : translate_rotate (x0 + k * a) (y0 + k * b) x0 y0 (Some phi) = (k * X, k * Y).
Proof. unfold translate_rotate, X, Y. replace (x0 + k * a - x0) with (k * a) by ring. replace (y0 + k * b - y0) with (k * b) by ring. apply (f_equal2 pair); ring. Qed.
Lemma ray_nonzero : 0 < q ^ 2 * X ^ 2 + Y ^ 2.
Proof.
  assert (S : X ^ 2 + Y ^ 2 = a ^ 2 + b ^ 2). { assert (T := sin2_cos2 phi). unfold Rsqr in T. unfold X, Y. replace ((a * cos phi + b * sin phi) ^ 2 + (- a * sin phi + b * cos phi) ^ 2) with ((a ^ 2 + b ^ 2) * (sin phi * sin phi + cos phi * cos phi)) by ring. rewrite T. ring. }
  assert (0 < a ^ 2 + b ^ 2) by (destruct AB; nra). assert (Q2 : 0 < q ^ 2) by nra. assert (A := pow2_ge_0 X). assert (B := pow2_ge_0 Y).
  destruct (Req_dec X 0) as [E|E]; [rewrite E in *; nra|]. assert (0 < X ^ 2) by nra. assert (0 < q ^ 2 * X ^ 2) by (apply Rmult_lt_0_compat; assumption). lra.
Qed.
Lemma ray_radius e k k' : 0 <= e -> 0 < k -> k < k' -> 0 < sqrt (k ^ 2 * (q ^ 2 * X ^ 2 + Y ^ 2) + e) < sqrt (k' ^ 2 * (q ^ 2 * X ^ 2 + Y ^ 2) + e).
Proof.
  intros E K L. assert (N := ray_nonzero). set (w := q ^ 2 * X ^ 2 + Y ^ 2) in *. assert (0 < k ^ 2) by nra. assert (k ^ 2 < k' ^ 2) by nra. assert (0 < k ^ 2 * w) by (apply Rmult_lt_0_compat; assumption).
  assert (k ^ 2 * w < k' ^ 2 * w) by (apply Rmult_lt_compat_r; assumption). split; [apply sqrt_lt_R0; lra|apply sqrt_lt_1; lra].
Qed.
End Ray.
Lemma sie_falls x0 y0 q phi Rein s : 0 < q -> 0 < Rein -> falls_along_rays (convergence_sie x0 y0 q phi Rein s) x0 y0.
Proof.
  intros Q H a b k k' AB K L. unfold convergence_sie. rewrite !on_ray. cbv zeta. set (X := a * cos phi + b * sin phi). set (Y := - a * sin phi + b * cos phi).
  assert (E : forall k, q ^ 2 * ((k * X) ^ 2 + s ^ 2) + (k * Y) ^ 2 = k ^ 2 * (q ^ 2 * X ^ 2 + Y ^ 2) + (q * s) ^ 2) by (intros; ring). rewrite !E.
  assert (R := ray_radius q phi a b Q AB ((q * s) ^ 2) k k' (pow2_ge_0 _) K L). fold X Y in R. assert (SQ := sqrt_lt_R0 q Q). apply inv_falls; try lra. apply Rmult_lt_0_compat; [apply Rmult_lt_0_compat; lra|exact H].
Qed.
Lemma power_pos a t : 0 < a -> power a t = Rpower a t.
Proof. intros A. unfold power. destruct (Req_EM_T a 0); [lra|reflexivity]. Qed.
Lemma epl_falls x0 y0 q phi Rein t s : 0 < q -> 0 < Rein -> 0 < t < 2 -> falls_along_rays (convergence_epl x0 y0 q phi Rein t s) x0 y0.
Proof.
  intros Q H T a b k k' AB K L. unfold convergence_epl. rewrite !on_ray. cbv zeta. set (X := a * cos phi + b * sin phi). set (Y := - a * sin phi + b * cos phi).
  assert (E : forall k, q ^ 2 * (k * X) ^ 2 + (k * Y) ^ 2 + s ^ 2 = k ^ 2 * (q ^ 2 * X ^ 2 + Y ^ 2) + s ^ 2) by (intros; ring). rewrite !E.
  assert (R := ray_radius q phi a b Q AB (s ^ 2) k k' (pow2_ge_0 _) K L). fold X Y in R. assert (SQ := sqrt_lt_R0 q Q).
  destruct (inv_falls (Rein * sqrt q) (sqrt (k ^ 2 * (q ^ 2 * X ^ 2 + Y ^ 2) + s ^ 2)) (sqrt (k' ^ 2 * (q ^ 2 * X ^ 2 + Y ^ 2) + s ^ 2)) ltac:(apply Rmult_lt_0_compat; lra) ltac:(lra) ltac:(lra)) as [P1 P2].
  rewrite !power_pos by lra. split; [apply Rmult_lt_0_compat; [lra|apply exp_pos]|]. apply Rmult_lt_compat_l; [lra|]. apply Rlt_Rpower_l; lra.
Qed.
Lemma jaffe_falls x0 y0 mass Rc Rs d_l sigma s : 0 < mass -> 0 < Rc -> 0 < Rs -> Rc <> Rs -> 0 < d_l -> 0 < sigma -> 0 <= s ->
  falls_outward (fun x y => convergence_pseudo_jaffe x0 y0 mass Rc Rs x y d_l sigma s) x0 y0.
Proof.
  intros M C R N D G S x y x' y' P L. unfold convergence_pseudo_jaffe. cbn [translate_rotate]. cbv zeta. set (K := convergence_0_pseudo_jaffe mass Rc Rs d_l sigma).
  assert (KP : 0 < K). { unfold K, convergence_0_pseudo_jaffe. assert (A := arcsec_to_rad_pos). assert (PI0 := PI_RGT_0). set (p := PI) in *. clearbody p. apply Rdiv_lt_0_compat; [exact M|]. apply Rmult_lt_0_compat; [|apply pow_lt, Rmult_lt_0_compat; assumption]. repeat apply Rmult_lt_0_compat; try assumption; lra. }
  unfold distance in *. set (w := (x - x0) ^ 2 + (y - y0) ^ 2) in *. set (w' := (x' - x0) ^ 2 + (y' - y0) ^ 2) in *. assert (W : 0 <= w) by (unfold w; apply Rplus_le_le_0_compat; apply pow2_ge_0). assert (W' : w < w') by (apply sqrt_lt_0_alt, L).
  assert (KR : 0 < K * Rc * Rs) by (apply Rmult_lt_0_compat; [apply Rmult_lt_0_compat|]; assumption).
  assert (Main : forall u v, 0 < u -> u < v -> 0 < 1 / sqrt (u ^ 2 + (w' + s)) - 1 / sqrt (v ^ 2 + (w' + s)) < 1 / sqrt (u ^ 2 + (w + s)) - 1 / sqrt (v ^ 2 + (w + s))).
  { intros u v U V. assert (u ^ 2 < v ^ 2) by nra. assert (0 < u ^ 2) by nra. split.
    - assert (0 < sqrt (u ^ 2 + (w' + s)) < sqrt (v ^ 2 + (w' + s))) by (split; [apply sqrt_lt_R0; lra|apply sqrt_lt_1; lra]). destruct (inv_falls 1 _ _ Rlt_0_1 (proj1 H1) (proj2 H1)). lra.
    - assert (B := bracket_decreasing (u ^ 2 + (w + s)) (v ^ 2 + (w + s)) (w' - w) ltac:(lra) ltac:(lra) ltac:(lra)). replace (u ^ 2 + (w + s) + (w' - w)) with (u ^ 2 + (w' + s)) in B by ring. replace (v ^ 2 + (w + s) + (w' - w)) with (v ^ 2 + (w' + s)) in B by ring. exact B. }
  destruct (Rtotal_order Rc Rs) as [T|[T|T]]; [|contradiction|].
  - destruct (Main Rc Rs C T) as [A B]. assert (KK : 0 < K * Rc * Rs / (Rs - Rc)) by (apply Rdiv_lt_0_compat; lra). split; [apply Rmult_lt_0_compat; assumption|apply Rmult_lt_compat_l; assumption].
  - destruct (Main Rs Rc R T) as [A B]. assert (KK : 0 < K * Rc * Rs / (Rc - Rs)) by (apply Rdiv_lt_0_compat; lra).
    assert (FL : forall z, K * Rc * Rs / (Rs - Rc) * (1 / sqrt (Rc ^ 2 + (z + s)) - 1 / sqrt (Rs ^ 2 + (z + s))) = K * Rc * Rs / (Rc - Rs) * (1 / sqrt (Rs ^ 2 + (z + s)) - 1 / sqrt (Rc ^ 2 + (z + s)))).
    { intros z. set (g1 := 1 / sqrt _). set (g2 := 1 / sqrt _). field. split; lra. }
    rewrite !FL. split; [apply Rmult_lt_0_compat; assumption|apply Rmult_lt_compat_l; assumption].
Qed.

(** ** projections *)
(** the integral over the line of sight of a positive function exceeds that over its middle part *)
Lemma middle_part (f I : R -> R) (S : R) : (forall z, continuous f z) -> (forall z, 0 <= f z) -> (forall Z, 0 < Z -> is_RInt (V := R_NormedModule) f (- Z) Z (I Z)) -> is_lim I p_infty S -> I 1 <= S.
Proof.
  intros C P H L. assert (M : forall Z, 1 < Z -> I 1 <= I Z).
  { intros Z HZ. assert (X : forall a b, ex_RInt (V := R_CompleteNormedModule) f a b) by (intros; apply (ex_RInt_continuous (V := R_CompleteNormedModule)); intros; apply C).
    assert (N : forall a b, a <= b -> 0 <= RInt f a b) by (intros; apply RInt_ge_0; auto).
    rewrite <- (is_RInt_unique (V := R_CompleteNormedModule) _ _ _ _ (H 1 Rlt_0_1)), <- (is_RInt_unique (V := R_CompleteNormedModule) _ _ _ _ (H Z ltac:(lra))).
    rewrite <- (RInt_Chasles (V := R_CompleteNormedModule) f (- Z) (Ropp 1) Z) by apply X. rewrite <- (RInt_Chasles (V := R_CompleteNormedModule) f (Ropp 1) 1 Z) by apply X.
    set (m1 := Ropp 1) in *. assert (M1 : - Z <= m1) by (unfold m1; lra). clearbody m1. assert (N1 : 0 <= RInt f (- Z) m1) by (apply N, M1). assert (N2 : 0 <= RInt f 1 Z) by (apply N; lra). unfold plus. simpl. lra. }
  apply (is_lim_le_loc (fun _ => I 1) I p_infty (Finite (I 1)) (Finite S)); [exists 1; exact M|apply is_lim_const|exact L].
Qed.
Lemma middle_bound (f : R -> R) (c I : R) : (forall z, -1 <= z <= 1 -> c <= f z) -> is_RInt (V := R_NormedModule) f (Ropp 1) 1 I -> 2 * c <= I.
Proof.
  intros B H. assert (K := is_RInt_const (V := R_NormedModule) (Ropp 1) 1 c). unfold scal in K. simpl in K. unfold mult in K. simpl in K. replace (2 * c) with ((1 - - 1) * c) by ring.
  apply (is_RInt_le (fun _ => c) f (Ropp 1) 1); [lra|exact K|exact H|]. intros z Hz. apply B. lra.
Qed.
Lemma middle_positive (f I : R -> R) (S : R) : (forall z, continuous f z) -> (forall z, 0 < f z) -> (forall Z, 0 < Z -> is_RInt (V := R_NormedModule) f (- Z) Z (I Z)) -> is_lim I p_infty S -> 0 < S.
Proof.
  intros C P H L. apply Rlt_le_trans with (I 1); [|apply (middle_part f); try assumption; intros; apply Rlt_le, P].
  rewrite <- (is_RInt_unique (V := R_CompleteNormedModule) _ _ _ _ (H 1 Rlt_0_1)). apply RInt_gt_0; [lra|intros; apply P|intros; apply C].
Qed.
Lemma sight_pos d z : 0 < d -> 0 < sqrt (d ^ 2 + z ^ 2).
Proof. intros D. apply sqrt_lt_R0. nra. Qed.
Lemma sight_continuous (rho : R -> R) d z : 0 < d -> (forall r, 0 < r -> continuous rho r) -> continuous (fun z => rho (sqrt (d ^ 2 + z ^ 2))) z.
Proof.
  intros D C. apply (continuous_comp (fun z => sqrt (d ^ 2 + z ^ 2)) rho); [|apply C, sight_pos, D].
  apply (ex_derive_continuous (K := R_AbsRing) (V := R_NormedModule)). auto_derive. repeat split; try nra.
Qed.
Section Falling.
Variable rho : R -> R.
Hypotheses (Hp : forall r, 0 < r -> 0 < rho r) (Hf : forall r r', 0 < r -> r < r' -> rho r' < rho r) (Hc : forall r, 0 < r -> continuous rho r).
Lemma projection_positive d S : 0 < d -> projects rho d S -> 0 < S.
Proof. intros D (I & H & L). apply (middle_positive (fun z => rho (sqrt (d ^ 2 + z ^ 2))) I); try assumption; intros z; [apply sight_continuous; assumption|apply Hp, sight_pos, D]. Qed.
Lemma projection_falls d d' S S' : 0 < d -> d < d' -> projects rho d S -> projects rho d' S' -> 0 < S' < S.
Proof.
  intros D DD P P'. split; [apply (projection_positive d'); [lra|exact P']|]. destruct P as (I & H & L). destruct P' as (I' & H' & L').
  assert (Z : 0 < S - S'); [|lra].
  apply (middle_positive (fun z => rho (sqrt (d ^ 2 + z ^ 2)) - rho (sqrt (d' ^ 2 + z ^ 2))) (fun Z => I Z - I' Z)).
  - intros z. apply (continuous_minus (V := R_NormedModule)); apply sight_continuous; try assumption; lra.
  - intros z. assert (rho (sqrt (d' ^ 2 + z ^ 2)) < rho (sqrt (d ^ 2 + z ^ 2))); [|lra]. apply Hf; [apply sight_pos, D|]. apply sqrt_lt_1; nra.
  - intros Z HZ. apply (is_RInt_minus (V := R_NormedModule)); [apply H|apply H']; exact HZ.
  - apply (is_lim_minus I I' p_infty (Finite S) (Finite S')); [exact L|exact L'|reflexivity].
Qed.
End Falling.
