(** * The effect of a softening length (for C115) *)
From Coq Require Import Reals Lra Psatz.
From Coquelicot Require Import Coquelicot.
From Verif Require Import Const_Model RealFun Derive1 Calc2 Cosmo_Model Geo_Model LensBase_Model LensBasic_Model Lens_Spec Lens_Lib Nfw_Model Nfw_Proofs Nfw2_Proofs Nfw3_Proofs Tnfw_Model Tnfw_Proofs Tnfw2_Proofs Tnfw3_Proofs Epl_Model Falls_Spec Soft_Spec.
Local Open Scope R_scope.

Lemma dist_pos x0 y0 x y : x <> x0 \/ y <> y0 -> 0 < distance x0 y0 x y.
Proof. intros H. apply norm_pos. destruct H; [left|right]; lra. Qed.
Lemma dist_sq x0 y0 x y : distance x0 y0 x y ^ 2 = (x - x0) ^ 2 + (y - y0) ^ 2.
Proof. unfold distance. apply sqrt_sq2. generalize (pow2_ge_0 (x - x0)), (pow2_ge_0 (y - y0)). lra. Qed.
(** two deflections along the same direction *)
Lemma apart_scaled k l x y : apart (k * x, k * y) (l * x, l * y) = Rabs (l - k) * sqrt (x ^ 2 + y ^ 2).
Proof.
  unfold apart, distance; cbn [fst snd]. replace ((l * x - k * x) ^ 2 + (l * y - k * y) ^ 2) with (Rsqr (l - k) * (x ^ 2 + y ^ 2)) by (unfold Rsqr; ring).
  rewrite sqrt_mult_alt by apply Rle_0_sqr. rewrite sqrt_Rsqr_abs. reflexivity.
Qed.
Lemma apart_le a b e f : Rabs (fst a - fst b) <= e -> Rabs (snd a - snd b) <= f -> apart a b <= sqrt (e ^ 2 + f ^ 2).
Proof.
  intros H K. unfold apart, distance. apply sqrt_le_1_alt. apply Rabs_le_between in H. apply Rabs_le_between in K. nra.
Qed.

(** ** SIS and point mass *)
Lemma sis_soft x0 y0 Rein s x y : 0 < Rein -> 0 <= s -> x <> x0 \/ y <> y0 -> let r := distance x0 y0 x y in
  apart (reduced_deflection_angle_sis x0 y0 Rein s x y) (reduced_deflection_angle_sis x0 y0 Rein 0 x y) <= Rein * s / r /\
  Rabs (potential_sis x0 y0 Rein s x y - potential_sis x0 y0 Rein 0 x y) <= Rein * s /\
  Rabs (convergence_sis x0 y0 Rein s x y - convergence_sis x0 y0 Rein 0 x y) <= Rein * s / (2 * r ^ 2).
Proof.
  intros HR Hs H r. assert (P := dist_pos _ _ _ _ H). fold r in P. unfold reduced_deflection_angle_sis, potential_sis, convergence_sis, translate_rotate; cbn [fst snd].
  change (sqrt ((x - x0) ^ 2 + (y - y0) ^ 2)) with r. rewrite Rplus_0_r. split; [|split].
  - replace (Rein * (x - x0) / (r + s)) with (Rein / (r + s) * (x - x0)) by (field; lra). replace (Rein * (y - y0) / (r + s)) with (Rein / (r + s) * (y - y0)) by (field; lra).
    replace (Rein * (x - x0) / r) with (Rein / r * (x - x0)) by (field; lra). replace (Rein * (y - y0) / r) with (Rein / r * (y - y0)) by (field; lra).
    rewrite apart_scaled. change (sqrt ((x - x0) ^ 2 + (y - y0) ^ 2)) with r. replace (Rein / r - Rein / (r + s)) with (Rein * s / (r * (r + s))) by (field; lra).
    rewrite Rabs_pos_eq by (apply Rmult_le_pos; [nra|left; apply Rinv_0_lt_compat; nra]). replace (Rein * s / (r * (r + s)) * r) with (Rein * s / (r + s)) by (field; lra).
    apply Rmult_le_compat_l; [nra|]. apply Rinv_le_contravar; lra.
  - replace (Rein * (r + s) - Rein * r) with (Rein * s) by ring. rewrite Rabs_pos_eq; nra.
  - replace (/ 2 * Rein / (r + s) - / 2 * Rein / r) with (- (Rein * s / (2 * (r * (r + s))))) by (field; lra). rewrite Rabs_Ropp, Rabs_pos_eq by (apply Rmult_le_pos; [nra|left; apply Rinv_0_lt_compat; nra]).
    apply Rmult_le_compat_l; [nra|]. apply Rinv_le_contravar; nra.
Qed.
Lemma point_soft x0 y0 Rein s x y : 0 < Rein -> 0 <= s -> x <> x0 \/ y <> y0 -> let r := distance x0 y0 x y in
  apart (reduced_deflection_angle_point x0 y0 Rein s x y) (reduced_deflection_angle_point x0 y0 Rein 0 x y) <= 2 * Rein ^ 2 * s / r ^ 2 /\
  Rabs (potential_point x0 y0 Rein s x y - potential_point x0 y0 Rein 0 x y) <= Rein ^ 2 * s / r.
Proof.
  intros HR Hs H r. assert (P := dist_pos _ _ _ _ H). fold r in P. unfold reduced_deflection_angle_point, potential_point, translate_rotate; cbn [fst snd].
  change (sqrt ((x - x0) ^ 2 + (y - y0) ^ 2)) with r. rewrite Rplus_0_r. split.
  - replace ((x - x0) * Rein ^ 2 / (r + s) ^ 2) with (Rein ^ 2 / (r + s) ^ 2 * (x - x0)) by (field; lra). replace ((y - y0) * Rein ^ 2 / (r + s) ^ 2) with (Rein ^ 2 / (r + s) ^ 2 * (y - y0)) by (field; lra).
    replace ((x - x0) * Rein ^ 2 / r ^ 2) with (Rein ^ 2 / r ^ 2 * (x - x0)) by (field; lra). replace ((y - y0) * Rein ^ 2 / r ^ 2) with (Rein ^ 2 / r ^ 2 * (y - y0)) by (field; lra).
    rewrite apart_scaled. change (sqrt ((x - x0) ^ 2 + (y - y0) ^ 2)) with r. replace (Rein ^ 2 / r ^ 2 - Rein ^ 2 / (r + s) ^ 2) with (Rein ^ 2 * (s * (2 * r + s)) / (r ^ 2 * (r + s) ^ 2)) by (field; lra).
    assert (0 < (r + s) ^ 2) by nra. assert (0 < r ^ 2) by nra. assert (0 <= s * (2 * r + s)) by nra. assert (0 < Rein ^ 2) by nra.
    rewrite Rabs_pos_eq by (apply Rmult_le_pos; [apply Rmult_le_pos; lra|left; apply Rinv_0_lt_compat, Rmult_lt_0_compat; lra]).
    apply Rmult_le_reg_r with (r ^ 2 * (r + s) ^ 2); [apply Rmult_lt_0_compat; lra|].
    replace (Rein ^ 2 * (s * (2 * r + s)) / (r ^ 2 * (r + s) ^ 2) * r * (r ^ 2 * (r + s) ^ 2)) with (Rein ^ 2 * (s * (2 * r + s) * r)) by (field; split; nra).
    replace (2 * Rein ^ 2 * s / r ^ 2 * (r ^ 2 * (r + s) ^ 2)) with (Rein ^ 2 * (2 * s * (r + s) ^ 2)) by (field; nra). apply Rmult_le_compat_l; [lra|].
    assert (0 <= s * r) by nra. assert (0 <= s * (r * r)) by nra. assert (0 <= s * (s * r)) by nra. assert (0 <= s * (s * s)) by nra. nra.
  - replace (Rein ^ 2 * ln (r + s) - Rein ^ 2 * ln r) with (Rein ^ 2 * ln (1 + s / r)).
    2:{ replace (1 + s / r) with ((r + s) / r) by (field; lra). rewrite ln_div by lra. ring. }
    assert (0 <= s / r) by (apply Rmult_le_pos; [lra|left; apply Rinv_0_lt_compat; lra]). assert (L := ln_upper (1 + s / r) ltac:(lra)).
    assert (0 <= ln (1 + s / r)). { rewrite <- ln_1. destruct (Req_dec (s / r) 0) as [->|N]; [right; f_equal; ring|left; apply ln_increasing; lra]. }
    rewrite Rabs_pos_eq by nra. unfold Rdiv at 2. rewrite Rmult_assoc. apply Rmult_le_compat_l; [nra|]. change (s * / r) with (s / r). lra.
Qed.

(** ** SIE *)
Lemma atan_close a b : Rabs (atan a - atan b) <= Rabs (a - b).
Proof.
  destruct (MVT_gen atan b a (fun z => / (1 + z ^ 2))) as [z [_ E]].
  - intros z _. rewrite <- Rsqr_pow2. apply is_derive_atan.
  - intros z _. apply derivable_continuous_pt. apply derivable_pt_atan.
  - rewrite E, Rabs_mult. assert (0 < / (1 + z ^ 2) <= 1). { split; [apply Rinv_0_lt_compat; nra|]. rewrite <- Rinv_1. apply Rinv_le_contravar; nra. }
    rewrite (Rabs_pos_eq (/ _)) by lra. generalize (Rabs_pos (a - b)). nra.
Qed.
Lemma atanh_close f a b : 0 <= f < 1 -> Rabs a <= f -> Rabs b <= f -> Rabs (atanh a - atanh b) <= / (1 - f ^ 2) * Rabs (a - b).
Proof.
  intros Hf Ha Hb. apply Rabs_le_between in Ha. apply Rabs_le_between in Hb.
  assert (W : forall z, Rmin b a <= z <= Rmax b a -> - f <= z <= f). { intros z [L U]. split; [eapply Rle_trans; [|exact L]; apply Rmin_glb; lra|eapply Rle_trans; [exact U|]; apply Rmax_lub; lra]. }
  destruct (MVT_gen atanh b a (fun z => / (1 - z ^ 2))) as [z [Z E]].
  - intros z Z. apply is_derive_atanh. specialize (W z). lra.
  - intros z Z. apply continuity_pt_filterlim. apply (ex_derive_continuous (K := R_AbsRing) (V := R_NormedModule)). eexists. apply is_derive_atanh. specialize (W z Z). lra.
  - specialize (W z Z). rewrite E, Rabs_mult. apply Rmult_le_compat_r; [apply Rabs_pos|]. rewrite Rabs_pos_eq by (left; apply Rinv_0_lt_compat; nra). apply Rinv_le_contravar; nra.
Qed.
Section Sie.
Variables q s x y : R.
Hypothesis Hq : 0 < q < 1.
Hypothesis Hs : 0 <= s.
Hypothesis Hxy : x <> 0 \/ y <> 0.
Definition psi (t : R) : R := sqrt (q ^ 2 * (x ^ 2 + t ^ 2) + y ^ 2).
Definition ff : R := sqrt (1 - q ^ 2).
Lemma ff_sq : ff ^ 2 = 1 - q ^ 2. Proof. apply sqrt_sq2. nra. Qed.
Lemma ff_pos : 0 < ff. Proof. apply sqrt_lt_R0. nra. Qed.
Lemma psi_sq t : psi t ^ 2 = q ^ 2 * (x ^ 2 + t ^ 2) + y ^ 2.
Proof. apply sqrt_sq2. generalize (pow2_ge_0 x), (pow2_ge_0 y), (pow2_ge_0 t). nra. Qed.
Lemma psi_nonneg t : 0 <= psi t. Proof. apply sqrt_pos. Qed.
Lemma psi_pos : 0 < psi 0.
Proof. apply sqrt_lt_R0. assert (N := norm2_pos x y Hxy). assert (A := pow2_ge_0 x). assert (B := pow2_ge_0 y). assert (C : 0 < q ^ 2 < 1) by nra. nra. Qed.
Lemma psi_mono : psi 0 <= psi s. Proof. apply sqrt_le_1_alt. nra. Qed.
Lemma psi_grow : psi s <= psi 0 + q * s.
Proof. apply Rsqr_incr_0_var; [|generalize (psi_nonneg 0); nra]. rewrite !Rsqr_pow2. assert (A := psi_sq s). assert (B := psi_sq 0). assert (C := Rmult_le_pos _ _ (psi_nonneg 0) (Rmult_le_pos q s ltac:(lra) Hs)). lra. Qed.
Lemma x_psi : q * Rabs x <= psi 0.
Proof. apply Rsqr_incr_0_var; [|apply psi_nonneg]. rewrite !Rsqr_pow2, psi_sq, Rpow_mult_distr, pow2_abs. generalize (pow2_ge_0 y). nra. Qed.
Lemma y_psi : Rabs y <= psi 0.
Proof. apply Rsqr_incr_0_var; [|apply psi_nonneg]. rewrite !Rsqr_pow2, psi_sq, pow2_abs. assert (A := pow2_ge_0 x). assert (0 <= q ^ 2) by nra. nra. Qed.
Lemma psi_radius : q * sqrt (x ^ 2 + y ^ 2) <= psi 0.
Proof.
  assert (N : 0 <= x ^ 2 + y ^ 2) by nra. apply Rsqr_incr_0_var; [|apply psi_nonneg]. rewrite !Rsqr_pow2, psi_sq, Rpow_mult_distr, sqrt_sq2 by exact N. assert (A := pow2_ge_0 x). assert (B := pow2_ge_0 y). assert (0 < q ^ 2 < 1) by nra. nra.
Qed.
(** one component: the argument of the inverse tangent *)
Lemma arg_close u d : 0 <= d <= s -> Rabs (ff * u / (psi s + d) - ff * u / psi 0) <= ff * Rabs u * (q * s + d) / psi 0 ^ 2.
Proof.
  intros Hd. assert (P := psi_pos). assert (M := psi_mono). assert (G := psi_grow). assert (F := ff_pos).
  replace (ff * u / (psi s + d) - ff * u / psi 0) with (- (ff * u * ((psi s + d - psi 0) / (psi 0 * (psi s + d))))) by (field; lra).
  rewrite Rabs_Ropp, !Rabs_mult, (Rabs_pos_eq ff), (Rabs_pos_eq (_ / _)) by (first [lra | apply Rmult_le_pos; [lra|left; apply Rinv_0_lt_compat; nra]]).
  unfold Rdiv. rewrite !(Rmult_assoc (ff * Rabs u)). apply Rmult_le_compat_l; [generalize (Rabs_pos u); nra|].
  apply Rmult_le_compat; [lra|left; apply Rinv_0_lt_compat; nra|lra|]. apply Rinv_le_contravar; nra.
Qed.
Lemma ax_close Rein : 0 < Rein -> Rabs (Rein * sqrt q / ff * atan (ff * x / (psi s + s)) - Rein * sqrt q / ff * atan (ff * x / (psi 0 + 0))) <= Rein * sqrt q * (1 + q) * s / psi 0 ^ 2 * Rabs x.
Proof.
  intros HR. assert (P := psi_pos). assert (F := ff_pos). assert (Q := sqrt_lt_R0 q ltac:(lra)). rewrite Rplus_0_r, <- Rmult_minus_distr_l, Rabs_mult.
  assert (K : 0 < Rein * sqrt q / ff) by (apply Rdiv_lt_0_compat; [apply Rmult_lt_0_compat; lra|lra]). rewrite Rabs_pos_eq by lra.
  eapply Rle_trans; [apply Rmult_le_compat_l; [lra|]; eapply Rle_trans; [apply atan_close|apply arg_close; lra]|]. right. field. lra.
Qed.
Lemma ay_close Rein : 0 < Rein -> Rabs (Rein * sqrt q / ff * atanh (ff * y / (psi s + q ^ 2 * s)) - Rein * sqrt q / ff * atanh (ff * y / (psi 0 + q ^ 2 * 0))) <= Rein * sqrt q * (1 + q) * s / psi 0 ^ 2 * (Rabs y / q).
Proof.
  intros HR. assert (P := psi_pos). assert (F := ff_pos). assert (F2 := ff_sq). assert (Q := sqrt_lt_R0 q ltac:(lra)). assert (M := psi_mono). assert (Y := y_psi).
  replace (psi 0 + q ^ 2 * 0) with (psi 0) by ring. rewrite <- Rmult_minus_distr_l, Rabs_mult.
  assert (K : 0 < Rein * sqrt q / ff) by (apply Rdiv_lt_0_compat; [apply Rmult_lt_0_compat; lra|lra]). rewrite Rabs_pos_eq by lra.
  assert (B : forall d, psi 0 <= d -> Rabs (ff * y / d) <= ff).
  { intros d Hd. unfold Rdiv. rewrite !Rabs_mult, (Rabs_pos_eq ff), (Rabs_pos_eq (/ d)) by (first [lra | left; apply Rinv_0_lt_compat; lra]).
    apply Rmult_le_reg_r with d; [lra|]. rewrite Rmult_assoc, Rinv_l by lra. nra. }
  eapply Rle_trans; [apply Rmult_le_compat_l; [lra|]; eapply Rle_trans; [apply (atanh_close ff); [nra|apply B; nra|apply B; lra]|apply Rmult_le_compat_l; [left; apply Rinv_0_lt_compat; nra|apply arg_close; nra]]|].
  replace (1 - ff ^ 2) with (q ^ 2) by lra. right. field. lra.
Qed.
Lemma sie_close Rein : 0 < Rein ->
  sqrt ((Rein * sqrt q * (1 + q) * s / psi 0 ^ 2 * Rabs x) ^ 2 + (Rein * sqrt q * (1 + q) * s / psi 0 ^ 2 * (Rabs y / q)) ^ 2) <= Rein * sqrt q * (1 + q) / q ^ 2 * s / sqrt (x ^ 2 + y ^ 2).
Proof.
  intros HR. assert (P := psi_pos). assert (Q := sqrt_lt_R0 q ltac:(lra)). assert (N := norm_pos x y Hxy). assert (W := psi_radius). assert (E := psi_sq 0).
  set (k := Rein * sqrt q * (1 + q) * s). assert (0 <= k) by (unfold k; apply Rmult_le_pos; [|exact Hs]; apply Rmult_le_pos; [nra|lra]).
  replace ((k / psi 0 ^ 2 * Rabs x) ^ 2 + (k / psi 0 ^ 2 * (Rabs y / q)) ^ 2) with ((k / (q * psi 0)) ^ 2).
  2:{ replace ((k / psi 0 ^ 2 * Rabs x) ^ 2 + (k / psi 0 ^ 2 * (Rabs y / q)) ^ 2) with ((k / (q * psi 0 ^ 2)) ^ 2 * (q ^ 2 * Rabs x ^ 2 + Rabs y ^ 2)) by (field; lra).
      rewrite !pow2_abs. replace (q ^ 2 * x ^ 2 + y ^ 2) with (psi 0 ^ 2) by lra. field. lra. }
  rewrite sqrt_pow2 by (apply Rmult_le_pos; [lra|left; apply Rinv_0_lt_compat; nra]).
  replace (Rein * sqrt q * (1 + q) / q ^ 2 * s / sqrt (x ^ 2 + y ^ 2)) with (k / (q * (q * sqrt (x ^ 2 + y ^ 2)))) by (unfold k; field; lra).
  apply Rmult_le_compat_l; [lra|]. apply Rinv_le_contravar; [apply Rmult_lt_0_compat; [lra|apply Rmult_lt_0_compat; lra]|]. apply Rmult_le_compat_l; [lra|exact W].
Qed.
Lemma kappa_close Rein : 0 < Rein -> Rabs (/ 2 * sqrt q * Rein / psi s - / 2 * sqrt q * Rein / psi 0) <= sqrt q * Rein * s ^ 2 / (4 * q * sqrt (x ^ 2 + y ^ 2) ^ 3).
Proof.
  intros HR. assert (P := psi_pos). assert (Q := sqrt_lt_R0 q ltac:(lra)). assert (N := norm_pos x y Hxy). assert (W := psi_radius). assert (E := psi_sq 0). assert (E2 := psi_sq s). assert (M := psi_mono). set (r := sqrt (x ^ 2 + y ^ 2)) in *.
  replace (/ 2 * sqrt q * Rein / psi s - / 2 * sqrt q * Rein / psi 0) with (- (sqrt q * Rein * (q ^ 2 * s ^ 2) / (2 * (psi 0 * psi s * (psi 0 + psi s))))).
  2:{ replace (q ^ 2 * s ^ 2) with ((psi s - psi 0) * (psi s + psi 0)) by (transitivity (psi s ^ 2 - psi 0 ^ 2); [ring|rewrite E, E2; ring]). field. lra. }
  assert (0 <= sqrt q * Rein * s ^ 2) by (apply Rmult_le_pos; [nra|apply pow2_ge_0]).
  assert (L : 2 * psi 0 ^ 3 <= psi 0 * psi s * (psi 0 + psi s)).
  { replace (2 * psi 0 ^ 3) with (psi 0 * psi 0 * (psi 0 + psi 0)) by ring. apply Rmult_le_compat; try nra. }
  assert (L3 : (q * r) ^ 3 <= psi 0 ^ 3) by (apply pow_incr; split; [nra|exact W]). assert (0 < q * r) by nra. assert (0 < (q * r) ^ 3) by (apply pow_lt; lra).
  rewrite Rabs_Ropp, Rabs_pos_eq by (apply Rmult_le_pos; [nra|left; apply Rinv_0_lt_compat; nra]).
  replace (sqrt q * Rein * s ^ 2 / (4 * q * r ^ 3)) with (sqrt q * Rein * (q ^ 2 * s ^ 2) / (4 * (q * r) ^ 3)) by (field; lra).
  apply Rmult_le_compat_l; [nra|]. apply Rinv_le_contravar; [lra|]. nra.
Qed.
End Sie.
