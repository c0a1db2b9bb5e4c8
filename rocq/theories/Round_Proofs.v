(** * SIE close to q = 1 and SIS (C100) *)
From Coq Require Import Reals Lra Psatz.
From Coquelicot Require Import Coquelicot.
From Verif Require Import RealFun Geo_Model LensBasic_Model LensBasic_Proofs LensBasic2_Proofs Lens_Lib Einstein_Proofs.
Local Open Scope R_scope.

Lemma pos_from_derive (f f' : R -> R) u : 0 <= u -> f 0 = 0 -> (forall t, 0 <= t <= u -> is_derive f t (f' t)) -> (forall t, 0 <= t <= u -> 0 <= f' t) -> 0 <= f u.
Proof.
  intros Hu H0 D P. destruct (MVT_gen f 0 u f') as (c & Hc & E).
  - intros t. rewrite Rmin_left, Rmax_right by lra. intros Ht. apply D. lra.
  - intros t. rewrite Rmin_left, Rmax_right by lra. intros Ht. apply continuity_pt_filterlim.
    apply (ex_derive_continuous (V := R_NormedModule)). exists (f' t). apply D. lra.
  - rewrite Rmin_left, Rmax_right in Hc by lra. rewrite H0 in E. assert (Q := P c Hc). nra.
Qed.
Lemma atan_cubic_pos u : 0 <= u -> 0 <= u - atan u <= u ^ 3 / 3.
Proof.
  intros H. split.
  - apply (pos_from_derive (fun t => t - atan t) (fun t => 1 - / (1 + t ^ 2))); [exact H|rewrite atan_0; ring| |].
    + intros t _. auto_derive; [trivial|]. assert (Q := pow2_ge_0 t). field. nra.
    + intros t _. assert (Q := pow2_ge_0 t). assert (/ (1 + t ^ 2) <= / 1) by (apply Rinv_le_contravar; lra). lra.
  - apply Rminus_le_0. apply (pos_from_derive (fun t => t ^ 3 / 3 - (t - atan t)) (fun t => t ^ 2 - (1 - / (1 + t ^ 2)))); [exact H|rewrite atan_0; field| |].
    + intros t _. auto_derive; [trivial|]. assert (Q := pow2_ge_0 t). field. nra.
    + intros t _. assert (Q := pow2_ge_0 t). replace (t ^ 2 - (1 - / (1 + t ^ 2))) with (t ^ 2 * t ^ 2 / (1 + t ^ 2)) by (field; lra).
      apply Rmult_le_pos; [nra|left; apply Rinv_0_lt_compat; lra].
Qed.
Lemma atan_cubic u : Rabs (atan u - u) <= Rabs u ^ 3 / 3.
Proof.
  destruct (Rle_dec 0 u) as [H|H].
  - rewrite (Rabs_pos_eq u H). destruct (atan_cubic_pos u H). apply Rabs_le. lra.
  - destruct (atan_cubic_pos (- u) ltac:(lra)) as [A B]. rewrite atan_opp in A, B. rewrite (Rabs_left u) by lra. apply Rabs_le. lra.
Qed.
Lemma atanh_odd u : -1 < u < 1 -> atanh (- u) = - atanh u.
Proof.
  intros H. unfold atanh. replace ((1 + - u) / (1 - - u)) with (/ ((1 + u) / (1 - u))) by (field; lra). rewrite ln_Rinv; [ring|]. apply Rdiv_lt_0_compat; lra.
Qed.
Lemma atanh_cubic_pos m u : 0 <= u <= m -> m < 1 -> 0 <= atanh u - u <= u ^ 3 / (3 * (1 - m ^ 2)).
Proof.
  intros H Hm. assert (A0 : atanh 0 = 0) by (unfold atanh; replace ((1 + 0) / (1 - 0)) with 1 by field; rewrite ln_1; ring).
  assert (D : forall t, 0 <= t <= u -> 0 < 1 - t ^ 2) by (intros t Ht; nra). assert (Mm : 0 < 1 - m ^ 2) by nra.
  assert (DA : forall t, 0 <= t <= u -> is_derive atanh t (/ (1 - t ^ 2))) by (intros t Ht; apply is_derive_atanh; nra).
  split.
  - apply (pos_from_derive (fun t => atanh t - t) (fun t => / (1 - t ^ 2) - 1)); [lra|rewrite A0; ring| |].
    + intros t Ht. apply (is_derive_minus atanh (fun t => t)); [apply DA, Ht|apply (is_derive_id (K := R_AbsRing))].
    + intros t Ht. assert (Q := pow2_ge_0 t). assert (Q1 := D t Ht). assert (/ 1 <= / (1 - t ^ 2)) by (apply Rinv_le_contravar; lra). lra.
  - apply Rminus_le_0. apply (pos_from_derive (fun t => t ^ 3 / (3 * (1 - m ^ 2)) - (atanh t - t)) (fun t => t ^ 2 / (1 - m ^ 2) - (/ (1 - t ^ 2) - 1))); [lra|rewrite A0; field; lra| |].
    + intros t Ht. apply (is_derive_minus (fun t => t ^ 3 / (3 * (1 - m ^ 2))) (fun t => atanh t - t)).
      * auto_derive; [trivial|]. field. lra.
      * apply (is_derive_minus atanh (fun t => t)); [apply DA, Ht|apply (is_derive_id (K := R_AbsRing))].
    + intros t Ht. assert (Q := pow2_ge_0 t). assert (Q1 := D t Ht).
      replace (t ^ 2 / (1 - m ^ 2) - (/ (1 - t ^ 2) - 1)) with (t ^ 2 * (/ (1 - m ^ 2) - / (1 - t ^ 2))) by (field; lra).
      apply Rmult_le_pos; [exact Q|]. apply Rge_le, Rge_minus, Rle_ge, Rinv_le_contravar; [lra|]. nra.
Qed.
Lemma atanh_cubic m u : Rabs u <= m -> m < 1 -> Rabs (atanh u - u) <= Rabs u ^ 3 / (3 * (1 - m ^ 2)).
Proof.
  intros H Hm. destruct (Rle_dec 0 u) as [Hu|Hu].
  - rewrite (Rabs_pos_eq u Hu) in *. destruct (atanh_cubic_pos m u ltac:(lra) Hm). apply Rabs_le. lra.
  - rewrite (Rabs_left u) in * by lra. destruct (atanh_cubic_pos m (- u) ltac:(lra) Hm) as [A B]. rewrite atanh_odd in A, B by lra. apply Rabs_le. lra.
Qed.

(** ** one component of the deflection in the frame of the lens *)
Section Near.
Variables q x y : R.
Hypothesis Hq : 1 / 2 <= q < 1.
Hypothesis N : x <> 0 \/ y <> 0.
Let f := sqrt (1 - q ^ 2).
Let p := sqrt (q ^ 2 * (x ^ 2 + 0 ^ 2) + y ^ 2).
Let r := sqrt (x ^ 2 + y ^ 2).
Lemma f2 : f ^ 2 = 1 - q ^ 2.
Proof. apply pow2_sqrt. nra. Qed.
Lemma f_pos : 0 < f.
Proof. apply sqrt_lt_R0. nra. Qed.
Lemma f_lt1 : f < 1.
Proof. assert (A := f2). assert (B := f_pos). nra. Qed.
Lemma r_pos : 0 < r.
Proof. apply norm_pos, N. Qed.
Lemma p_range : q * r <= p <= r.
Proof.
  assert (A := pow2_ge_0 x). assert (B := pow2_ge_0 y). split.
  - replace (q * r) with (sqrt (q ^ 2 * (x ^ 2 + y ^ 2))) by (rewrite sqrt_mult_alt by apply pow2_ge_0; rewrite sqrt_pow2 by lra; reflexivity). apply sqrt_le_1_alt.
    assert (q ^ 2 * y ^ 2 <= 1 * y ^ 2) by (apply Rmult_le_compat_r; [exact B|nra]). lra.
  - apply sqrt_le_1_alt. assert (q ^ 2 * x ^ 2 <= 1 * x ^ 2) by (apply Rmult_le_compat_r; [exact A|nra]). lra.
Qed.
Lemma sq_range : q <= sqrt q <= 1.
Proof. assert (A := sqrt_sqrt q ltac:(lra)). assert (B := sqrt_pos q). split; nra. Qed.
Lemma x_le : Rabs x <= r.
Proof. unfold r. rewrite <- sqrt_Rsqr_abs. apply sqrt_le_1_alt. unfold Rsqr. assert (B := pow2_ge_0 y). nra. Qed.
Lemma y_le : Rabs y <= p.
Proof. unfold p. rewrite <- sqrt_Rsqr_abs. apply sqrt_le_1_alt. unfold Rsqr. assert (B := pow2_ge_0 x). assert (0 <= q ^ 2 * x ^ 2) by (apply Rmult_le_pos; [apply pow2_ge_0|exact B]). lra. Qed.
Lemma quot_shift t : Rabs t <= r -> Rabs (t / p - t / r) <= Rabs (t / p) * (1 - q).
Proof.
  intros Ht. assert (P := p_range). assert (Rp := r_pos). assert (Pp : 0 < p) by nra.
  replace (t / p - t / r) with (t / p * ((r - p) / r)) by (field; lra). rewrite Rabs_mult. apply Rmult_le_compat_l; [apply Rabs_pos|].
  assert (0 <= (r - p) / r) by (apply Rmult_le_pos; [lra|left; apply Rinv_0_lt_compat; lra]). rewrite Rabs_pos_eq by assumption.
  apply Rmult_le_reg_r with r; [lra|]. unfold Rdiv. rewrite Rmult_assoc, Rinv_l by lra. nra.
Qed.
Lemma near_x : Rabs (sqrt q / f * atan (f * x / (p + 0)) - x / r) <= 8 * (1 - q).
Proof.
  assert (P := p_range). assert (Rp := r_pos). assert (Pp : 0 < p) by nra. assert (Fp := f_pos). assert (F2 := f2). assert (S := sq_range). rewrite Rplus_0_r.
  set (X := x / p). assert (XB : Rabs X <= / q).
  { unfold X, Rdiv. rewrite Rabs_mult, Rabs_inv, (Rabs_pos_eq p) by lra. apply Rmult_le_reg_r with (p * q); [nra|].
    replace (Rabs x * / p * (p * q)) with (Rabs x * q) by (field; lra). replace (/ q * (p * q)) with p by (field; lra). assert (Q := x_le). nra. }
  assert (XB2 : Rabs X <= 2). { assert (/ q <= / (1 / 2)) by (apply Rinv_le_contravar; lra). lra. }
  replace (f * x / p) with (f * X) by (unfold X; field; lra).
  assert (A := atan_cubic (f * X)). rewrite Rabs_mult, (Rabs_pos_eq f) in A by lra.
  assert (Q := quot_shift x x_le). fold X in Q.
  replace (sqrt q / f * atan (f * X) - x / r) with (sqrt q / f * (atan (f * X) - f * X) + (sqrt q - 1) * X + (X - x / r)) by (field; lra).
  eapply Rle_trans; [apply Rabs_triang|]. eapply Rle_trans; [apply Rplus_le_compat_r, Rabs_triang|].
  assert (T1 : Rabs (sqrt q / f * (atan (f * X) - f * X)) <= 4 * (1 - q)).
  { rewrite Rabs_mult, Rabs_pos_eq by (apply Rmult_le_pos; [lra|left; apply Rinv_0_lt_compat; lra]).
    apply Rle_trans with (sqrt q / f * ((f * Rabs X) ^ 3 / 3)).
    { apply Rmult_le_compat_l; [apply Rmult_le_pos; [lra|left; apply Rinv_0_lt_compat; lra]|exact A]. }
    replace (sqrt q / f * ((f * Rabs X) ^ 3 / 3)) with (sqrt q * f ^ 2 * Rabs X ^ 3 / 3) by (field; lra). rewrite F2.
    assert (X0 := Rabs_pos X). set (a := Rabs X) in *. assert (C : a ^ 2 * q <= 2).
    { assert (a * q <= 1) by (replace 1 with (/ q * q) by (field; lra); apply Rmult_le_compat_r; lra). nra. }
    assert (S2 : sqrt q * (1 + q) * a ^ 3 <= 12); [|nra].
    assert (G : a ^ 3 <= 8) by nra. assert (G0 : 0 <= a ^ 3) by (apply pow_le; exact X0).
    assert (aq : a * q <= 1) by (replace 1 with (/ q * q) by (field; lra); apply Rmult_le_compat_r; lra).
    assert (G1 : a ^ 3 * q <= 4) by (replace (a ^ 3 * q) with (a ^ 2 * (a * q)) by ring; nra).
    nra. }
  assert (T2 : Rabs ((sqrt q - 1) * X) <= 2 * (1 - q)).
  { rewrite Rabs_mult. rewrite Rabs_left1 by lra. assert (X0 := Rabs_pos X). nra. }
  assert (T3 : Rabs (X - x / r) <= 2 * (1 - q)) by nra.
  lra.
Qed.
Lemma near_y : Rabs (sqrt q / f * atanh (f * y / (p + q ^ 2 * 0)) - y / r) <= 8 * (1 - q).
Proof.
  assert (P := p_range). assert (Rp := r_pos). assert (Pp : 0 < p) by nra. assert (Fp := f_pos). assert (F2 := f2). assert (S := sq_range). assert (F1 := f_lt1).
  rewrite Rmult_0_r, Rplus_0_r.
  set (X := y / p). assert (XB : Rabs X <= 1).
  { unfold X, Rdiv. rewrite Rabs_mult, Rabs_inv, (Rabs_pos_eq p) by lra. apply Rmult_le_reg_r with p; [lra|].
    rewrite Rmult_assoc, Rinv_l by lra. assert (Q := y_le). lra. }
  replace (f * y / p) with (f * X) by (unfold X; field; lra). assert (X0 := Rabs_pos X).
  assert (FX : Rabs (f * X) = f * Rabs X) by (rewrite Rabs_mult, (Rabs_pos_eq f) by lra; reflexivity).
  assert (A := atanh_cubic f (f * X) ltac:(rewrite FX; nra) F1). rewrite FX in A. replace (1 - f ^ 2) with (q ^ 2) in A by lra.
  assert (Yr : Rabs y <= r) by (assert (Q := y_le); lra).
  assert (Q := quot_shift y Yr). fold X in Q.
  replace (sqrt q / f * atanh (f * X) - y / r) with (sqrt q / f * (atanh (f * X) - f * X) + (sqrt q - 1) * X + (X - y / r)) by (field; lra).
  eapply Rle_trans; [apply Rabs_triang|]. eapply Rle_trans; [apply Rplus_le_compat_r, Rabs_triang|].
  assert (T1 : Rabs (sqrt q / f * (atanh (f * X) - f * X)) <= 4 * (1 - q)).
  { rewrite Rabs_mult, Rabs_pos_eq by (apply Rmult_le_pos; [lra|left; apply Rinv_0_lt_compat; lra]).
    apply Rle_trans with (sqrt q / f * ((f * Rabs X) ^ 3 / (3 * q ^ 2))).
    { apply Rmult_le_compat_l; [apply Rmult_le_pos; [lra|left; apply Rinv_0_lt_compat; lra]|exact A]. }
    replace (sqrt q / f * ((f * Rabs X) ^ 3 / (3 * q ^ 2))) with (sqrt q * f ^ 2 * Rabs X ^ 3 / (3 * q ^ 2)) by (field; lra). rewrite F2.
    set (a := Rabs X) in *. assert (G : 0 <= a ^ 3 <= 1) by (split; [apply pow_le; exact X0|nra]).
    apply Rmult_le_reg_r with (3 * q ^ 2); [nra|]. unfold Rdiv. rewrite Rmult_assoc, Rinv_l by nra. rewrite Rmult_1_r.
    replace (4 * (1 - q) * (3 * q ^ 2)) with ((1 - q) * (12 * q ^ 2)) by ring. replace (sqrt q * (1 - q ^ 2) * a ^ 3) with ((1 - q) * (sqrt q * (1 + q) * a ^ 3)) by ring.
    apply Rmult_le_compat_l; [lra|]. assert (sqrt q * a ^ 3 <= 1) by nra. nra. }
  assert (T2 : Rabs ((sqrt q - 1) * X) <= 2 * (1 - q)).
  { rewrite Rabs_mult. rewrite Rabs_left1 by lra. nra. }
  assert (T3 : Rabs (X - y / r) <= 2 * (1 - q)) by nra.
  lra.
Qed.
End Near.

Lemma rot_r x y phi : (x * cos phi + y * sin phi) ^ 2 + (y * cos phi - x * sin phi) ^ 2 = x ^ 2 + y ^ 2.
Proof. transitivity ((x ^ 2 + y ^ 2) * (cos phi ^ 2 + sin phi ^ 2)); [ring|rewrite cs1; ring]. Qed.
Definition eff (q : R) : R := if Req_EM_T q 1 then q - 1 / 10 ^ 6 else q.
Lemma sie_near_sis x0 y0 q phi Rein x y : 1 / 2 <= q <= 1 -> 0 <= Rein -> x <> x0 \/ y <> y0 ->
  let a := reduced_deflection_angle_sie x0 y0 q phi Rein 0 x y in let b := reduced_deflection_angle_sis x0 y0 Rein 0 x y in
  (fst a - fst b) ^ 2 + (snd a - snd b) ^ 2 <= (12 * Rein * (1 - eff q)) ^ 2.
Proof.
  intros Hq HR N a b. unfold a, b, reduced_deflection_angle_sie, reduced_deflection_angle_sis. clear a b. fold (eff q).
  assert (He : 1 / 2 <= eff q < 1) by (unfold eff; destruct (Req_EM_T q 1); lra). set (e := eff q) in *. clearbody e. clear q Hq. unfold translate_rotate. cbv zeta.
  set (X := x - x0). set (Y := y - y0). assert (N' : X <> 0 \/ Y <> 0) by (unfold X, Y; destruct N; [left|right]; lra). clearbody X Y. clear N x y x0 y0.
  set (u := X * cos phi + Y * sin phi). set (v := Y * cos phi - X * sin phi).
  assert (Ruv : u ^ 2 + v ^ 2 = X ^ 2 + Y ^ 2) by apply rot_r.
  assert (Nuv : u <> 0 \/ v <> 0).
  { assert (0 < X ^ 2 + Y ^ 2) by (apply norm2_pos, N'). destruct (Req_dec u 0) as [Z|Z]; [|left; exact Z]. right. intros Z2. rewrite Z, Z2 in Ruv. lra. }
  assert (A := near_x e u v He Nuv). assert (B := near_y e u v He Nuv).
  rewrite Ruv in A, B. rewrite !Rplus_0_r in *. set (r := sqrt (X ^ 2 + Y ^ 2)) in *. assert (Rp : 0 < r) by apply (norm_pos _ _ N').
  set (f := sqrt (1 - e ^ 2)) in *. assert (Fp : 0 < f) by (apply sqrt_lt_R0; nra). 
  set (at1 := atan _) in *. set (at2 := atanh _) in *. clearbody at1 at2. unfold derotate. cbn [fst snd].
  set (d1 := sqrt e / f * at1 - u / r) in *. set (d2 := sqrt e / f * at2 - v / r) in *.
  replace (Rein * sqrt e / f * at1 * cos phi - Rein * sqrt e / f * at2 * sin phi - Rein * X / r) with (Rein * (d1 * cos phi - d2 * sin phi)).
  2:{ transitivity (Rein * sqrt e / f * at1 * cos phi - Rein * sqrt e / f * at2 * sin phi - X * (cos phi ^ 2 + sin phi ^ 2) * (Rein / r)); [unfold d1, d2, u, v; field; lra|rewrite cs1; unfold Rdiv; ring]. }
  replace (Rein * sqrt e / f * at1 * sin phi + Rein * sqrt e / f * at2 * cos phi - Rein * Y / r) with (Rein * (d1 * sin phi + d2 * cos phi)).
  2:{ transitivity (Rein * sqrt e / f * at1 * sin phi + Rein * sqrt e / f * at2 * cos phi - Y * (cos phi ^ 2 + sin phi ^ 2) * (Rein / r)); [unfold d1, d2, u, v; field; lra|rewrite cs1; unfold Rdiv; ring]. }
  clearbody d1 d2. replace ((Rein * (d1 * cos phi - d2 * sin phi)) ^ 2 + (Rein * (d1 * sin phi + d2 * cos phi)) ^ 2) with (Rein ^ 2 * ((d1 ^ 2 + d2 ^ 2) * (cos phi ^ 2 + sin phi ^ 2))) by ring.
  rewrite cs1, Rmult_1_r. replace ((12 * Rein * (1 - e)) ^ 2) with (Rein ^ 2 * (144 * (1 - e) ^ 2)) by ring. apply Rmult_le_compat_l; [apply pow2_ge_0|].
  apply Rabs_le_between in A. apply Rabs_le_between in B. assert (d1 ^ 2 <= 64 * (1 - e) ^ 2) by nra. assert (d2 ^ 2 <= 64 * (1 - e) ^ 2) by nra. assert (G := pow2_ge_0 (1 - e)). lra.
Qed.
Lemma sie_potential_near_sis x0 y0 q phi Rein x y : 1 / 2 <= q <= 1 -> 0 <= Rein -> x <> x0 \/ y <> y0 ->
  Rabs (potential_sie x0 y0 q phi Rein 0 x y - potential_sis x0 y0 Rein 0 x y) <= 12 * Rein * (1 - eff q) * sqrt ((x - x0) ^ 2 + (y - y0) ^ 2).
Proof.
  intros Hq HR N. assert (B := sie_near_sis x0 y0 q phi Rein x y Hq HR N). cbv zeta in B.
  assert (E : potential_sie x0 y0 q phi Rein 0 x y = (x - x0) * fst (reduced_deflection_angle_sie x0 y0 q phi Rein 0 x y) + (y - y0) * snd (reduced_deflection_angle_sie x0 y0 q phi Rein 0 x y)).
  { unfold potential_sie. destruct (reduced_deflection_angle_sie x0 y0 q phi Rein 0 x y) as [a b]. unfold derotate, translate_rotate. cbn [fst snd]. cbv zeta. rewrite cos_neg, sin_neg.
    rewrite Rmult_0_r, !Rmult_0_l, Rminus_0_r, Rplus_0_r. transitivity (((x - x0) * a + (y - y0) * b) * (cos phi ^ 2 + sin phi ^ 2)); [ring|rewrite cs1; ring]. }
  assert (Rp := norm_pos _ _ (off_centre _ _ _ _ N)).
  assert (E2 : potential_sis x0 y0 Rein 0 x y = (x - x0) * fst (reduced_deflection_angle_sis x0 y0 Rein 0 x y) + (y - y0) * snd (reduced_deflection_angle_sis x0 y0 Rein 0 x y)).
  { unfold potential_sis, reduced_deflection_angle_sis, translate_rotate. cbn [fst snd]. cbv zeta. rewrite !Rplus_0_r. set (r := sqrt _) in *.
    assert (S : r * r = (x - x0) ^ 2 + (y - y0) ^ 2) by (apply sqrt_sqrt; assert (A1 := pow2_ge_0 (x - x0)); assert (A2 := pow2_ge_0 (y - y0)); lra).
    transitivity (Rein * ((x - x0) ^ 2 + (y - y0) ^ 2) / r); [rewrite <- S; field; lra|field; lra]. }
  rewrite E, E2. set (X := x - x0) in *. set (Y := y - y0) in *.
  set (d1 := fst (reduced_deflection_angle_sie _ _ _ _ _ _ _ _) - fst (reduced_deflection_angle_sis x0 y0 Rein 0 x y)) in *.
  set (d2 := snd (reduced_deflection_angle_sie _ _ _ _ _ _ _ _) - snd (reduced_deflection_angle_sis x0 y0 Rein 0 x y)) in *.
  match goal with |- Rabs ?t <= _ => replace t with (X * d1 + Y * d2) by (unfold d1, d2; ring) end. clearbody d1 d2 X Y. clear E E2.
  assert (He : 0 <= 1 - eff q) by (unfold eff; destruct (Req_EM_T q 1); lra). set (K := 12 * Rein * (1 - eff q)) in *. assert (KK : 0 <= K) by (unfold K; apply Rmult_le_pos; lra). clearbody K.
  apply Rsqr_incr_0_var; [|apply Rmult_le_pos; [exact KK|apply sqrt_pos]]. rewrite <- Rsqr_abs, Rsqr_mult, Rsqr_sqrt by (assert (A1 := pow2_ge_0 X); assert (A2 := pow2_ge_0 Y); lra). unfold Rsqr.
  apply Rle_trans with ((d1 ^ 2 + d2 ^ 2) * (X ^ 2 + Y ^ 2)); [assert (G := pow2_ge_0 (X * d2 - Y * d1)); nra|].
  replace (K * K) with (K ^ 2) by ring. apply Rmult_le_compat_r; [assert (A1 := pow2_ge_0 X); assert (A2 := pow2_ge_0 Y); lra|exact B].
Qed.
(** ** not exactly *)
Lemma sin_sq_gt_cos a : 0 < a < 1 -> a ^ 2 * cos a < sin a ^ 2.
Proof.
  intros H.
  assert (S : a - a ^ 3 / 6 <= sin a).
  { apply Rminus_le_0. apply (pos_from_derive (fun t => sin t - (t - t ^ 3 / 6)) (fun t => cos t - (1 - t ^ 2 / 2))); [lra|rewrite sin_0; field| |].
    - intros t _. auto_derive; [trivial|field].
    - intros t Ht. assert (PI / 2 > 1) by (generalize PI2_3_2; lra). destruct (cos_bound t 0) as [L _]; [lra|lra|]. unfold cos_approx, cos_term in L. simpl in L. lra. }
  assert (C : cos a <= 1 - a ^ 2 / 2 + a ^ 4 / 24).
  { assert (PI / 2 > 1) by (generalize PI2_3_2; lra). destruct (cos_bound a 0) as [_ U]; [lra|lra|]. unfold cos_approx, cos_term in U. simpl in U. lra. }
  assert (Q : 0 < a ^ 2 < 1) by nra. assert (a ^ 3 / 6 < a) by (replace (a ^ 3) with (a * a ^ 2) by ring; nra).
  apply Rle_lt_trans with (a ^ 2 * (1 - a ^ 2 / 2 + a ^ 4 / 24)); [apply Rmult_le_compat_l; lra|].
  apply Rlt_le_trans with ((a - a ^ 3 / 6) ^ 2); [|apply pow_incr; lra].
  assert (0 < a ^ 4) by (replace (a ^ 4) with (a ^ 2 * a ^ 2) by ring; nra). assert (a ^ 2 < 1) by nra.
  replace ((a - a ^ 3 / 6) ^ 2) with (a ^ 2 - a ^ 4 / 3 + a ^ 4 * a ^ 2 / 36) by field. replace (a ^ 2 * (1 - a ^ 2 / 2 + a ^ 4 / 24)) with (a ^ 2 - a ^ 4 / 2 + a ^ 4 * a ^ 2 / 24) by field. nra.
Qed.
Lemma round_not_exact x0 y0 Rein x : 0 < Rein -> x0 < x -> fst (reduced_deflection_angle_sie x0 y0 1 0 Rein 0 x y0) < Rein.
Proof.
  intros HR Hx. unfold reduced_deflection_angle_sie, translate_rotate, derotate. cbv zeta. cbn [fst]. rewrite cos_0, sin_0. destruct (Req_EM_T 1 1) as [_|]; [|congruence].
  set (q := 1 - 1 / 10 ^ 6). assert (Hq : 0 < q < 1 /\ 0 < 1 - q ^ 2 < 1 / 4) by (unfold q; lra). clearbody q.
  replace (y0 - y0) with 0 by ring. rewrite !Rmult_0_r, Rminus_0_r, !Rplus_0_r, !Rmult_1_r, Rminus_0_r.
  replace (q ^ 2 * ((x - x0) ^ 2 + 0 ^ 2) + 0 ^ 2) with ((q * (x - x0)) ^ 2) by ring. rewrite sqrt_pow2 by nra.
  set (f := sqrt (1 - q ^ 2)). assert (Fp : 0 < f) by (apply sqrt_lt_R0; lra). assert (F2 : f ^ 2 = 1 - q ^ 2) by (apply pow2_sqrt; lra).
  replace (f * (x - x0) / (q * (x - x0))) with (f / q) by (field; lra). set (a := atan (f / q)).
  assert (fq : 0 < f / q) by (apply Rdiv_lt_0_compat; lra).
  assert (AB := atan_bound (f / q)). assert (Ap : 0 < a) by (unfold a; rewrite <- atan_0; apply atan_increasing; exact fq).
  assert (S1 : sqrt (1 + (f / q) ^ 2) = / q).
  { replace (1 + (f / q) ^ 2) with ((/ q) ^ 2); [apply sqrt_pow2; left; apply Rinv_0_lt_compat; lra|]. unfold Rdiv. rewrite Rpow_mult_distr, F2. field. lra. }
  assert (Ca : cos a = q) by (unfold a; rewrite cos_atan; unfold Rsqr; replace (1 + f / q * (f / q)) with (1 + (f / q) ^ 2) by ring; rewrite S1; field; lra).
  assert (Sa : sin a = f) by (unfold a; rewrite sin_atan; unfold Rsqr; replace (1 + f / q * (f / q)) with (1 + (f / q) ^ 2) by ring; rewrite S1; field; lra).
  assert (A1 : a < 1).
  { assert (a <= f / q) by (destruct (atan_cubic_pos (f / q) ltac:(lra)); unfold a; lra). assert (f < q) by nra. assert (f / q < 1); [|lra]. apply Rmult_lt_reg_r with q; [lra|]. unfold Rdiv. rewrite Rmult_assoc, Rinv_l by lra. lra. }
  assert (G := sin_sq_gt_cos a (conj Ap A1)). rewrite Ca, Sa in G.
  assert (Sq : sqrt q * sqrt q = q) by (apply sqrt_sqrt; lra). assert (Sp : 0 < sqrt q) by (apply sqrt_lt_R0; lra).
  assert (L : sqrt q * a < f) by nra.
  replace (Rein * sqrt q / f * a) with (Rein * (sqrt q * a / f)) by (field; lra). rewrite <- (Rmult_1_r Rein) at 2. apply Rmult_lt_compat_l; [exact HR|].
  apply Rmult_lt_reg_r with f; [lra|]. unfold Rdiv. rewrite Rmult_assoc, Rinv_l by lra. lra.
Qed.
Lemma eff_below q : q < 1 -> eff q = q.
Proof. intros H. unfold eff. destruct (Req_EM_T q 1); lra. Qed.
Lemma eff_1 : 1 - eff 1 = / 10 ^ 6.
Proof. unfold eff. destruct (Req_EM_T 1 1); [lra|congruence]. Qed.
Lemma sie_near_sis_below x0 y0 q phi Rein x y : 1 / 2 <= q < 1 -> 0 <= Rein -> x <> x0 \/ y <> y0 ->
  let a := reduced_deflection_angle_sie x0 y0 q phi Rein 0 x y in let b := reduced_deflection_angle_sis x0 y0 Rein 0 x y in
  (fst a - fst b) ^ 2 + (snd a - snd b) ^ 2 <= (12 * Rein * (1 - q)) ^ 2.
Proof. intros Hq HR N. assert (A := sie_near_sis x0 y0 q phi Rein x y ltac:(lra) HR N). rewrite eff_below in A by lra. exact A. Qed.
Lemma sie_potential_near_sis_below x0 y0 q phi Rein x y : 1 / 2 <= q < 1 -> 0 <= Rein -> x <> x0 \/ y <> y0 ->
  Rabs (potential_sie x0 y0 q phi Rein 0 x y - potential_sis x0 y0 Rein 0 x y) <= 12 * Rein * (1 - q) * sqrt ((x - x0) ^ 2 + (y - y0) ^ 2).
Proof. intros Hq HR N. assert (A := sie_potential_near_sis x0 y0 q phi Rein x y ltac:(lra) HR N). rewrite eff_below in A by lra. exact A. Qed.
Lemma sie_round x0 y0 phi Rein x y : 0 <= Rein -> x <> x0 \/ y <> y0 ->
  let a := reduced_deflection_angle_sie x0 y0 1 phi Rein 0 x y in let b := reduced_deflection_angle_sis x0 y0 Rein 0 x y in
  convergence_sie x0 y0 1 phi Rein 0 x y = convergence_sis x0 y0 Rein 0 x y /\
  (fst a - fst b) ^ 2 + (snd a - snd b) ^ 2 <= (12 * Rein / 10 ^ 6) ^ 2 /\
  Rabs (potential_sie x0 y0 1 phi Rein 0 x y - potential_sis x0 y0 Rein 0 x y) <= 12 * Rein / 10 ^ 6 * sqrt ((x - x0) ^ 2 + (y - y0) ^ 2).
Proof.
  intros HR N. cbv zeta. assert (A := sie_near_sis x0 y0 1 phi Rein x y ltac:(lra) HR N). assert (B := sie_potential_near_sis x0 y0 1 phi Rein x y ltac:(lra) HR N). rewrite eff_1 in A, B. split; [|split; [exact A|exact B]].
  unfold convergence_sie, convergence_sis, translate_rotate. cbv zeta. rewrite Rplus_0_r, sqrt_1, Rmult_1_r.
  replace (1 ^ 2 * (((x - x0) * cos phi + (y - y0) * sin phi) ^ 2 + 0 ^ 2) + ((y - y0) * cos phi - (x - x0) * sin phi) ^ 2) with ((x - x0) ^ 2 + (y - y0) ^ 2); [reflexivity|].
  rewrite <- (rot_r (x - x0) (y - y0) phi). ring.
Qed.
Lemma sie_round_short x0 y0 Rein x : 0 < Rein -> x0 < x ->
  fst (reduced_deflection_angle_sie x0 y0 1 0 Rein 0 x y0) < Rein /\ fst (reduced_deflection_angle_sis x0 y0 Rein 0 x y0) = Rein.
Proof.
  intros HR Hx. split; [apply round_not_exact; assumption|]. unfold reduced_deflection_angle_sis, translate_rotate. cbv zeta. cbn [fst]. rewrite Rplus_0_r.
  replace ((x - x0) ^ 2 + (y0 - y0) ^ 2) with ((x - x0) ^ 2) by ring. rewrite sqrt_pow2 by lra. field. lra.
Qed.
