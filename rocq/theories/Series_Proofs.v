(** * The EPL series: isothermal case and truncation error (C101) *)
From Coq Require Import Reals List Arith Lia Lra Psatz.
From Coquelicot Require Import Coquelicot.
From Verif Require Import Py RealFun Geo_Model Lens_Lib LensBasic_Model LensBasic2_Proofs Epl_Model Epl_Spec Epl_Proofs Epl2_Proofs Epl3_Proofs Epl4_Proofs Einstein_Proofs Round_Proofs.
Local Open Scope R_scope.

(** ** 2 atan(p e^(i th)) as a power series in p *)
Section Arc.
Variable th : R.
Definition ang (k : nat) : R := (2 * INR k + 1) * th.
Fixpoint Gx (n : nat) (p : R) : R := match n with O => 0 | S k => Gx k p + 2 * (-1) ^ k * p ^ (2 * k + 1) * cos (ang k) / (2 * INR k + 1) end.
Fixpoint Gy (n : nat) (p : R) : R := match n with O => 0 | S k => Gy k p + 2 * (-1) ^ k * p ^ (2 * k + 1) * sin (ang k) / (2 * INR k + 1) end.
Definition D (p : R) : R := 1 + 2 * p ^ 2 * cos (2 * th) + p ^ 4.
Definition Hx (p : R) : R := atan (2 * p * cos th / (1 - p ^ 2)).
Definition Hy (p : R) : R := atanh (2 * p * sin th / (1 + p ^ 2)).
Lemma ang_S k : ang (S k) = ang k + 2 * th.
Proof. unfold ang. rewrite S_INR. ring. Qed.
Lemma D_low p : 0 <= p < 1 -> (1 - p ^ 2) ^ 2 <= D p.
Proof. intros H. unfold D. assert (C := COS_bound (2 * th)). assert (0 <= p ^ 2) by nra. nra. Qed.
Lemma D_pos p : 0 <= p < 1 -> 0 < D p.
Proof. intros H. assert (A := D_low p H). assert (0 < 1 - p ^ 2) by nra. nra. Qed.
Lemma D_cos p : (1 - p ^ 2) ^ 2 + (2 * p * cos th) ^ 2 = D p.
Proof. unfold D. rewrite cos_2a_cos. ring. Qed.
Lemma D_sin p : (1 + p ^ 2) ^ 2 - (2 * p * sin th) ^ 2 = D p.
Proof. unfold D. rewrite cos_2a_sin. ring. Qed.
Lemma Hx_derive p : 0 <= p < 1 -> is_derive Hx p (2 * cos th * (1 + p ^ 2) / D p).
Proof.
  intros H. assert (P : 0 < 1 - p ^ 2) by nra. assert (DP := D_pos p H). assert (DC := D_cos p). unfold Hx. auto_derive; [lra|]. rewrite <- DC in *.
  field. repeat split; nra.
Qed.
Lemma y_range p : 0 <= p < 1 -> -1 < 2 * p * sin th / (1 + p ^ 2) < 1.
Proof.
  intros H. assert (S := SIN_bound th). assert (P : 0 < 1 + p ^ 2) by nra. assert (Q : 2 * p < 1 + p ^ 2) by nra.
  split; apply Rmult_lt_reg_r with (1 + p ^ 2); try lra; unfold Rdiv; rewrite Rmult_assoc, Rinv_l by lra; nra.
Qed.
Lemma Hy_derive p : 0 <= p < 1 -> is_derive Hy p (2 * sin th * (1 - p ^ 2) / D p).
Proof.
  intros H. assert (P : 0 < 1 + p ^ 2) by nra. assert (DP := D_pos p H). assert (DS := D_sin p). unfold Hy.
  evar_last; [apply (is_derive_comp atanh (fun p => 2 * p * sin th / (1 + p ^ 2))); [apply is_derive_atanh, y_range, H|auto_derive; [lra|reflexivity]]|].
  unfold scal; simpl; unfold mult; simpl. rewrite <- DS in *. field. repeat split; try lra.
Qed.
Lemma sgn_pow k : (-1) ^ k * (-1) ^ k = 1.
Proof. rewrite <- Rpow_mult_distr. replace (-1 * -1) with 1 by ring. apply pow1. Qed.
Lemma odd_derive k X p : is_derive (fun p => 2 * (-1) ^ k * p ^ (2 * k + 1) * X / (2 * INR k + 1)) p (2 * (-1) ^ k * p ^ (2 * k) * X).
Proof.
  auto_derive; [trivial|]. change (k + (k + 0))%nat with (2 * k)%nat. replace (Init.Nat.pred (2 * k + 1)) with (2 * k)%nat by lia.
  replace (INR (2 * k + 1)) with (2 * INR k + 1) by (rewrite plus_INR, mult_INR; simpl; ring). assert (Q := pos_INR k). field. lra.
Qed.
Lemma Gx_derive n p : 0 <= p < 1 ->
  is_derive (Gx n) p (2 * (cos th * (1 + p ^ 2) - (-1) ^ n * p ^ (2 * n) * (cos (ang n) + p ^ 2 * cos (ang n - 2 * th))) / D p).
Proof.
  intros H. assert (DP := D_pos p H). induction n as [|n IH].
  - evar_last; [apply (is_derive_const (K := R_AbsRing) (V := R_NormedModule) 0)|]. unfold zero; simpl.
    replace (ang 0) with th by (unfold ang; simpl; ring). replace (th - 2 * th) with (- th) by ring. rewrite cos_neg. field. lra.
  - cbn [Gx]. evar_last; [apply (is_derive_plus (Gx n)); [exact IH|apply odd_derive]|]. match goal with |- plus ?a ?b = ?c => change (@eq R (a + b) c) end.
    replace (p ^ (2 * S n)) with (p ^ (2 * n) * p ^ 2) by (rewrite <- pow_add; f_equal; lia). rewrite ang_S. replace (ang n + 2 * th - 2 * th) with (ang n) by ring.
    rewrite !cos_plus, !cos_minus. change ((-1) ^ S n) with (-1 * (-1) ^ n). assert (In := pos_INR n). set (w := p ^ (2 * n)). set (e := (-1) ^ n). set (A := ang n).
    apply Rmult_eq_reg_r with (D p); [|lra].
    transitivity (2 * (cos th * (1 + p ^ 2) - e * w * (cos A + p ^ 2 * (cos A * cos (2 * th) + sin A * sin (2 * th)))) + 2 * e * w * cos A * D p); [field; lra|].
    transitivity (2 * (cos th * (1 + p ^ 2) - -1 * e * (w * p ^ 2) * (cos A * cos (2 * th) - sin A * sin (2 * th) + p ^ 2 * cos A))); [unfold D; ring|field; lra].
Qed.
Lemma Gy_derive n p : 0 <= p < 1 ->
  is_derive (Gy n) p (2 * (sin th * (1 - p ^ 2) - (-1) ^ n * p ^ (2 * n) * (sin (ang n) + p ^ 2 * sin (ang n - 2 * th))) / D p).
Proof.
  intros H. assert (DP := D_pos p H). induction n as [|n IH].
  - evar_last; [apply (is_derive_const (K := R_AbsRing) (V := R_NormedModule) 0)|]. unfold zero; simpl.
    replace (ang 0) with th by (unfold ang; simpl; ring). replace (th - 2 * th) with (- th) by ring. rewrite sin_neg. field. lra.
  - cbn [Gy]. evar_last; [apply (is_derive_plus (Gy n)); [exact IH|apply odd_derive]|]. match goal with |- plus ?a ?b = ?c => change (@eq R (a + b) c) end.
    replace (p ^ (2 * S n)) with (p ^ (2 * n) * p ^ 2) by (rewrite <- pow_add; f_equal; lia). rewrite ang_S. replace (ang n + 2 * th - 2 * th) with (ang n) by ring.
    rewrite !sin_plus, !sin_minus. change ((-1) ^ S n) with (-1 * (-1) ^ n). assert (In := pos_INR n). set (w := p ^ (2 * n)). set (e := (-1) ^ n). set (A := ang n).
    apply Rmult_eq_reg_r with (D p); [|lra].
    transitivity (2 * (sin th * (1 - p ^ 2) - e * w * (sin A + p ^ 2 * (sin A * cos (2 * th) - cos A * sin (2 * th)))) + 2 * e * w * sin A * D p); [field; lra|].
    transitivity (2 * (sin th * (1 - p ^ 2) - -1 * e * (w * p ^ 2) * (sin A * cos (2 * th) + cos A * sin (2 * th) + p ^ 2 * sin A))); [unfold D; ring|field; lra].
Qed.
Lemma G_0 n : Gx n 0 = 0 /\ Gy n 0 = 0.
Proof.
  induction n as [|n [A B]]; [split; reflexivity|]. cbn [Gx Gy]. rewrite A, B. rewrite pow_i by lia. split; unfold Rdiv; ring.
Qed.
Lemma H_0 : Hx 0 = 0 /\ Hy 0 = 0.
Proof.
  unfold Hx, Hy. split.
  - replace (2 * 0 * cos th / (1 - 0 ^ 2)) with 0 by field. apply atan_0.
  - replace (2 * 0 * sin th / (1 + 0 ^ 2)) with 0 by field. unfold atanh. replace ((1 + 0) / (1 - 0)) with 1 by field. rewrite ln_1. ring.
Qed.
Lemma bound_derive k X p : is_derive (fun p => X * (p ^ (2 * k + 1) / (2 * INR k + 1))) p (X * p ^ (2 * k)).
Proof.
  auto_derive; [trivial|]. change (k + (k + 0))%nat with (2 * k)%nat. replace (Init.Nat.pred (2 * k + 1)) with (2 * k)%nat by lia.
  replace (INR (2 * k + 1)) with (2 * INR k + 1) by (rewrite plus_INR, mult_INR; simpl; ring). assert (Q := pos_INR k). field. lra.
Qed.
(** the error of the partial sum in the direction (c, s) *)
Lemma arc_error n P c s : 0 <= P < 1 -> c ^ 2 + s ^ 2 = 1 ->
  c * (Gx n P - Hx P) + s * (Gy n P - Hy P) <= 2 / (1 - P ^ 2) * (P ^ (2 * n + 1) / (2 * INR n + 1)).
Proof.
  intros HP U. apply Rminus_le_0. assert (In := pos_INR n). assert (PP : 0 < 1 - P ^ 2) by nra.
  set (E := fun p => (-1) ^ n * p ^ (2 * n) * (c * (cos (ang n) + p ^ 2 * cos (ang n - 2 * th)) + s * (sin (ang n) + p ^ 2 * sin (ang n - 2 * th)))).
  apply (pos_from_derive (fun p => 2 / (1 - P ^ 2) * (p ^ (2 * n + 1) / (2 * INR n + 1)) - (c * (Gx n p - Hx p) + s * (Gy n p - Hy p)))
    (fun p => 2 / (1 - P ^ 2) * p ^ (2 * n) + 2 * E p / D p)); [lra| | |].
  - destruct (G_0 n) as [-> ->]. destruct H_0 as [-> ->]. rewrite pow_i by lia. unfold Rdiv. ring.
  - intros p Hp. assert (DP := D_pos p ltac:(lra)). 
    evar_last.
    + apply (is_derive_minus (fun p => 2 / (1 - P ^ 2) * (p ^ (2 * n + 1) / (2 * INR n + 1))) (fun p => c * (Gx n p - Hx p) + s * (Gy n p - Hy p))).
      * apply (bound_derive n (2 / (1 - P ^ 2))).
      * apply (is_derive_plus (fun p => c * (Gx n p - Hx p)) (fun p => s * (Gy n p - Hy p))).
        -- apply (is_derive_scal (fun p => Gx n p - Hx p)). apply (is_derive_minus (Gx n) Hx); [apply Gx_derive|apply Hx_derive]; lra.
        -- apply (is_derive_scal (fun p => Gy n p - Hy p)). apply (is_derive_minus (Gy n) Hy); [apply Gy_derive|apply Hy_derive]; lra.
    + match goal with |- minus ?a (plus (?c * minus ?u ?v) (?d * minus ?w ?z)) = ?r => change (@eq R (a - (c * (u - v) + d * (w - z))) r) end.
      unfold E. field. split; lra.
  - intros p Hp. assert (DP := D_pos p ltac:(lra)). assert (DL := D_low p ltac:(lra)). unfold E. set (w := p ^ (2 * n)). assert (W : 0 <= w) by (unfold w; apply pow_le; lra).
    set (K := c * (cos (ang n) + p ^ 2 * cos (ang n - 2 * th)) + s * (sin (ang n) + p ^ 2 * sin (ang n - 2 * th))).
    assert (K2 : K ^ 2 <= D p).
    { set (A := cos (ang n) + p ^ 2 * cos (ang n - 2 * th)) in *. set (B := sin (ang n) + p ^ 2 * sin (ang n - 2 * th)) in *.
      assert (AB : A ^ 2 + B ^ 2 = D p).
      { unfold A, B, D. rewrite cos_minus, sin_minus. 
        transitivity ((cos (ang n) ^ 2 + sin (ang n) ^ 2) * (1 + 2 * p ^ 2 * cos (2 * th) + p ^ 4 * (cos (2 * th) ^ 2 + sin (2 * th) ^ 2))); [ring|rewrite !cs1; ring]. }
      unfold K. replace (D p) with ((A ^ 2 + B ^ 2) * (c ^ 2 + s ^ 2)) by (rewrite U, AB; ring). assert (G := pow2_ge_0 (c * B - s * A)). nra. }
    assert (L : Rabs ((-1) ^ n * K / D p) <= / (1 - P ^ 2)).
    { unfold Rdiv. rewrite !Rabs_mult, pow_1_abs, Rmult_1_l, Rabs_inv, (Rabs_pos_eq (D p)) by lra.
      assert (Kp : Rabs K <= sqrt (D p)) by (rewrite <- sqrt_Rsqr_abs; apply sqrt_le_1_alt; unfold Rsqr; lra).
      assert (SD : sqrt (D p) * sqrt (D p) = D p) by (apply sqrt_sqrt; lra). assert (SP : 0 < sqrt (D p)) by (apply sqrt_lt_R0; lra).
      assert (S1 : 1 - p ^ 2 <= sqrt (D p)). { rewrite <- (sqrt_pow2 (1 - p ^ 2)) by nra. apply sqrt_le_1_alt. exact DL. }
      apply Rle_trans with (/ sqrt (D p)).
      - apply Rmult_le_reg_r with (sqrt (D p) * sqrt (D p)); [nra|]. rewrite SD at 1. rewrite Rmult_assoc, Rinv_l, Rmult_1_r by lra.
        replace (/ sqrt (D p) * (sqrt (D p) * sqrt (D p))) with (sqrt (D p)) by (field; lra). exact Kp.
      - apply Rinv_le_contravar; [lra|]. nra. }
    replace (2 / (1 - P ^ 2) * w + 2 * ((-1) ^ n * w * K) / D p) with (2 * w * (/ (1 - P ^ 2) + (-1) ^ n * K / D p)) by (field; lra).
    apply Rmult_le_pos; [lra|]. apply Rabs_le_between in L. lra.
Qed.
Lemma arc_error_vec n P : 0 <= P < 1 -> (Gx n P - Hx P) ^ 2 + (Gy n P - Hy P) ^ 2 <= (2 / (1 - P ^ 2) * (P ^ (2 * n + 1) / (2 * INR n + 1))) ^ 2.
Proof.
  intros HP. assert (A := arc_error n P). set (u := Gx n P - Hx P) in *. set (v := Gy n P - Hy P) in *. set (B := 2 / (1 - P ^ 2) * (P ^ (2 * n + 1) / (2 * INR n + 1))) in *. clearbody u v B.
  destruct (Req_dec (u ^ 2 + v ^ 2) 0) as [Z|Z]; [rewrite Z; apply pow2_ge_0|].
  assert (N : 0 < u ^ 2 + v ^ 2) by (assert (X := pow2_ge_0 u); assert (Y := pow2_ge_0 v); lra).
  set (r := sqrt (u ^ 2 + v ^ 2)). assert (Rp : 0 < r) by (apply sqrt_lt_R0; exact N). assert (R2 : r * r = u ^ 2 + v ^ 2) by (apply sqrt_sqrt; lra).
  assert (Q := A (u / r) (v / r) HP). assert (L : r <= B).
  { replace r with (u / r * u + v / r * v); [apply Q|]; apply Rmult_eq_reg_r with (r * r); try nra.
    - transitivity (u ^ 2 + v ^ 2); [field; lra|lra].
    - transitivity (r * (u ^ 2 + v ^ 2)); [field; lra|rewrite <- R2; ring]. }
  rewrite <- R2. nra.
Qed.
End Arc.
