(** * The EPL series at t = 1 is the SIE, and the truncation error for every slope (C101) *)
From Coq Require Import Reals List Arith Lia Lra Psatz.
From Coquelicot Require Import Coquelicot.
From Verif Require Import Py RealFun Geo_Model Lens_Lib LensBasic_Model LensBasic2_Proofs Epl_Model Epl_Spec Epl_Proofs Epl2_Proofs Epl3_Proofs Epl4_Proofs Epl5_Proofs
  Einstein_Proofs Round_Proofs Series_Proofs.
Local Open Scope R_scope.

Lemma fold_mult_acc l c : fold_right Rmult c l = fold_right Rmult 1 l * c.
Proof. induction l as [|a l IHl]; cbn [fold_right]; [ring|rewrite IHl; ring]. Qed.
Lemma coef_S t k : fold_right Rmult 1 (map (factor t) (seq 1 (S k))) = fold_right Rmult 1 (map (factor t) (seq 1 k)) * factor t (S k).
Proof. rewrite seq_S, map_app, fold_right_app. cbn [map fold_right]. rewrite fold_mult_acc. replace (1 + k)%nat with (S k) by lia. ring. Qed.
Lemma coef_iso k : fold_right Rmult 1 (map (factor 1) (seq 1 k)) = / (2 * INR k + 1).
Proof.
  induction k as [|k IH]; [simpl; field|]. rewrite coef_S, IH. unfold factor. rewrite S_INR. assert (Q := pos_INR k). field. lra.
Qed.
(** for every slope the coefficients are at most one in size *)
Lemma coef_abs t k : 0 < t < 2 -> Rabs (fold_right Rmult 1 (map (factor t) (seq 1 k))) <= 1.
Proof.
  intros Ht. induction k as [|k IH]; [cbn [seq map fold_right]; rewrite Rabs_R1; lra|]. rewrite coef_S, Rabs_mult.
  assert (F : Rabs (factor t (S k)) <= 1).
  { unfold factor. rewrite S_INR. assert (Q := pos_INR k). assert (P : 0 < 2 * (INR k + 1) + (2 - t)) by lra.
    unfold Rdiv. rewrite Rabs_mult, Rabs_inv, (Rabs_pos_eq (2 * (INR k + 1) + (2 - t))) by lra. apply Rmult_le_reg_r with (2 * (INR k + 1) + (2 - t)); [exact P|].
    rewrite Rmult_assoc, Rinv_l by lra. rewrite Rmult_1_r, Rmult_1_l. apply Rabs_le. lra. }
  assert (A := Rabs_pos (fold_right Rmult 1 (map (factor t) (seq 1 k)))). assert (B := Rabs_pos (factor t (S k))). nra.
Qed.

Section Iso.
Variables (q Rein : R).
Hypotheses (Hq : 0 < q < 1) (HR : 0 < Rein).
Let f := ellf q.
Let p := sqrt f.
Lemma f_range : 0 < f < 1.
Proof.
  unfold f, ellf. split; [apply Rdiv_lt_0_compat; lra|]. apply Rmult_lt_reg_r with (1 + q); [lra|]. unfold Rdiv. rewrite Rmult_assoc, Rinv_l by lra. lra.
Qed.
Lemma p_pos : 0 < p. Proof. apply sqrt_lt_R0, f_range. Qed.
Lemma p2 : p ^ 2 = f. Proof. apply pow2_sqrt. assert (F := f_range). lra. Qed.
Lemma p_lt1 : p < 1. Proof. assert (A := p2). assert (F := f_range). assert (P := p_pos). nra. Qed.
Lemma psum_arc x y th n : ((x, y) : C) <> 0%C -> x = Cmod (x, y) * cos th -> y = Cmod (x, y) * sin th ->
  2 * p * fst (psum (x, y) 1 q n) = Cmod (x, y) * Gx th n p /\ 2 * p * snd (psum (x, y) 1 q n) = Cmod (x, y) * Gy th n p.
Proof.
  intros NZ Hx Hy. induction n as [|n [IH1 IH2]]; [cbn [psum Gx Gy fst snd RtoC]; split; ring|].
  assert (E := om_polar 1 q x y NZ th n Hx Hy). unfold om in E. rewrite coef_iso in E. fold f in E.
  cbn [psum Gx Gy]. rewrite E. clear E. rewrite <- p2. replace (- p ^ 2) with (-1 * p ^ 2) by ring. rewrite Rpow_mult_distr, <- pow_mult, pow_add, pow_1.
  replace (ang th n) with (th + 2 * INR n * th) by (unfold ang; ring). rewrite cos_plus, sin_plus.
  set (r := Cmod (x, y)) in *. assert (In := pos_INR n). set (A := 2 * INR n * th). set (w := p ^ (2 * n)). set (e := (-1) ^ n).
  unfold Cplus, Cmult, RtoC. cbn [fst snd]. rewrite !Rmult_plus_distr_l, IH1, IH2. split; apply Rplus_eq_compat_l.
  - rewrite Hx at 1. rewrite Hy at 1. field. lra.
  - rewrite Hx at 1. rewrite Hy at 1. field. lra.
Qed.
Lemma root_eq : sqrt (1 - q ^ 2) = p * (1 + q).
Proof.
  assert (P := p_pos). rewrite <- (sqrt_pow2 (p * (1 + q))) by nra. f_equal. rewrite Rpow_mult_distr, p2. unfold f, ellf. field. lra.
Qed.
(** deflection in the frame of the lens *)
Definition sie0 (x y : R) : R * R :=
  let F := sqrt (1 - q ^ 2) in let psi := sqrt (q ^ 2 * (x ^ 2 + 0 ^ 2) + y ^ 2) in
  (Rein * sqrt q / F * atan (F * x / (psi + 0)), Rein * sqrt q / F * atanh (F * y / (psi + q ^ 2 * 0))).
Lemma frame_error n x y : x <> 0 \/ y <> 0 ->
  (fst (alpha0 q Rein 1 n x y) - fst (sie0 x y)) ^ 2 + (snd (alpha0 q Rein 1 n x y) - snd (sie0 x y)) ^ 2 <= (Rein / sqrt q * (f ^ n / (2 * INR n + 1))) ^ 2.
Proof.
  intros N. assert (F := f_range). assert (P := p_pos). assert (P2 := p2). assert (P1 := p_lt1). assert (Hq' : 0 < q <= 1) by lra.
  assert (NZ := NZ q Hq' x y N). assert (MP := mod_pos q Hq' x y N). assert (In := pos_INR n).
  set (r := Cmod ((q * x)%R, y)) in *.
  assert (Er : sqrt (q ^ 2 * (x ^ 2 + 0 ^ 2) + y ^ 2) = r) by (unfold r, Cmod; cbn [fst snd]; f_equal; ring).
  set (th := atan2 y (q * x)). destruct (atan2_polar (q * x) y) as [T1 T2]. fold th in T1, T2.
  assert (Em : sqrt ((q * x) ^ 2 + y ^ 2) = r) by reflexivity. rewrite Em in T1, T2.
  destruct (psum_arc (q * x)%R y th n NZ T1 T2) as [S1 S2]. fold r in S1, S2.
  assert (AE := arc_error_vec th n p ltac:(lra)).
  assert (Sq : sqrt q * sqrt q = q) by (apply sqrt_sqrt; lra). assert (SqP : 0 < sqrt q) by (apply sqrt_lt_R0; lra).
  assert (A0 : fst (alpha0 q Rein 1 n x y) = Rein * sqrt q / (p * (1 + q)) * Gx th n p /\ snd (alpha0 q Rein 1 n x y) = Rein * sqrt q / (p * (1 + q)) * Gy th n p).
  { unfold alpha0. fold r. destruct (Req_EM_T r 0) as [Z|_]; [lra|]. unfold g, K0. fold r.
    assert (Pw : power (Rein * sqrt q / r) 1 = Rein * sqrt q / r).
    { assert (0 < Rein * sqrt q / r) by (apply Rdiv_lt_0_compat; [apply Rmult_lt_0_compat|]; assumption). unfold power. destruct (Req_EM_T _ 0); [lra|]. apply Rpower_1. assumption. }
    rewrite Pw. unfold Cmult, RtoC. cbn [fst snd]. rewrite !Rmult_0_l, Rminus_0_r, Rplus_0_r. 
    assert (Z1 : fst (psum ((q * x)%R, y) 1 q n) = r * Gx th n p / (2 * p)) by (rewrite <- S1; field; lra).
    assert (Z2 : snd (psum ((q * x)%R, y) 1 q n) = r * Gy th n p / (2 * p)) by (rewrite <- S2; field; lra).
    rewrite Z1, Z2. split; field; lra. }
  assert (Fq : 1 - f = 2 * q / (1 + q)) by (unfold f, ellf; field; lra). assert (Fq2 : 1 + f = 2 / (1 + q)) by (unfold f, ellf; field; lra).
  assert (B0 : sie0 x y = (Rein * sqrt q / (p * (1 + q)) * Hx th p, Rein * sqrt q / (p * (1 + q)) * Hy th p)).
  { unfold sie0. cbv zeta. rewrite Er, root_eq, Rmult_0_r, !Rplus_0_r. unfold Hx, Hy. rewrite P2, Fq, Fq2. f_equal; f_equal; f_equal.
    - rewrite <- (Rmult_1_l (cos th)). replace (cos th) with (q * x / r) by (rewrite T1 at 1; field; lra). field. lra.
    - replace (sin th) with (y / r) by (rewrite T2 at 1; field; lra). field. lra. }
  destruct A0 as [-> ->]. rewrite B0. cbn [fst snd]. set (k := Rein * sqrt q / (p * (1 + q))). assert (kp : 0 < k) by (unfold k; apply Rdiv_lt_0_compat; apply Rmult_lt_0_compat; lra).
  replace ((k * Gx th n p - k * Hx th p) ^ 2 + (k * Gy th n p - k * Hy th p) ^ 2) with (k ^ 2 * ((Gx th n p - Hx th p) ^ 2 + (Gy th n p - Hy th p) ^ 2)) by ring.
  apply Rle_trans with (k ^ 2 * (2 / (1 - p ^ 2) * (p ^ (2 * n + 1) / (2 * INR n + 1))) ^ 2); [apply Rmult_le_compat_l; [apply pow2_ge_0|exact AE]|]. right.
  rewrite <- Rpow_mult_distr. f_equal. rewrite pow_add, pow_mult, P2, pow_1, Fq. unfold k. assert (RS : Rein * sqrt q = Rein * q / sqrt q).
  { apply Rmult_eq_reg_r with (sqrt q); [|lra]. transitivity (Rein * (sqrt q * sqrt q)); [ring|]. rewrite Sq. field. lra. }
  rewrite RS. field. repeat split; lra.
Qed.
End Iso.

Lemma rotated_error (a1 a2 b1 b2 phi : R) :
  (fst (derotate a1 a2 (Some phi)) - fst (derotate b1 b2 (Some phi))) ^ 2 + (snd (derotate a1 a2 (Some phi)) - snd (derotate b1 b2 (Some phi))) ^ 2 = (a1 - b1) ^ 2 + (a2 - b2) ^ 2.
Proof. cbn [derotate fst snd]. transitivity (((a1 - b1) ^ 2 + (a2 - b2) ^ 2) * (cos phi ^ 2 + sin phi ^ 2)); [ring|rewrite cs1; ring]. Qed.
Lemma frame_off x0 y0 phi x y : x <> x0 \/ y <> y0 -> let '(X, Y) := translate_rotate x y x0 y0 (Some phi) in X <> 0 \/ Y <> 0.
Proof.
  intros N. unfold translate_rotate. assert (P : 0 < (x - x0) ^ 2 + (y - y0) ^ 2) by (apply norm2_pos; destruct N; [left|right]; lra). rewrite <- (rot_r (x - x0) (y - y0) phi) in P.
  set (X := (x - x0) * cos phi + _) in *. set (Y := (y - y0) * cos phi - _) in *. cbv zeta. destruct (Req_dec X 0) as [E|E]; [|left; exact E]. right. intros E2. rewrite E, E2 in P. lra.
Qed.
Lemma epl_iso_error x0 y0 q phi Rein n c x y : (1 <= n)%nat -> good_chunk n c -> 0 < q < 1 -> 0 < Rein -> x <> x0 \/ y <> y0 ->
  exists a, reduced_deflection_angle_epl x0 y0 q phi Rein 1 n c x y = Ok a /\
  let b := reduced_deflection_angle_sie x0 y0 q phi Rein 0 x y in
  (fst a - fst b) ^ 2 + (snd a - snd b) ^ 2 <= (Rein / sqrt q * (((1 - q) / (1 + q)) ^ n / (2 * INR n + 1))) ^ 2.
Proof.
  intros Hn Hc Hq HR N. eexists. split; [apply deflection_framed; assumption|]. cbv zeta. unfold framed_alpha, reduced_deflection_angle_sie.
  destruct (Req_EM_T q 1) as [E|_]; [lra|]. assert (O := frame_off x0 y0 phi x y N). destruct (translate_rotate x y x0 y0 (Some phi)) as [X Y]. cbv beta iota zeta.
  assert (E := frame_error q Rein Hq HR n X Y O). unfold sie0 in E. cbv zeta in E. destruct (alpha0 q Rein 1 n X Y) as [a1 a2]. rewrite rotated_error. exact E.
Qed.
