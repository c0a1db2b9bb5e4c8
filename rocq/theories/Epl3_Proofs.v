(** * Consistency of the elliptical power law *)
From Coq Require Import Reals List Arith Lia Lra Psatz.
From Coquelicot Require Import Coquelicot.
From Verif Require Import Py Fsum Calc2 RealFun Geo_Model Lens_Spec Lens_Lib LensBasic_Model Wirtinger Epl_Model Epl_Spec Epl_Proofs Epl2_Proofs.
Local Open Scope R_scope.

(** ** the neglected term *)
Lemma neglected_coef t k : 0 < t < 2 -> (INR k + 1 - t / 2) * fold_right Rmult 1 (map (factor t) (seq 1 k)) = neglected t k.
Proof.
  intros Ht. induction k as [|k IH]; [cbn; ring|].
  rewrite seq_S, map_app, fold_right_app. cbn [map fold_right neglected]. rewrite <- IH. replace (1 + k)%nat with (S k) by lia.
  assert (FR : forall l c, fold_right Rmult c l = fold_right Rmult 1 l * c) by (induction l as [|a l IHl]; intros c; cbn [fold_right]; [ring|rewrite IHl; ring]).
  rewrite (FR _ (factor t (S k) * 1)). set (P := fold_right Rmult 1 _). unfold factor. rewrite S_INR. assert (Q := pos_INR k). field. lra.
Qed.
Lemma neglected_pos t n : 0 < t < 2 -> 0 < neglected t n.
Proof.
  intros Ht. induction n as [|n IH]; cbn [neglected]; [lra|]. assert (Q := pos_INR n). apply Rmult_lt_0_compat; [exact IH|]. apply Rdiv_lt_0_compat; lra.
Qed.
Lemma neglected_bound t n : 0 < t < 2 -> neglected t (S n) <= INR (S n).
Proof.
  intros Ht. induction n as [|n IH].
  - cbn [neglected INR]. replace ((1 - t / 2) * ((0 + t / 2) / (0 + 1 - t / 2))) with (t / 2) by (field; lra). lra.
  - cbn [neglected] in *. set (c := neglected t n * _) in *. assert (Q := pos_INR n).
    assert (P : 0 < c). { unfold c. apply Rmult_lt_0_compat; [apply neglected_pos, Ht|]. apply Rdiv_lt_0_compat; lra. }
    rewrite !S_INR in *. apply Rle_trans with ((INR n + 1) * ((INR n + 2) / (INR n + 1))); [|right; field; lra].
    apply Rmult_le_compat; try lra.
    + left. apply Rdiv_lt_0_compat; lra.
    + apply Rmult_le_reg_r with ((INR n + 1 + 1 - t / 2) * (INR n + 1)); [nra|]. 
      replace ((INR n + 1 + t / 2) / (INR n + 1 + 1 - t / 2) * ((INR n + 1 + 1 - t / 2) * (INR n + 1))) with ((INR n + 1 + t / 2) * (INR n + 1)) by (field; lra).
      replace ((INR n + 2) / (INR n + 1) * ((INR n + 1 + 1 - t / 2) * (INR n + 1))) with ((INR n + 2) * (INR n + 1 + 1 - t / 2)) by (field; lra). nra.
Qed.
Lemma neglected_small t n : 0 < t <= 1 -> neglected t (S n) <= t / 2.
Proof.
  intros Ht. induction n as [|n IH].
  - cbn [neglected INR]. right. field. lra.
  - cbn [neglected] in *. set (c := neglected t n * _) in *. assert (Q := pos_INR n).
    assert (P : 0 < c). { unfold c. apply Rmult_lt_0_compat; [apply neglected_pos; lra|]. apply Rdiv_lt_0_compat; lra. }
    apply Rle_trans with (t / 2 * 1); [|lra]. rewrite !S_INR in *. apply Rmult_le_compat; try lra.
    + left. apply Rdiv_lt_0_compat; lra.
    + apply Rmult_le_reg_r with (INR n + 1 + 1 - t / 2); [lra|].
      replace ((INR n + 1 + t / 2) / (INR n + 1 + 1 - t / 2) * (INR n + 1 + 1 - t / 2)) with (INR n + 1 + t / 2) by (field; lra). lra.
Qed.
Lemma neglected_grows n : (INR (S n) + 1 / 8) / 2 <= neglected (3 / 2) (S n) ^ 2.
Proof.
  induction n as [|n IH]; [cbn; lra|]. cbn [neglected] in *. set (c := neglected (3 / 2) n * _) in *. assert (Q := pos_INR n).
  rewrite Rpow_mult_distr. rewrite !S_INR in *. set (m := INR n) in *.
  set (w := (m + 1 + 3 / 2 / 2) / (m + 1 + 1 - 3 / 2 / 2)).
  apply Rle_trans with ((m + 1 + 1 / 8) / 2 * w ^ 2).
  - unfold w. apply Rmult_le_reg_r with ((m + 1 + 1 - 3 / 2 / 2) ^ 2); [apply pow_lt; lra|].
    replace ((m + 1 + 1 / 8) / 2 * ((m + 1 + 3 / 2 / 2) / (m + 1 + 1 - 3 / 2 / 2)) ^ 2 * (m + 1 + 1 - 3 / 2 / 2) ^ 2) with ((m + 1 + 1 / 8) / 2 * (m + 1 + 3 / 2 / 2) ^ 2) by (field; lra).
    nra.
  - apply Rmult_le_compat_r; [apply pow2_ge_0|exact IH].
Qed.

(** ** in the frame of the lens *)
Section Frame.
Variables (q Rein t : R) (n : nat).
Hypotheses (Hq : 0 < q <= 1) (HR : 0 < Rein) (Ht : 0 < t < 2).
Definition K0 := Rein * sqrt q.
Lemma K0_pos : 0 < K0. Proof. apply Rmult_lt_0_compat; [exact HR|apply sqrt_lt_R0; lra]. Qed.
Definition alpha0 (a b : R) : R * R :=
  if Req_EM_T (Cmod ((q * a)%R, b)) 0 then (0, 0) else ((2 / (1 + q) * g t K0 (q * a)%R b)%R * psum ((q * a)%R, b) t q n)%C.
Definition psi0 (a b : R) : R := (a * fst (alpha0 a b) + b * snd (alpha0 a b)) / (2 - t).
Definition kappa0 (a b : R) : R := (2 - t) / 2 * g t K0 (q * a)%R b.
Variables (a b : R).
Hypothesis Hab : a <> 0 \/ b <> 0.
Lemma NZ : (((q * a)%R, b) : C) <> 0%C.
Proof. intros E. injection E as E1 E2. apply Rmult_integral in E1. destruct E1; [lra|]. destruct Hab; contradiction. Qed.
Notation DZ := (csumn n (dz t q K0 (q * a)%R b)).
Notation DB := (csumn n (dzb t q K0 (q * a)%R b)).
Lemma mod_pos : 0 < Cmod ((q * a)%R, b). Proof. apply Cmod_gt_0, NZ. Qed.
Lemma alpha0_W : W (fun u v => alpha_c t q K0 n u v) (q * a)%R b ((2 / (1 + q))%R * DZ)%C ((2 / (1 + q))%R * DB)%C.
Proof.
  apply (W_ext (fun u v => RtoC (2 / (1 + q)) * (RtoC (g t K0 u v) * psum (u, v) t q n))%C).
  - intros u v. unfold alpha_c. rewrite RtoC_mult. ring.
  - eapply W_eq; [apply (W_mult (fun _ _ => RtoC (2 / (1 + q)))); [apply W_const|apply W_psum; try assumption; [exact K0_pos|exact NZ]]| |]; cbv beta; ring.
Qed.
Lemma alpha0_near : locally_2d (fun u v => alpha_c t q K0 n (q * u) v = alpha0 u v) a b.
Proof.
  assert (D : D2 (fun u v => Cmod ((q * u)%R, v)) a b (q * (q * a / Cmod ((q * a)%R, b))) (b / Cmod ((q * a)%R, b))).
  { unfold Cmod. cbn [fst snd]. assert (N := D2_norm (q * a)%R b). 
    eapply D2_eq; [apply (D2_comp (fun u v => sqrt (u ^ 2 + v ^ 2)) (fun u _ => q * u) (fun _ v => v) a b); [apply N|apply D2_scal, D2_fst|apply D2_snd]| |].
    - destruct Hab as [E|E]; [left|right; exact E]. intros Z0. apply Rmult_integral in Z0. destruct Z0; [lra|contradiction].
    - ring.
    - ring. }
  eapply locally_2d_impl; [|exact (D2_locally_gt _ _ _ _ _ 0 D mod_pos)]. apply locally_2d_forall. intros u v P.
  unfold alpha0. destruct (Req_EM_T (Cmod ((q * u)%R, v)) 0); [lra|]. reflexivity.
Qed.
(** the four derivatives *)
Notation c2 := (2 / (1 + q)).
Lemma alpha0_D2 :
  D2 (fun u v => fst (alpha0 u v)) a b (c2 * q * (fst DZ + fst DB)) (c2 * (snd DB - snd DZ)) /\
  D2 (fun u v => snd (alpha0 u v)) a b (c2 * q * (snd DZ + snd DB)) (c2 * (fst DZ - fst DB)).
Proof.
  destruct alpha0_W as [H1 H2].
  split.
  - apply (D2_ext_loc (fun u v => fst (alpha_c t q K0 n (q * u) v))).
    + eapply locally_2d_impl; [|exact alpha0_near]. apply locally_2d_forall. intros u v ->. reflexivity.
    + eapply D2_eq; [apply (D2_comp (fun u v => fst (alpha_c t q K0 n u v)) (fun u _ => q * u) (fun _ v => v) a b); [exact H1|apply D2_scal, D2_fst|apply D2_snd]| |];
      unfold Cmult, RtoC; cbn [fst snd]; ring.
  - apply (D2_ext_loc (fun u v => snd (alpha_c t q K0 n (q * u) v))).
    + eapply locally_2d_impl; [|exact alpha0_near]. apply locally_2d_forall. intros u v ->. reflexivity.
    + eapply D2_eq; [apply (D2_comp (fun u v => snd (alpha_c t q K0 n u v)) (fun u _ => q * u) (fun _ v => v) a b); [exact H2|apply D2_scal, D2_fst|apply D2_snd]| |];
      unfold Cmult, RtoC; cbn [fst snd]; ring.
Qed.
(** what remains after telescoping *)
Lemma dz0 : dz t q K0 (q * a)%R b 0 = RtoC (kappa0 a b).
Proof.
  unfold dz, om. cbn [omega INR]. unfold kappa0. rewrite RtoC_mult. 
  transitivity ((0 + 1 - t / 2)%R * g t K0 (q * a)%R b)%C; [field; exact NZ|]. f_equal. f_equal. lra.
Qed.
Lemma dzn th : q * a = Cmod ((q * a)%R, b) * cos th -> b = Cmod ((q * a)%R, b) * sin th ->
  dz t q K0 (q * a)%R b n = (RtoC (kappa0 a b * (2 / (2 - t)) * neglected t n * (- ellf q) ^ n) * (cos (2 * INR n * th), sin (2 * INR n * th)))%C.
Proof.
  intros H1 H2. unfold dz. rewrite (om_polar t q (q * a)%R b NZ th n H1 H2), <- (neglected_coef t n Ht).
  set (P := fold_right Rmult 1 _). set (E := (cos (2 * INR n * th), sin (2 * INR n * th))). unfold kappa0.
  replace ((2 - t) / 2 * g t K0 (q * a)%R b * (2 / (2 - t)) * ((INR n + 1 - t / 2) * P) * (- ellf q) ^ n)
    with ((INR n + 1 - t / 2) * g t K0 (q * a)%R b * (P * (- ellf q) ^ n)) by (field; lra).
  rewrite !RtoC_mult. set (E' := E : C). field. exact NZ.
Qed.
Lemma trace_curl : let d := (dz t q K0 (q * a)%R b 0 - dz t q K0 (q * a)%R b n)%C in
  c2 * q * (fst DZ + fst DB) + c2 * (fst DZ - fst DB) = 2 * fst d /\ c2 * q * (snd DZ + snd DB) - c2 * (snd DB - snd DZ) = 2 * snd d.
Proof.
  cbv zeta. assert (T := csum_telescope t q K0 Ht (q * a)%R b NZ n).
  assert (T1 := f_equal fst T). assert (T2 := f_equal snd T). rewrite <- T1, <- T2.
  unfold Cminus, Cplus, Copp, Cmult, RtoC, ellf. cbn [fst snd]. split; field; lra.
Qed.
(** homogeneity *)
Lemma euler1 k : (((q * a)%R, b) * dz t q K0 (q * a)%R b k + Cconj ((q * a)%R, b) * dzb t q K0 (q * a)%R b k = (1 - t)%R * (g t K0 (q * a)%R b * om t q k (q * a)%R b))%C.
Proof.
  unfold dz, dzb. assert (NB := conj_nz _ _ NZ). assert (HT : RtoC t = (RtoC (t / 2) + RtoC (t / 2))%C) by (rewrite <- RtoC_plus; f_equal; field).
  rewrite !RtoC_minus, !RtoC_plus, HT. field. repeat split; try assumption; exact NZ.
Qed.
Lemma euler : (((q * a)%R, b) * DZ + Cconj ((q * a)%R, b) * DB = (1 - t)%R * (g t K0 (q * a)%R b * psum ((q * a)%R, b) t q n))%C.
Proof.
  induction n as [|m IH]; [cbn [csumn psum]; ring|]. cbn [csumn psum].
  transitivity ((((q * a)%R, b) * csumn m (dz t q K0 (q * a)%R b) + Cconj ((q * a)%R, b) * csumn m (dzb t q K0 (q * a)%R b)) + (((q * a)%R, b) * dz t q K0 (q * a)%R b m + Cconj ((q * a)%R, b) * dzb t q K0 (q * a)%R b m))%C; [ring|].
  rewrite IH, euler1. unfold om. ring.
Qed.
Lemma alpha0_val : alpha0 a b = (c2%R * (g t K0 (q * a)%R b * psum ((q * a)%R, b) t q n))%C.
Proof. unfold alpha0. destruct (Req_EM_T _ 0) as [E|_]; [assert (P := mod_pos); lra|]. rewrite RtoC_mult. rewrite Cmult_assoc. reflexivity. Qed.
Lemma psi0_D2 : let cur := (c2 * q * (snd DZ + snd DB) - c2 * (snd DB - snd DZ)) in
  D2 psi0 a b (fst (alpha0 a b) + cur / (2 - t) * b) (snd (alpha0 a b) - cur / (2 - t) * a).
Proof.
  cbv zeta. destruct alpha0_D2 as [H1 H2]. unfold psi0.
  assert (E := euler). assert (E1 := f_equal fst E). assert (E2 := f_equal snd E).
  assert (AV := alpha0_val). assert (A1 := f_equal fst AV). assert (A2 := f_equal snd AV).
  set (S := (g t K0 (q * a)%R b * psum ((q * a)%R, b) t q n)%C) in *.
  unfold Cmult, Cplus, Cconj, RtoC in E1, E2, A1, A2. cbn [fst snd] in E1, E2, A1, A2.
  set (p := fst DZ) in *. set (p' := snd DZ) in *. set (w := fst DB) in *. set (w' := snd DB) in *.
  rewrite Rmult_0_l, Rminus_0_r in A1. rewrite Rmult_0_l, Rplus_0_r in A2. rewrite Rmult_0_l, Rminus_0_r in E1. rewrite Rmult_0_l, Rplus_0_r in E2.
  set (A := fst (alpha0 a b)) in *. set (B := snd (alpha0 a b)) in *.
  (* Euler: x dA/dx + y dA/dy = (1 - t) A *)
  assert (U1 : a * (c2 * q * (p + w)) + b * (c2 * (w' - p')) = (1 - t) * A).
  { rewrite A1. transitivity (c2 * ((1 - t) * fst S)); [|ring]. rewrite <- E1. field. lra. }
  assert (U2 : a * (c2 * q * (p' + w')) + b * (c2 * (p - w)) = (1 - t) * B).
  { rewrite A2. transitivity (c2 * ((1 - t) * snd S)); [|ring]. rewrite <- E2. field. lra. }
  eapply D2_eq.
  - apply D2_div; [|apply D2_plus; apply D2_mult; [apply D2_fst|exact H1|apply D2_snd|exact H2]|apply D2_const]. lra.
  - cbv beta. fold A B. apply Rmult_eq_reg_r with (2 - t); [|lra].
    transitivity (A + (a * (c2 * q * (p + w)) + b * (c2 * q * (p' + w')))); [field; lra|].
    transitivity (A + ((1 - t) * A) + (c2 * q * (p' + w') - c2 * (w' - p')) * b); [rewrite <- U1; ring|field; lra].
  - cbv beta. fold A B. apply Rmult_eq_reg_r with (2 - t); [|lra].
    transitivity (B + (a * (c2 * (w' - p')) + b * (c2 * (p - w)))); [field; lra|].
    transitivity (B + ((1 - t) * B) - (c2 * q * (p' + w') - c2 * (w' - p')) * a); [rewrite <- U2; ring|field; lra].
Qed.
End Frame.
