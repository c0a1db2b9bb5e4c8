(** * Divergence and curl of the truncated series *)
From Coq Require Import Reals List Arith Lia Lra Psatz.
From Coquelicot Require Import Coquelicot.
From Verif Require Import Py Fsum Calc2 RealFun Geo_Model Lens_Spec Lens_Lib Wirtinger Epl_Model Epl_Proofs.
Local Open Scope R_scope.

Lemma conj_nz u v : ((u, v) : C) <> 0%C -> Cconj (u, v) <> 0%C.
Proof. intros H E. apply H. unfold Cconj in E. cbn [fst snd] in E. injection E as E1 E2. subst u. replace v with 0 by lra. reflexivity. Qed.
Section Derivs.
Variables (t q K : R).
Hypothesis Ht : 0 < t < 2.
Hypothesis HK : 0 < K.
Notation f := (ellf q).
Definition Z (u v : R) : C := (u, v).
Definition phi_ (u v : R) : C := phase (u, v) q.
Definition om (k : nat) (u v : R) : C := omega (u, v) t q k.
Variables (x y : R).
Hypothesis NZ : ((x, y) : C) <> 0%C.
Notation z := ((x, y) : C). Notation zb := (Cconj (x, y)).
Lemma W_phase : W phi_ x y (phi_ x y / z)%C (- phi_ x y / zb)%C.
Proof.
  assert (NB := conj_nz x y NZ). unfold phi_, phase. eapply W_eq.
  - apply (W_mult (fun u v => (u, v) / Cconj (u, v))%C (fun _ _ => (- f)%C)); [|apply W_const].
    apply (W_mult (fun u v => (u, v)) (fun u v => / Cconj (u, v))%C); [apply W_z|]. apply (W_inv (fun u v => Cconj (u, v))); [exact NB|apply W_conj].
  - cbv beta. field. split; assumption.
  - cbv beta. field. assumption.
Qed.
Lemma W_om k : W (om k) x y ((INR k + 1)%R * om k x y / z)%C (- INR k * om k x y / zb)%C.
Proof.
  assert (NB := conj_nz x y NZ). induction k as [|k IH].
  - unfold om. cbn [omega INR]. eapply W_eq; [apply W_z| |]; [rewrite Rplus_0_l; field; exact NZ|]. field. exact NB.
  - assert (E : forall u v, om (S k) u v = (RtoC (factor t (S k)) * phi_ u v * om k u v)%C) by reflexivity.
    eapply W_ext; [intros u v; symmetry; apply E|]. eapply W_eq.
    + apply (W_mult (fun u v => RtoC (factor t (S k)) * phi_ u v)%C (om k)); [|exact IH].
      apply (W_mult (fun _ _ => RtoC (factor t (S k))) phi_); [apply W_const|exact W_phase].
    + cbv beta. rewrite E, S_INR, !RtoC_plus. field. exact NZ.
    + cbv beta. rewrite E, S_INR, RtoC_plus. field. exact NB.
Qed.
(** the radial factor *)
Definition g (u v : R) : R := power (K / Cmod (u, v)) t.
Lemma nz_or : x <> 0 \/ y <> 0.
Proof. destruct (Req_dec x 0) as [E|E]; [|left; exact E]. right. intros E2. apply NZ. rewrite E, E2. reflexivity. Qed.
Lemma sq_pos : 0 < x ^ 2 + y ^ 2. Proof. apply norm2_pos, nz_or. Qed.
Lemma D2_g : D2 g x y (- t * g x y * x / (x ^ 2 + y ^ 2)) (- t * g x y * y / (x ^ 2 + y ^ 2)).
Proof.
  assert (N := norm_pos x y nz_or). assert (S2 := sq_pos).
  assert (DN := D2_norm x y nz_or).
  assert (SQ : sqrt (x ^ 2 + y ^ 2) * sqrt (x ^ 2 + y ^ 2) = x ^ 2 + y ^ 2) by (apply sqrt_sqrt; lra).
  assert (GV : g x y = exp (t * ln (K / sqrt (x ^ 2 + y ^ 2)))).
  { unfold g, Cmod. cbn [fst snd]. unfold power. destruct (Req_EM_T _ 0) as [E|_]; [|reflexivity]. exfalso. assert (P := Rdiv_lt_0_compat _ _ HK N). lra. }
  apply (D2_ext_loc (fun u v => exp (t * ln (K / sqrt (u ^ 2 + v ^ 2))))).
  - eapply locally_2d_impl; [|exact (D2_locally_gt _ _ _ _ _ 0 DN N)]. apply locally_2d_forall. intros u v P. unfold g, Cmod. cbn [fst snd].
    unfold power. destruct (Req_EM_T _ 0) as [E|_]; [|reflexivity]. exfalso. assert (P2 := Rdiv_lt_0_compat _ _ HK P). lra.
  - rewrite GV. eapply D2_eq.
    + apply D2_exp. apply D2_scal. apply D2_ln; [apply Rdiv_lt_0_compat; assumption|]. apply D2_div; [lra|apply D2_const|exact DN].
    + cbv beta. set (N0 := sqrt (x ^ 2 + y ^ 2)) in *. rewrite <- SQ. field. lra.
    + cbv beta. set (N0 := sqrt (x ^ 2 + y ^ 2)) in *. rewrite <- SQ. field. lra.
Qed.
Lemma zzb : (z * zb = RtoC (x ^ 2 + y ^ 2))%C.
Proof. unfold Cmult, Cconj, RtoC. cbn [fst snd]. apply (f_equal2 pair); ring. Qed.
Lemma W_g : W (fun u v => RtoC (g u v)) x y (- (t / 2)%R * g x y / z)%C (- (t / 2)%R * g x y / zb)%C.
Proof.
  assert (NB := conj_nz x y NZ). assert (S2 := sq_pos). assert (NN : RtoC (x ^ 2 + y ^ 2) <> 0%C) by (intros E; apply RtoC_inj in E; lra).
  eapply W_eq; [apply W_real, D2_g| |].
  - replace (- (t / 2)%R * g x y / z)%C with (- (t / 2)%R * g x y * zb / RtoC (x ^ 2 + y ^ 2))%C by (rewrite <- zzb; field; split; assumption).
    rewrite <- RtoC_opp, <- RtoC_mult. unfold Cdiv. rewrite <- RtoC_inv by lra.
    unfold Cmult, Cconj, RtoC. cbn [fst snd]. apply (f_equal2 pair); field; lra.
  - replace (- (t / 2)%R * g x y / zb)%C with (- (t / 2)%R * g x y * z / RtoC (x ^ 2 + y ^ 2))%C by (rewrite <- zzb; field; split; assumption).
    rewrite <- RtoC_opp, <- RtoC_mult. unfold Cdiv. rewrite <- RtoC_inv by lra.
    unfold Cmult, Cconj, RtoC. cbn [fst snd]. apply (f_equal2 pair); field; lra.
Qed.
(** a term of the series *)
Definition dz (k : nat) : C := ((INR k + 1 - t / 2)%R * g x y * om k x y / z)%C.
Definition dzb (k : nat) : C := (- (INR k + t / 2)%R * g x y * om k x y / zb)%C.
Lemma W_term k : W (fun u v => RtoC (g u v) * om k u v)%C x y (dz k) (dzb k).
Proof.
  assert (NB := conj_nz x y NZ). eapply W_eq; [apply (W_mult (fun u v => RtoC (g u v)) (om k)); [exact W_g|apply W_om]| |]; unfold dz, dzb.
  - rewrite RtoC_minus, RtoC_plus. field. exact NZ.
  - rewrite RtoC_plus. field. exact NB.
Qed.
Lemma telescope k : (dz k - f * dzb k = dz k - dz (S k))%C.
Proof.
  assert (NB := conj_nz x y NZ). f_equal. f_equal. unfold dz, dzb.
  assert (E : om (S k) x y = (RtoC (factor t (S k)) * phi_ x y * om k x y)%C) by reflexivity. rewrite E. unfold phi_, phase.
  assert (F : ((INR (S k) + 1 - t / 2)%R * factor t (S k) = (INR k + t / 2)%R)%C).
  { rewrite <- RtoC_mult. f_equal. unfold factor. rewrite S_INR. assert (P := pos_INR k). field. lra. }
  transitivity ((INR (S k) + 1 - t / 2)%R * factor t (S k) * (- f * g x y * om k x y / zb))%C.
  - rewrite F. field. exact NB.
  - field. split; assumption.
Qed.
Definition alpha_c (n : nat) (u v : R) : C := ((2 / (1 + q) * g u v)%R * psum (u, v) t q n)%C.
Fixpoint csumn (n : nat) (F : nat -> C) : C := match n with O => 0%C | S m => (csumn m F + F m)%C end.
Lemma W_psum n : W (fun u v => RtoC (g u v) * psum (u, v) t q n)%C x y (csumn n dz) (csumn n dzb).
Proof.
  induction n as [|n IH].
  - apply (W_ext (fun _ _ => RtoC 0)); [|apply W_const]. intros u v. cbn [psum]. ring.
  - cbn [csumn]. eapply W_ext; [|apply W_plus; [exact IH|apply W_term]]. intros u v. cbn [psum]. unfold om. cbv beta. ring.
Qed.
Lemma csum_telescope n : (csumn n dz - f * csumn n dzb = dz 0 - dz n)%C.
Proof.
  induction n as [|n IH]; [cbn [csumn]; ring|]. cbn [csumn]. 
  transitivity ((csumn n dz - f * csumn n dzb) + (dz n - f * dzb n))%C; [ring|]. rewrite IH, telescope. ring.
Qed.
(** the polar form of the terms *)
Lemma om_polar th k : x = Cmod z * cos th -> y = Cmod z * sin th ->
  om k x y = (z * (RtoC (fold_right Rmult 1 (map (factor t) (seq 1 k)) * (- f) ^ k) * (cos (2 * INR k * th), sin (2 * INR k * th))))%C.
Proof.
  intros Hx Hy. induction k as [|k IH].
  - unfold om. cbn [omega seq map fold_right pow INR]. replace (2 * 0 * th) with 0 by ring. rewrite cos_0, sin_0. change ((1, 0) : C) with (RtoC 1). rewrite Rmult_1_l, !Cmult_1_r. reflexivity.
  - assert (E : om (S k) x y = (RtoC (factor t (S k)) * phi_ x y * om k x y)%C) by reflexivity. rewrite E, IH.
    assert (PH : phi_ x y = (RtoC (- f) * (cos (2 * th), sin (2 * th)))%C).
    { assert (NB := conj_nz x y NZ). unfold phi_, phase. rewrite RtoC_opp.
      assert (ZB : (z / zb)%C = (cos (2 * th), sin (2 * th))); [|rewrite ZB; ring].
      assert (S2 := sq_pos). set (r := Cmod z) in *. assert (R2 : r ^ 2 = x ^ 2 + y ^ 2) by (unfold r, Cmod; cbn [fst snd]; apply sqrt_sq2; lra).
      assert (RN : r <> 0) by (intros Z0; rewrite Z0 in R2; cbn [pow] in R2; lra).
      unfold Cdiv, Cmult, Cinv, Cconj. cbn [fst snd].
      replace (x ^ 2 + (- y) ^ 2) with (r ^ 2) by (rewrite R2; ring). rewrite Hx, Hy. rewrite cos_2a, sin_2a.
      apply (f_equal2 pair); field; exact RN. }
    rewrite PH. rewrite seq_S, map_app, fold_right_app. cbn [map fold_right]. rewrite S_INR.
    replace (2 * (INR k + 1) * th) with (2 * INR k * th + 2 * th) by ring. rewrite cos_plus, sin_plus.
    assert (FR : forall l c, fold_right Rmult c l = fold_right Rmult 1 l * c) by (induction l as [|a l IHl]; intros c; cbn [fold_right]; [ring|rewrite IHl; ring]).
    rewrite (FR _ (factor t (1 + k) * 1)). replace (1 + k)%nat with (S k) by lia. set (P := fold_right Rmult 1 _). cbn [pow].
    unfold Cmult, RtoC. cbn [fst snd]. apply (f_equal2 pair); ring.
Qed.
End Derivs.
