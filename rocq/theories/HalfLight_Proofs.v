(** * Light of Sersic profiles of half-integer index *)
From Coq Require Import Reals Lra Lia Psatz Arith ZArith QArith Qreals List.
From Coquelicot Require Import Coquelicot.
From Verif Require Import Py Fsum RealFun Geo_Model Light_Model Light_Spec Light_Proofs Derive1 HalfLight_Spec.
Local Open Scope R_scope.

Definition Sx (m : nat) (x : R) : R := fsum m (fun j => x ^ j / INR (fact j)).
Definition Gx (m : nat) (x : R) : R := exp (- x) * Sx m x.
Lemma fact_pos j : 0 < INR (fact j).
Proof. apply lt_0_INR, lt_O_fact. Qed.
Lemma pow_der m c x : is_derive (fun x : R => x ^ S m / c) x (INR (S m) * x ^ m / c).
Proof.
  apply (dv_ext (fun x => / c * x ^ S m)); [intros t; unfold Rdiv; ring|]. apply (dv_val _ _ _ _ (dv_scal _ (/ c) _ _ (is_derive_pow (fun t => t) (S m) x 1 (dv_id x)))). cbn [pred]. unfold Rdiv. ring.
Qed.
Lemma Gx_derive m x : is_derive (Gx (S m)) x (- (exp (- x) * x ^ m / INR (fact m))).
Proof.
  assert (E : is_derive (fun x : R => exp (- x)) x (- exp (- x))) by (auto_derive; [exact I|ring]).
  induction m as [|m IH].
  - apply (dv_ext (fun x => exp (- x))); [intros t; unfold Gx, Sx; cbn; field|]. apply (dv_val _ _ _ _ E). cbn. field.
  - apply (dv_ext (fun x => Gx (S m) x + exp (- x) * (x ^ S m / INR (fact (S m))))); [intros t; unfold Gx, Sx; cbn [fsum]; ring|].
    assert (F := fact_pos m). assert (N : 0 < INR (S m)) by (apply lt_0_INR; lia).
    assert (FS : INR (fact (S m)) = INR (S m) * INR (fact m)) by (change (fact (S m)) with (S m * fact m)%nat; apply mult_INR).
    assert (D : is_derive (fun x : R => x ^ S m / INR (fact (S m))) x (INR (S m) * x ^ m / INR (fact (S m)))).
    { apply pow_der. }
    apply (dv_val _ _ _ _ (dv_plus _ _ _ _ _ IH (dv_mult _ _ _ _ _ E D))). rewrite FS. field. lra.
Qed.
Lemma incr0 (f df : R -> R) x : 0 <= x -> (forall t, 0 <= t <= x -> is_derive f t (df t)) -> (forall t, 0 <= t <= x -> 0 <= df t) -> f 0 <= f x.
Proof.
  intros X D P. destruct (MVT_gen f 0 x df) as (c & Hc & E).
  - intros t Ht. rewrite Rmin_left, Rmax_right in Ht by lra. apply D. lra.
  - intros t Ht. rewrite Rmin_left, Rmax_right in Ht by lra. apply continuity_pt_filterlim. apply (ex_derive_continuous (V := R_NormedModule) f t). exists (df t). apply D. lra.
  - rewrite Rmin_left, Rmax_right in Hc by lra. specialize (P c ltac:(lra)). nra.
Qed.
Lemma Sx_0 m : Sx (S m) 0 = 1.
Proof. unfold Sx. rewrite fsum_S_l, fsum_zero; [cbn; field|]. intros i _. rewrite pow_ne_zero by lia. unfold Rdiv. ring. Qed.
Lemma Gx_0 m : Gx (S m) 0 = 1.
Proof. unfold Gx. rewrite Sx_0, Ropp_0, exp_0. ring. Qed.
Lemma Gx_bounds m x : 0 <= x -> 1 - x ^ S m / INR (fact (S m)) <= Gx (S m) x <= 1.
Proof.
  intros X. assert (F := fact_pos m). assert (F' := fact_pos (S m)). assert (N : 0 < INR (S m)) by (apply lt_0_INR; lia).
  assert (FS : INR (fact (S m)) = INR (S m) * INR (fact m)) by (change (fact (S m)) with (S m * fact m)%nat; apply mult_INR). split.
  - assert (H := incr0 (fun x => Gx (S m) x + x ^ S m / INR (fact (S m))) (fun x => - (exp (- x) * x ^ m / INR (fact m)) + x ^ m / INR (fact m)) x X). cbv beta in H. rewrite Gx_0, pow_i in H by lia.
    assert (1 + 0 / INR (fact (S m)) <= Gx (S m) x + x ^ S m / INR (fact (S m))); [|unfold Rdiv in *; lra]. apply H.
    + intros t _. apply dv_plus; [apply Gx_derive|]. apply (dv_val _ _ _ _ (pow_der m (INR (fact (S m))) t)). rewrite FS. field. lra.
    + intros t Ht. assert (exp (- t) <= 1) by (rewrite <- exp_0; destruct (Req_dec t 0) as [->|]; [rewrite Ropp_0; lra|left; apply exp_increasing; lra]).
      assert (0 <= t ^ m / INR (fact m)) by (apply Rmult_le_pos; [apply pow_le; lra|left; apply Rinv_0_lt_compat, F]). replace (exp (- t) * t ^ m / INR (fact m)) with (exp (- t) * (t ^ m / INR (fact m))) by (unfold Rdiv; ring). nra.
  - assert (H := incr0 (fun x => - Gx (S m) x) (fun x => exp (- x) * x ^ m / INR (fact m)) x X). cbv beta in H. rewrite Gx_0 in H. assert (- (1) <= - Gx (S m) x); [|lra]. apply H.
    + intros t _. apply (dv_val _ _ _ _ (dv_opp _ _ _ (Gx_derive m t))). ring.
    + intros t Ht. apply Rmult_le_pos; [apply Rmult_le_pos; [left; apply exp_pos|apply pow_le; lra]|left; apply Rinv_0_lt_compat, F].
Qed.
Lemma Sx_pos m x : 0 <= x -> 0 < Sx (S m) x.
Proof.
  intros X. apply (fsum_pos _ _ 0%nat); [lia| |cbn; lra]. intros j _. apply Rmult_le_pos; [apply pow_le, X|left; apply Rinv_0_lt_compat, fact_pos].
Qed.
(** Gx between rational bounds *)
Lemma Gx_ratio m N x : 0 <= x -> x ^ S N / INR (fact (S N)) <= 1 ->
  Sx (S m) x * (1 - x ^ S N / INR (fact (S N))) <= Gx (S m) x * Sx (S N) x <= Sx (S m) x.
Proof.
  intros X T. destruct (Gx_bounds N x X) as [A B]. assert (P := Sx_pos m x X). assert (Q := Sx_pos N x X).
  replace (Gx (S m) x * Sx (S N) x) with (Sx (S m) x * Gx (S N) x) by (unfold Gx; ring). nra.
Qed.
(** far out *)
Lemma Gx_far m x : 1 <= x -> 0 <= Gx (S m) x <= INR (S m) * INR (fact (S m)) / x.
Proof.
  intros X. assert (P := Sx_pos m x ltac:(lra)). assert (E := exp_pos (- x)). split; [unfold Gx; nra|].
  assert (U : Sx (S m) x <= INR (S m) * x ^ m).
  { rewrite <- fsum_const. apply fsum_le. intros i Hi. assert (F : 1 <= INR (fact i)) by (apply (le_INR 1), lt_O_fact). assert (0 < x ^ i) by (apply pow_lt; lra).
    apply Rle_trans with (x ^ i); [|apply Rle_pow; [lra|lia]]. unfold Rdiv. rewrite <- (Rmult_1_r (x ^ i)) at 2. apply Rmult_le_compat_l; [lra|]. rewrite <- Rinv_1. apply Rinv_le_contravar; lra. }
  assert (L : x ^ S m / INR (fact (S m)) <= exp x).
  { destruct (Gx_bounds (S m) x ltac:(lra)) as [_ B]. unfold Gx in B. rewrite exp_Ropp in B. assert (EX := exp_pos x).
    assert (Sx (S (S m)) x <= exp x) by (apply Rmult_le_reg_l with (/ exp x); [apply Rinv_0_lt_compat, EX|]; rewrite Rinv_l by lra; exact B).
    assert (Sx (S (S m)) x = Sx (S m) x + x ^ S m / INR (fact (S m))) by reflexivity. lra. }
  unfold Gx. rewrite exp_Ropp. assert (EX := exp_pos x). assert (F := fact_pos (S m)). assert (XM : 0 < x ^ m) by (apply pow_lt; lra). assert (N : 0 < INR (S m)) by (apply lt_0_INR; lia).
  apply Rmult_le_reg_l with (exp x * x); [nra|]. replace (exp x * x * (/ exp x * Sx (S m) x)) with (x * Sx (S m) x) by (field; lra).
  replace (exp x * x * (INR (S m) * INR (fact (S m)) / x)) with (INR (S m) * (INR (fact (S m)) * exp x)) by (field; lra).
  apply Rle_trans with (INR (S m) * x ^ S m); [cbn [pow]; nra|]. apply Rmult_le_compat_l; [lra|].
  apply Rmult_le_reg_l with (/ INR (fact (S m))); [apply Rinv_0_lt_compat, F|]. rewrite <- Rmult_assoc, Rinv_l by lra. unfold Rdiv in L. lra.
Qed.
(** ** the integral *)
Section Sersic.
Variables (m : nat) (k Re Ie q : R).
Hypothesis Hk : 0 < k. Hypothesis HRe : 0 < Re.
Let n := INR (S m) / 2.
Definition p_ (r : R) : R := Rpower (r / Re) (1 / n).
Definition I_ (r : R) : R := Ie * exp (- k * ((if Req_EM_T r 0 then 0 else p_ r) - 1)).
Definition C_ : R := PI * q * Ie * exp k * INR (S m) * INR (fact m) * Re ^ 2 / k ^ S m.
Lemma n_pos : 0 < n.
Proof. unfold n. assert (0 < INR (S m)) by (apply lt_0_INR; lia). lra. Qed.
Lemma p_pos r : 0 < p_ r. Proof. apply exp_pos. Qed.
Lemma p_pow r : 0 < r -> p_ r ^ S m = (r / Re) ^ 2.
Proof.
  intros H. assert (N := n_pos). assert (P : 0 < r / Re) by (apply Rdiv_lt_0_compat; assumption). unfold p_. rewrite <- !Rpower_pow by (assumption || apply exp_pos). rewrite Rpower_mult. f_equal. unfold n. change (INR 2) with 2. field. apply not_0_INR. lia.
Qed.
Lemma p_derive r : 0 < r -> is_derive p_ r (p_ r * / (n * r)).
Proof.
  intros H. assert (N := n_pos). assert (P : 0 < r / Re) by (apply Rdiv_lt_0_compat; assumption).
  assert (D : is_derive (fun r : R => r / Re) r (/ Re)).
  { apply (dv_ext (fun r : R => / Re * r)); [intros t; unfold Rdiv; ring|]. apply (dv_val _ _ _ _ (dv_scal (fun t : R => t) (/ Re) _ _ (dv_id r)) (Rmult_1_r _)). }
  unfold p_, Rpower. apply (dv_val _ _ _ _ (dv_comp exp (fun r => 1 / n * ln (r / Re)) _ _ _ (is_derive_exp _) (dv_scal _ (1 / n) _ _ (dv_ln (fun r => r / Re) r (/ Re) D P)))). field. repeat split; lra.
Qed.
Lemma G_derive r : 0 < r -> is_derive (fun r => - (C_ * Gx (S m) (k * p_ r))) r (2 * PI * q * r * I_ r).
Proof.
  intros H. assert (N := n_pos). assert (F := fact_pos m). assert (NS : 0 < INR (S m)) by (apply lt_0_INR; lia). assert (KP : 0 < k ^ S m) by (apply pow_lt, Hk).
  apply (dv_val _ _ _ _ (dv_opp _ _ _ (dv_scal _ C_ _ _ (dv_comp (Gx (S m)) (fun r => k * p_ r) _ _ _ (Gx_derive m (k * p_ r)) (dv_scal _ k _ _ (p_derive r H)))))).
  unfold I_. destruct (Req_EM_T r 0) as [Z|_]; [lra|]. replace (- k * (p_ r - 1)) with (k + - (k * p_ r)) by ring. rewrite exp_plus. assert (PP := p_pow r H). cbn [pow] in PP.
  replace (- (C_ * (k * (p_ r * / (n * r)) * - (exp (- (k * p_ r)) * (k * p_ r) ^ m / INR (fact m))))) with (C_ * exp (- (k * p_ r)) * k ^ S m * (p_ r * p_ r ^ m) / (n * r * INR (fact m))) by (rewrite Rpow_mult_distr; cbn [pow]; field; repeat split; lra).
  rewrite PP. unfold C_, n. field. repeat split; lra.
Qed.
Lemma I_cont r : 0 < r -> continuous (fun r => 2 * PI * q * r * I_ r) r.
Proof.
  intros H. apply (continuous_ext_loc (U := R_UniformSpace) _ (fun r => 2 * PI * q * r * (Ie * exp (- k * (p_ r - 1))))).
  - exists (mkposreal r H). intros t Ht. unfold I_. destruct (Req_EM_T t 0) as [Z|_]; [|reflexivity]. exfalso. subst t. unfold ball in Ht; cbn in Ht. unfold AbsRing_ball, abs, minus, plus, opp in Ht; cbn in Ht. rewrite Rplus_0_l, Rabs_Ropp, Rabs_pos_eq in Ht by lra. lra.
  - apply (ex_derive_continuous (V := R_NormedModule) (fun r : R => 2 * PI * q * r * (Ie * exp (- k * (p_ r - 1)))) r). assert (D := p_derive r H). eexists. apply (dv_mult (fun r => 2 * PI * q * r) (fun r => Ie * exp (- k * (p_ r - 1)))); [apply dv_scal, dv_id|]. apply dv_scal.
    apply (dv_comp exp (fun r => - k * (p_ r - 1))); [apply is_derive_exp|]. apply dv_scal. apply dv_minus; [exact D|apply dv_const].
Qed.
Lemma integral a b : 0 < a <= b -> is_RInt (V := R_NormedModule) (fun r => 2 * PI * q * r * I_ r) a b (C_ * (Gx (S m) (k * p_ a) - Gx (S m) (k * p_ b))).
Proof.
  intros H. assert (R := is_RInt_derive (V := R_CompleteNormedModule) (fun r => - (C_ * Gx (S m) (k * p_ r))) (fun r => 2 * PI * q * r * I_ r) a b).
  replace (C_ * (Gx (S m) (k * p_ a) - Gx (S m) (k * p_ b))) with (minus (- (C_ * Gx (S m) (k * p_ b))) (- (C_ * Gx (S m) (k * p_ a)))) by (unfold minus, plus, opp; cbn; ring).
  apply R; intros x Hx; rewrite Rmin_left, Rmax_right in Hx by lra; [apply G_derive|apply I_cont]; lra.
Qed.
Lemma near_zero : filterlim (fun a => Gx (S m) (k * p_ a)) (at_right 0) (locally 1).
Proof.
  assert (F := fact_pos (S m)). set (c := k ^ S m / INR (fact (S m)) / Re ^ 2). assert (RP : 0 < Re ^ 2) by (apply pow_lt, HRe).
  apply (filterlim_le_le (fun a => 1 - c * a ^ 2) _ (fun _ => 1) 1).
  - exists (mkposreal 1 Rlt_0_1). intros a _ Ha. assert (P := p_pos a). assert (KP : 0 <= k * p_ a) by nra. destruct (Gx_bounds m _ KP) as [A B]. split; [|exact B].
    rewrite Rpow_mult_distr, p_pow in A by exact Ha. unfold c. replace (k ^ S m / INR (fact (S m)) / Re ^ 2 * a ^ 2) with (k ^ S m * (a / Re) ^ 2 / INR (fact (S m))) by (field; lra). exact A.
  - assert (CN : filterlim (fun a : R => 1 - c * a ^ 2) (locally 0) (locally (1 - c * 0 ^ 2))).
    { apply (ex_derive_continuous (V := R_NormedModule) (fun a : R => 1 - c * a ^ 2) 0). auto_derive. exact I. }
    replace (1 - c * 0 ^ 2) with 1 in CN by ring. intros Q HQ. specialize (CN Q HQ). unfold filtermap in *. apply filter_le_within. exact CN.
  - apply filterlim_const.
Qed.
Lemma inside b : 0 < b -> light_inside q I_ b (C_ * (1 - Gx (S m) (k * p_ b))).
Proof.
  intros H. exists (fun a => C_ * (Gx (S m) (k * p_ a) - Gx (S m) (k * p_ b))). split; [intros a Ha; apply integral, Ha|].
  assert (L := near_zero). set (g := Gx (S m) (k * p_ b)).
  apply (filterlim_comp _ _ _ (fun a => Gx (S m) (k * p_ a)) (fun v => C_ * (v - g)) _ (locally 1) _ L).
  apply (ex_derive_continuous (V := R_NormedModule) (fun v : R => C_ * (v - g)) 1). auto_derive. exact I.
Qed.
Lemma p_far : is_lim p_ p_infty p_infty.
Proof.
  assert (N := n_pos). unfold p_, Rpower. apply (is_lim_comp exp (fun r => 1 / n * ln (r / Re)) p_infty p_infty p_infty); [apply is_lim_exp_p| |exists 0; intros; discriminate].
  replace p_infty with (Rbar_mult (1 / n) p_infty) at 2.
  - apply is_lim_scal_l. apply (is_lim_comp ln (fun r => r / Re) p_infty p_infty p_infty); [apply is_lim_ln_p| |exists 0; intros; discriminate].
    replace p_infty with (Rbar_mult p_infty (/ Re)) at 2; [apply is_lim_scal_r, is_lim_id|]. cbn. destruct (Rle_dec 0 (/ Re)) as [H|H]; [destruct (Rle_lt_or_eq_dec 0 (/ Re) H) as [H'|H']; [reflexivity|]|]; exfalso; assert (0 < / Re) by (apply Rinv_0_lt_compat, HRe); lra.
  - cbn. assert (0 < 1 / n) by (apply Rdiv_lt_0_compat; lra). destruct (Rle_dec 0 (1 / n)) as [H'|H']; [destruct (Rle_lt_or_eq_dec 0 (1 / n) H') as [H''|H'']; [reflexivity|]|]; exfalso; lra.
Qed.
Lemma far : is_lim (fun r => Gx (S m) (k * p_ r)) p_infty 0.
Proof.
  set (c := INR (S m) * INR (fact (S m))). apply (is_lim_le_le_loc (fun _ => 0) (fun r => c * / (k * p_ r))).
  - assert (P := p_far). idtac.
    assert (Q : Rbar_locally p_infty (fun r => 1 / k < p_ r)) by (apply (P (fun v => 1 / k < v)); exists (1 / k); intros; assumption).
    destruct Q as [M HM]. exists M. intros r Hr. specialize (HM r Hr). assert (1 <= k * p_ r). { apply Rmult_lt_compat_l with (r := k) in HM; [|exact Hk]. replace (k * (1 / k)) with 1 in HM by (field; lra). lra. }
    assert (A := Gx_far m _ H). unfold Rdiv in A. fold c in A. exact A.
  - apply is_lim_const.
  - replace (Finite 0) with (Rbar_mult c 0) by (cbn; f_equal; ring). apply is_lim_scal_l. replace (Finite 0) with (Rbar_inv p_infty) by reflexivity. apply is_lim_inv; [|discriminate].
    replace p_infty with (Rbar_mult k p_infty) at 2; [apply is_lim_scal_l, p_far|]. cbn. destruct (Rle_dec 0 k) as [H|H]; [destruct (Rle_lt_or_eq_dec 0 k H) as [H'|H']; [reflexivity|]|]; exfalso; lra.
Qed.
Lemma total_light : light_total q I_ C_.
Proof.
  exists (fun b => C_ * (1 - Gx (S m) (k * p_ b))). split; [exact inside|]. replace (Finite C_) with (Rbar_mult C_ (1 - 0)) by (cbn; f_equal; ring). apply is_lim_scal_l.
  apply is_lim_minus'; [apply is_lim_const|exact far].
Qed.
Lemma inside_Re : light_inside q I_ Re (C_ * (1 - Gx (S m) k)).
Proof.
  assert (H := inside Re HRe). replace (k * p_ Re) with k in H; [exact H|]. unfold p_, Rpower. replace (Re / Re) with 1 by (field; lra). rewrite ln_1, Rmult_0_r, exp_0. ring.
Qed.
Lemma C_pos : 0 < q -> 0 < Ie -> 0 < C_.
Proof.
  intros Q I0. assert (P := PI_RGT_0). unfold C_. assert (E := exp_pos k). assert (N : 0 < INR (S m)) by (apply lt_0_INR; lia). assert (F := fact_pos m). assert (KP := pow_lt k (S m) Hk). assert (RP := pow_lt Re 2 HRe).
  apply Rdiv_lt_0_compat; [|exact KP]. apply Rmult_lt_0_compat; [|exact RP]. apply Rmult_lt_0_compat; [|exact F]. apply Rmult_lt_0_compat; [|exact N]. apply Rmult_lt_0_compat; [|exact E]. apply Rmult_lt_0_compat; [|exact I0]. apply Rmult_lt_0_compat; assumption.
Qed.
End Sersic.
(** ** rational evaluation *)
Lemma Q2R_red a : Q2R (Qred a) = Q2R a.
Proof. apply Qeq_eqR, Qred_correct. Qed.
Lemma Q2R_nat m : Q2R (Z.of_nat m # 1) = INR m.
Proof. unfold Q2R. cbn [Qnum Qden]. rewrite <- INR_IZR_INZ. field. Qed.
(** sums and terms of the exponential series in fixed point, in units of 1/M, rounded down and up *)
Section Fixed.
Variables M p d : Z.
Hypothesis HM : (0 < M)%Z. Hypothesis Hp : (0 <= p)%Z. Hypothesis Hd : (0 < d)%Z.
Fixpoint fx (m : nat) : Z * Z * (Z * Z) :=
  match m with
  | O => (0, 0, (M, M))%Z
  | S j => let '(sl, sh, (tl, th)) := fx j in let e := (d * Z.of_nat (S j))%Z in ((sl + tl)%Z, (sh + th)%Z, ((tl * p / e)%Z, (- (- (th * p) / e))%Z))
  end.
Lemma div_le a e : (0 < e)%Z -> IZR (a / e) * IZR e <= IZR a.
Proof. intros E. rewrite <- mult_IZR. apply IZR_le. assert (H := Z.mul_div_le a e E). lia. Qed.
Lemma fx_val m : let x := IZR p / IZR d in let '(sl, sh, (tl, th)) := fx m in
  IZR sl <= IZR M * Sx m x <= IZR sh /\ 0 <= IZR tl <= IZR M * (x ^ m / INR (fact m)) /\ IZR M * (x ^ m / INR (fact m)) <= IZR th.
Proof.
  intros x. assert (PR : 0 <= IZR p) by (apply (IZR_le 0), Hp). assert (DR : 0 < IZR d) by (apply (IZR_lt 0), Hd). assert (XP : 0 <= x) by (apply Rle_mult_inv_pos; assumption).
  assert (MR : 0 < IZR M) by (apply (IZR_lt 0), HM).
  induction m as [|j IH]; [cbn; unfold Sx; cbn; lra|]. cbn [fx]. destruct (fx j) as [[sl sh] [tl th]]. destruct IH as (A & B & C). set (t := IZR M * (x ^ j / INR (fact j))) in *.
  assert (N : 0 < INR (S j)) by (apply lt_0_INR; lia). assert (F := fact_pos j). assert (EP : (0 < d * Z.of_nat (S j))%Z) by lia. set (e := (d * Z.of_nat (S j))%Z) in *.
  assert (ER : IZR e = IZR d * INR (S j)) by (unfold e; rewrite mult_IZR, <- INR_IZR_INZ; reflexivity). assert (EP' : 0 < IZR e) by (apply (IZR_lt 0), EP).
  assert (TN : IZR M * (x ^ S j / INR (fact (S j))) = t * IZR p / IZR e).
  { unfold t, x. rewrite ER. change (fact (S j)) with (S j * fact j)%nat. rewrite mult_INR. cbn [pow]. field. repeat split; lra. }
  assert (SS : IZR M * Sx (S j) x = IZR M * Sx j x + t) by (unfold Sx; cbn [fsum]; unfold t; ring). rewrite SS, TN, !plus_IZR. split; [lra|]. split; [split|].
  - apply (IZR_le 0). apply Z.div_pos; [|exact EP]. apply Z.mul_nonneg_nonneg; [apply le_IZR, B|exact Hp].
  - assert (D := div_le (tl * p) e EP). rewrite mult_IZR in D. apply Rmult_le_reg_r with (IZR e); [exact EP'|]. replace (t * IZR p / IZR e * IZR e) with (t * IZR p) by (field; lra). nra.
  - assert (D := div_le (- (th * p)) e EP). rewrite !opp_IZR, mult_IZR in *. apply Rmult_le_reg_r with (IZR e); [exact EP'|]. replace (t * IZR p / IZR e * IZR e) with (t * IZR p) by (field; lra). nra.
Qed.
End Fixed.
Definition tightQ (m N : nat) (x e : Q) : bool :=
  let M := (2 ^ 80)%Z in let p := Qnum x in let d := Zpos (Qden x) in let a := Qnum e in let b := Zpos (Qden e) in
  let '(sl, sh, _) := fx M p d (S m) in let '(ul, uh, (_, th)) := fx M p d (S N) in
  ((th <=? M) && (0 <=? p) && (2 * b * sh <=? (b + 2 * a) * ul) && ((b - 2 * a) * uh * M <=? 2 * b * sl * (M - th)) && (0 <=? sl) && (2 * a <=? b) && (0 <=? a))%Z%bool.
Lemma tight m N x e : tightQ m N x e = true -> Rabs (1 - Gx (S m) (Q2R x) - 1 / 2) <= Q2R e.
Proof.
  unfold tightQ. set (M := (2 ^ 80)%Z). assert (HM : (0 < M)%Z) by reflexivity. assert (Hd : (0 < Zpos (Qden x))%Z) by lia.
  assert (V := fun P m => fx_val M (Qnum x) (Zpos (Qden x)) HM P Hd m). assert (VM := fun P => V P (S m)). assert (VN := fun P => V P (S N)). clear V. cbv zeta in VM, VN.
  destruct (fx M (Qnum x) (Z.pos (Qden x)) (S m)) as [[sl sh] [tl' th']]. destruct (fx M (Qnum x) (Z.pos (Qden x)) (S N)) as [[ul uh] [tl th]].
  change (IZR (Qnum x) / IZR (Z.pos (Qden x))) with (Q2R x) in VM, VN.
  intros H. repeat (apply andb_prop in H; destruct H as [H ?]). repeat match goal with H : (_ <=? _)%Z = true |- _ => apply Z.leb_le in H end.
  specialize (VM ltac:(assumption)). specialize (VN ltac:(assumption)). destruct VM as [VM _]. destruct VN as (VN & _ & VT).
  assert (X : 0 <= Q2R x) by (apply Rle_mult_inv_pos; [apply (IZR_le 0); assumption|apply (IZR_lt 0); lia]).
  clearbody M. rename H into TH. match goal with H : (0 <= Qnum x)%Z |- _ => clear H end.
  repeat match goal with H : (_ <= _)%Z |- _ => apply IZR_le in H end. repeat rewrite ?mult_IZR, ?plus_IZR, ?minus_IZR in *. apply IZR_lt in HM.
  assert (EV : Q2R e = IZR (Qnum e) / IZR (Zpos (Qden e))) by reflexivity. assert (BP : 0 < IZR (Zpos (Qden e))) by (apply (IZR_lt 0); lia). set (a := IZR (Qnum e)) in *. set (b := IZR (Zpos (Qden e))) in *.
  set (y := Q2R x) in *. set (tN := y ^ S N / INR (fact (S N))) in *. assert (T1 : tN <= 1) by (apply Rmult_le_reg_l with (IZR M); lra).
  destruct (Gx_ratio m N y X T1) as [A B]. assert (P := Sx_pos N y X). set (g := Gx (S m) y) in *. set (s := Sx (S N) y) in *. set (sm := Sx (S m) y) in *. fold tN in A. set (MR := IZR M) in *. set (TT := IZR th) in *.
  rewrite EV. assert (E1 : a / b * b = a) by (field; lra). set (e' := a / b) in *. clearbody e' a b g s sm MR TT tN y. clear EV.
  assert (U : 2 * b * (MR * sm) <= (b + 2 * a) * (MR * s)) by nra. 
  assert (BM : 0 < b * MR) by (apply Rmult_lt_0_compat; assumption).
  assert (U2 : 2 * sm <= (1 + 2 * e') * s).
  { apply Rmult_le_reg_l with (b * MR); [exact BM|]. replace (b * MR * ((1 + 2 * e') * s)) with ((b + 2 * (e' * b)) * (MR * s)) by ring. rewrite E1. lra. }
  assert (W : (b - 2 * a) * (MR * s) * MR <= 2 * b * (MR * sm) * (MR - TT)).
  { apply Rle_trans with ((b - 2 * a) * IZR uh * MR); [apply Rmult_le_compat_r; [lra|]; apply Rmult_le_compat_l; lra|]. apply Rle_trans with (1 := H3). apply Rmult_le_compat_r; [lra|]. apply Rmult_le_compat_l; lra. }
  assert (SP : 0 <= sm) by (apply Rmult_le_reg_l with MR; lra).
  assert (W2 : (1 - 2 * e') * s <= 2 * sm * (1 - tN)).
  { apply Rmult_le_reg_l with (b * MR * MR); [apply Rmult_lt_0_compat; assumption|]. replace (b * MR * MR * ((1 - 2 * e') * s)) with ((b - 2 * (e' * b)) * (MR * s) * MR) by ring. rewrite E1.
    apply Rle_trans with (1 := W). assert (MR - TT <= MR * (1 - tN)) by lra. replace (b * MR * MR * (2 * sm * (1 - tN))) with (2 * b * (MR * sm) * (MR * (1 - tN))) by ring. apply Rmult_le_compat_l; [|assumption]. apply Rmult_le_pos; [lra|]. apply Rmult_le_pos; lra. }
  apply Rabs_le. split; nra.
Qed.
Definition kQ (n : Q) : Q := (let x := / n in
  2 * n - (1 # 3) + x * ((4 # 405) + x * ((46 # 25515) + x * ((131 # 1148175) - x * (2194697 # 30690717750)))))%Q.
Lemma kQ_val n : ~ (n == 0)%Q -> k_sersic (Q2R n) = Q2R (kQ n).
Proof.
  intros N. unfold kQ, k_sersic. cbv zeta. repeat (rewrite ?Q2R_plus, ?Q2R_minus, ?Q2R_mult). rewrite Q2R_inv by exact N.
  assert (NR : Q2R n <> 0) by (intros Z; apply N, eqR_Qeq; rewrite Z; unfold Q2R; cbn; ring).
  assert (C : forall p (d : positive), Q2R (p # d) = IZR p / IZR (Zpos d)) by (intros; reflexivity). rewrite !C. replace (Q2R 2) with 2 by (unfold Q2R; cbn; field). unfold Rdiv. rewrite Rinv_1, !Rmult_1_l, Rmult_1_r. reflexivity.
Qed.
Definition klQ (n : Q) : Q := (19992 # 10000) * n - (3271 # 10000).
Lemma klQ_val n : k_lenstronomy (Q2R n) = Q2R (klQ n).
Proof. unfold klQ, k_lenstronomy. rewrite Q2R_minus, Q2R_mult. reflexivity. Qed.
(** the bounds on the fraction of light for the 20 half-integer indices the class allows *)
Definition eps_s (m : nat) : Q := (2 # 10000) / (Z.of_nat m # 1) / (Z.of_nat m # 1) / (Z.of_nat m # 1).
Definition eps_l (m : nat) : Q := if Nat.leb m 2 then 11 # 1000 else 6 # 10000.
Lemma all_tight : forallb (fun m => (tightQ m 90 (Qred (kQ (Z.of_nat (S m) # 2))) (eps_s (S m)) && tightQ m 90 (Qred (klQ (Z.of_nat (S m) # 2))) (eps_l (S m)))%bool) (seq 0 20) = true.
Proof. vm_compute. reflexivity. Qed.
(** ** the class *)
Lemma class_profile (b : bool) m x0 y0 q phi Re Ie x y : 0 < Re ->
  sersic_brightness b 0 x0 y0 q phi (INR (S m) / 2) Re Ie x y = Some (I_ m (if b then k_lenstronomy (INR (S m) / 2) else k_sersic (INR (S m) / 2)) Re Ie (ell_radius x0 y0 q phi x y)).
Proof.
  intros HR. unfold sersic_brightness. rewrite sersic_radius. rewrite Rplus_0_r. assert (E := ell_radius_nonneg x0 y0 q phi x y). set (r := ell_radius x0 y0 q phi x y) in *.
  set (k := if b then _ else _). unfold real_pow, I_, p_. assert (P : 0 <= r / Re) by (apply Rle_mult_inv_pos; assumption). destruct (Rlt_dec (r / Re) 0); [lra|].
  destruct (Req_EM_T r 0) as [Z|Z]; destruct (Req_EM_T (r / Re) 0) as [Z'|Z']; try reflexivity; exfalso.
  - apply Z'. rewrite Z. unfold Rdiv. ring.
  - apply Z. apply Rmult_eq_reg_r with (/ Re); [unfold Rdiv in Z'; rewrite Z'; ring|apply Rinv_neq_0_compat; lra].
Qed.
Lemma half_range m : (m < 20)%nat -> 36 / 100 <= INR (S m) / 2 <= 10.
Proof. intros H. assert (1 <= INR (S m)) by (apply (le_INR 1); lia). assert (INR (S m) <= 20) by (replace 20 with (INR 20) by (rewrite INR_IZR_INZ; reflexivity); apply le_INR; lia). lra. Qed.
Lemma half_Q m : Q2R (Z.of_nat (S m) # 2) = INR (S m) / 2.
Proof. unfold Q2R. cbn [Qnum Qden]. rewrite <- INR_IZR_INZ. reflexivity. Qed.
Lemma eps_s_val m : (1 <= m)%nat -> Q2R (eps_s m) = 2 / 10000 / INR m ^ 3.
Proof.
  intros H. assert (N : 0 < INR m) by (apply lt_0_INR; lia). assert (NZ : ~ (Z.of_nat m # 1 == 0)%Q) by (intros Z; apply Qeq_eqR in Z; rewrite Q2R_nat in Z; unfold Q2R in Z; cbn in Z; lra).
  unfold eps_s. rewrite !Q2R_div, Q2R_nat by exact NZ. replace (Q2R (2 # 10000)) with (2 / 10000) by (unfold Q2R; cbn; reflexivity). field. lra.
Qed.
Lemma eps_l_val m : Q2R (eps_l m) = if Nat.leb m 2 then 11 / 1000 else 6 / 10000.
Proof. unfold eps_l. destruct (Nat.leb m 2); reflexivity. Qed.
Definition k_of (b : bool) (n : R) : R := if b then k_lenstronomy n else k_sersic n.
Lemma near_half (b : bool) m : (m < 20)%nat ->
  Rabs (1 - Gx (S m) (k_of b (INR (S m) / 2)) - 1 / 2) <= (if b then if Nat.leb (S m) 2 then 11 / 1000 else 6 / 10000 else 2 / 10000 / INR (S m) ^ 3).
Proof.
  intros H. destruct (k_positive _ (half_range m H)) as [P1 P2]. assert (A := proj1 (forallb_forall _ _) all_tight m ltac:(apply in_seq; lia)). cbv beta in A. apply andb_prop in A. destruct A as [A1 A2].
  assert (NZ : ~ (Z.of_nat (S m) # 2 == 0)%Q) by (intros Z; apply Qeq_eqR in Z; rewrite half_Q in Z; unfold Q2R in Z; cbn [Qnum Qden] in Z; assert (0 < INR (S m)) by (apply lt_0_INR; lia); lra).
  unfold k_of. destruct b.
  - rewrite <- eps_l_val. rewrite <- half_Q in *. rewrite klQ_val in *. rewrite <- Q2R_red in *. apply (tight m 90), A2.
  - rewrite <- eps_s_val by lia. rewrite <- half_Q in *. rewrite kQ_val in * by exact NZ. rewrite <- (Q2R_red (kQ _)) in *. apply (tight m 90), A1.
Qed.
Lemma class_half_light (b : bool) m x0 y0 q phi Re Ie : (1 <= m <= 20)%nat -> 0 < Re -> 0 < Ie -> 0 < q -> exists I L Lt,
  (forall x y, sersic_brightness b 0 x0 y0 q phi (INR m / 2) Re Ie x y = Some (I (ell_radius x0 y0 q phi x y))) /\
  light_inside q I Re L /\ light_total q I Lt /\ 0 < Lt /\ Rabs (L / Lt - 1 / 2) <= (if b then if Nat.leb m 2 then 11 / 1000 else 6 / 10000 else 2 / 10000 / INR m ^ 3).
Proof.
  intros Hm HR HI Hq. destruct m as [|m]; [lia|]. destruct (k_positive _ (half_range m ltac:(lia))) as [P1 P2]. assert (K : 0 < k_of b (INR (S m) / 2)) by (destruct b; assumption).
  exists (I_ m (k_of b (INR (S m) / 2)) Re Ie), (C_ m (k_of b (INR (S m) / 2)) Re Ie q * (1 - Gx (S m) (k_of b (INR (S m) / 2)))), (C_ m (k_of b (INR (S m) / 2)) Re Ie q).
  assert (C := C_pos m _ Re Ie q K HR Hq HI). split; [intros; apply class_profile, HR|]. split; [apply inside_Re; assumption|]. split; [apply total_light; assumption|]. split; [exact C|].
  set (c := C_ m _ Re Ie q) in *. replace (c * (1 - Gx (S m) (k_of b (INR (S m) / 2))) / c) with (1 - Gx (S m) (k_of b (INR (S m) / 2))) by (field; lra). apply near_half. lia.
Qed.
(** light_inside and light_total determine their values *)
Lemma inside_unique q I b L L' : 0 < b -> light_inside q I b L -> light_inside q I b L' -> L = L'.
Proof.
  intros B (F & HF & LF) (F' & HF' & LF'). apply (filterlim_locally_unique (F := at_right 0) F); [exact LF|]. apply (filterlim_ext_loc F'); [|exact LF'].
  exists (mkposreal b B). intros a Ha A. apply (is_RInt_unique_eq (fun r => 2 * PI * q * r * I r) a b) || idtac.
  assert (AB : 0 < a <= b). { split; [exact A|]. unfold ball in Ha; cbn in Ha. unfold AbsRing_ball, abs, minus, plus, opp in Ha; cbn in Ha. apply Rabs_def2 in Ha. lra. }
  rewrite <- (is_RInt_unique _ _ _ _ (HF a AB)), <- (is_RInt_unique _ _ _ _ (HF' a AB)). reflexivity.
Qed.
Lemma total_unique q I L L' : light_total q I L -> light_total q I L' -> L = L'.
Proof.
  intros (F & HF & LF) (F' & HF' & LF'). assert (E : Finite L = Finite L'); [|injection E; auto]. rewrite <- (is_lim_unique _ _ _ LF), <- (is_lim_unique _ _ _ LF'). apply Lim_ext_loc.
  exists 0. intros b Hb. symmetry. apply (inside_unique q I b); [exact Hb|apply HF', Hb|apply HF, Hb] || (apply (inside_unique q I b); [exact Hb|apply HF, Hb|apply HF', Hb]).
Qed.
Lemma over_half : 2 < Sx 91 (Q2R (Qred (kQ (1 # 2)))).
Proof.
  set (x := Qred (kQ (1 # 2))). assert (V := fx_val (2 ^ 80) (Qnum x) (Zpos (Qden x)) ltac:(reflexivity) ltac:(vm_compute; discriminate) ltac:(lia) 91). cbv zeta in V.
  assert (L : (2 * 2 ^ 80 <? fst (fst (fx (2 ^ 80) (Qnum x) (Z.pos (Qden x)) 91)))%Z = true) by (vm_compute; reflexivity). apply Z.ltb_lt, IZR_lt in L. rewrite mult_IZR in L.
  change (IZR (Qnum x) / IZR (Z.pos (Qden x))) with (Q2R x) in V. destruct (fx (2 ^ 80) (Qnum x) (Z.pos (Qden x)) 91) as [[sl sh] [tl th]]. cbn [fst] in L. destruct V as [[A _] _].
  assert (M : 0 < IZR (2 ^ 80)) by (apply (IZR_lt 0); reflexivity). set (MR := IZR (2 ^ 80)) in *. clearbody MR. nra.
Qed.
Lemma class_not_half x0 y0 q phi Re Ie : 0 < Re -> 0 < Ie -> 0 < q -> exists I,
  (forall x y, sersic_brightness false 0 x0 y0 q phi (1 / 2) Re Ie x y = Some (I (ell_radius x0 y0 q phi x y))) /\
  (exists L, light_inside q I Re L) /\ (exists Lt, light_total q I Lt) /\ forall L Lt, light_inside q I Re L -> light_total q I Lt -> Lt / 2 < L.
Proof.
  intros HR HI Hq. assert (H1 : INR 1 / 2 = 1 / 2) by reflexivity. destruct (k_positive (1 / 2) ltac:(lra)) as [K _].
  assert (A := inside_Re 0 (k_sersic (1 / 2)) Re Ie q K HR). assert (B := total_light 0 (k_sersic (1 / 2)) Re Ie q K HR). assert (C := C_pos 0 (k_sersic (1 / 2)) Re Ie q K HR Hq HI).
  exists (I_ 0 (k_sersic (1 / 2)) Re Ie). split; [intros x y; rewrite <- H1; apply (class_profile false 0); exact HR|]. split; [eexists; exact A|]. split; [eexists; exact B|].
  intros L Lt HL HT. rewrite (inside_unique _ _ _ _ _ HR HL A), (total_unique _ _ _ _ HT B). set (c := C_ 0 _ Re Ie q) in *.
  assert (E : k_sersic (1 / 2) = Q2R (Qred (kQ (1 # 2)))).
  { rewrite Q2R_red, <- kQ_val by discriminate. f_equal. }
  assert (O := over_half). rewrite <- E in O. destruct (Gx_bounds 90 _ (Rlt_le _ _ K)) as [_ G]. unfold Gx in G.
  assert (X := exp_pos (- k_sersic (1 / 2))). assert (S1 : Gx 1 (k_sersic (1 / 2)) = exp (- k_sersic (1 / 2))) by (unfold Gx, Sx; cbn; field). rewrite S1. nra.
Qed.
Lemma class_growth (b : bool) m x0 y0 q phi Re Ie : (1 <= m <= 20)%nat -> 0 < Re -> 0 < Ie -> 0 < q -> exists I Lt,
  (forall x y, sersic_brightness b 0 x0 y0 q phi (INR m / 2) Re Ie x y = Some (I (ell_radius x0 y0 q phi x y))) /\ light_total q I Lt /\ 0 < Lt /\
  forall r, 0 < r -> let t := k_of b (INR m / 2) * Rpower (r / Re) (2 / INR m) in light_inside q I r (Lt * (1 - exp (- t) * fsum m (fun j => t ^ j / INR (fact j)))).
Proof.
  intros Hm HR HI Hq. destruct m as [|m]; [lia|]. destruct (k_positive _ (half_range m ltac:(lia))) as [P1 P2]. assert (K : 0 < k_of b (INR (S m) / 2)) by (destruct b; assumption).
  exists (I_ m (k_of b (INR (S m) / 2)) Re Ie), (C_ m (k_of b (INR (S m) / 2)) Re Ie q).
  split; [intros; apply class_profile, HR|]. split; [apply total_light; assumption|]. split; [apply C_pos; assumption|]. intros r Hr t.
  assert (A := inside m _ Re Ie q K HR r Hr). unfold p_ in A. assert (N : 0 < INR (S m)) by (apply lt_0_INR; lia). replace (1 / (INR (S m) / 2)) with (2 / INR (S m)) in A by (field; lra). exact A.
Qed.
