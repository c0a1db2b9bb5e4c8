(** * The functions of the NFW lens *)
From Coq Require Import Reals Lra Psatz.
From Coquelicot Require Import Coquelicot.
From Verif Require Import Const_Model RealFun Nfw_Model.
Local Open Scope R_scope.

(** x > 1 *)
Lemma root_pos x : 1 < x -> 0 < sqrt (x ^ 2 - 1).
Proof. intros H. apply sqrt_lt_R0. nra. Qed.
Lemma root_sq x : 1 < x -> sqrt (x ^ 2 - 1) ^ 2 = x ^ 2 - 1.
Proof. intros H. apply sqrt_sq2. nra. Qed.
Lemma acos_inv x : 1 < x -> acos (1 / x) = atan (sqrt (x ^ 2 - 1)).
Proof.
  intros H. assert (I : 0 < 1 / x) by (apply Rdiv_lt_0_compat; lra). rewrite acos_atan by exact I. f_equal.
  assert (P := root_pos x H). unfold Rsqr.
  replace (1 - 1 / x * (1 / x)) with ((x ^ 2 - 1) / x ^ 2) by (field; lra). rewrite sqrt_div by nra. rewrite sqrt_pow2 by lra. field. lra.
Qed.
Lemma atan_double t : 0 < t < 1 -> 2 * atan t = atan (2 * t / (1 - t ^ 2)).
Proof.
  intros [H1 H2]. assert (B : 0 < atan t < PI / 4). { split; [rewrite <- atan_0; apply atan_increasing, H1|rewrite <- atan_1; apply atan_increasing, H2]. }
  assert (P := PI_RGT_0). rewrite <- (atan_tan (2 * atan t)) by lra. f_equal. rewrite double. rewrite tan_plus.
  - rewrite tan_atan. field. nra.
  - apply Rgt_not_eq, cos_gt_0; lra.
  - apply Rgt_not_eq, cos_gt_0; lra.
  - apply Rgt_not_eq, cos_gt_0; lra.
  - rewrite tan_atan. nra.
Qed.
Lemma half_angle x : 1 < x -> 2 * atan (sqrt ((x - 1) / (x + 1))) = atan (sqrt (x ^ 2 - 1)).
Proof.
  intros H. assert (Q : 0 < (x - 1) / (x + 1) < 1). { split; [apply Rdiv_lt_0_compat; lra|]. apply Rmult_lt_reg_r with (x + 1); [lra|]. unfold Rdiv. rewrite Rmult_assoc, Rinv_l by lra. lra. }
  set (t := sqrt ((x - 1) / (x + 1))). assert (T2 : t ^ 2 = (x - 1) / (x + 1)) by (apply sqrt_sq2; lra). assert (T0 : 0 < t) by (apply sqrt_lt_R0; lra).
  rewrite atan_double by nra. f_equal. rewrite T2. replace (1 - (x - 1) / (x + 1)) with (2 / (x + 1)) by (field; lra).
  replace (x ^ 2 - 1) with ((x - 1) / (x + 1) * (x + 1) ^ 2) by (field; lra). rewrite sqrt_mult by nra. rewrite sqrt_pow2 by lra. fold t. field. lra.
Qed.
(** x < 1 *)
Lemma lroot_pos x : 0 < x < 1 -> 0 < sqrt (1 - x ^ 2).
Proof. intros H. apply sqrt_lt_R0. nra. Qed.
Lemma lroot_sq x : 0 < x < 1 -> sqrt (1 - x ^ 2) ^ 2 = 1 - x ^ 2.
Proof. intros H. apply sqrt_sq2. nra. Qed.
Lemma acosh_inv x : 0 < x < 1 -> acosh (1 / x) = ln ((1 + sqrt (1 - x ^ 2)) / x).
Proof.
  intros H. unfold acosh. f_equal. replace ((1 / x) ^ 2 - 1) with ((1 - x ^ 2) / x ^ 2) by (field; lra). rewrite sqrt_div by nra. rewrite sqrt_pow2 by lra. field. lra.
Qed.
Lemma half_rapidity x : 0 < x < 1 -> 2 * atanh (sqrt ((1 - x) / (1 + x))) = ln ((1 + sqrt (1 - x ^ 2)) / x).
Proof.
  intros H. assert (Q : 0 < (1 - x) / (1 + x) < 1). { split; [apply Rdiv_lt_0_compat; lra|]. apply Rmult_lt_reg_r with (1 + x); [lra|]. unfold Rdiv. rewrite Rmult_assoc, Rinv_l by lra. lra. }
  set (t := sqrt ((1 - x) / (1 + x))). assert (T2 : t ^ 2 = (1 - x) / (1 + x)) by (apply sqrt_sq2; lra). assert (T0 : 0 < t) by (apply sqrt_lt_R0; lra). assert (T1 : t < 1) by nra.
  unfold atanh. replace (2 * (/ 2 * ln ((1 + t) / (1 - t)))) with (ln ((1 + t) / (1 - t))) by field. f_equal.
  assert (E : sqrt (1 - x ^ 2) = t * (1 + x)). { replace (1 - x ^ 2) with ((1 - x) / (1 + x) * (1 + x) ^ 2) by (field; lra). rewrite sqrt_mult by nra. rewrite sqrt_pow2 by lra. reflexivity. }
  rewrite E. apply Rmult_eq_reg_r with ((1 - t) * x); [|nra]. transitivity ((1 + t) * x); [field; lra|]. transitivity ((1 + t * (1 + x)) * (1 - t)); [|field; lra].
  assert (E2 : t ^ 2 * (1 + x) = 1 - x) by (rewrite T2; field; lra). nra.
Qed.

Lemma eps_pos : 0 < eps_nfw < 1.
Proof. unfold eps_nfw. lra. Qed.
(** the functions off the window *)
Definition wp (x : R) : R := atan (sqrt (x ^ 2 - 1)).
Definition wn (x : R) : R := ln ((1 + sqrt (1 - x ^ 2)) / x).
Lemma f_outer x : 1 + eps_nfw < x -> f_nfw x = 1 - wp x / sqrt (x ^ 2 - 1).
Proof.
  intros H. assert (E := eps_pos). unfold f_nfw. cbv zeta. rewrite Rmax_left by lra. destruct (Rlt_dec 1 x); [|lra]. rewrite half_angle by lra. reflexivity.
Qed.
Lemma g_outer x : 1 + eps_nfw < x -> g_nfw x = ln (x / 2) ^ 2 + wp x ^ 2.
Proof.
  intros H. assert (E := eps_pos). unfold g_nfw. cbv zeta. rewrite Rmax_left by lra. destruct (Rlt_dec 1 x); [|lra]. rewrite acos_inv by lra. reflexivity.
Qed.
Lemma h_outer x : 1 + eps_nfw < x -> h_nfw x = ln (x / 2) + wp x / sqrt (x ^ 2 - 1).
Proof.
  intros H. assert (E := eps_pos). unfold h_nfw. cbv zeta. rewrite Rmax_left by lra. destruct (Rlt_dec 1 x); [|lra]. rewrite acos_inv by lra. reflexivity.
Qed.
Lemma f_inner x : 0 < x < 1 - eps_nfw -> f_nfw x = 1 - wn x / sqrt (1 - x ^ 2).
Proof.
  intros H. assert (E := eps_pos). unfold f_nfw. cbv zeta. rewrite Rmin_left by lra. destruct (Rlt_dec 1 x); [lra|]. destruct (Rlt_dec x 1); [|lra]. rewrite half_rapidity by lra. reflexivity.
Qed.
Lemma g_inner x : 0 < x < 1 - eps_nfw -> g_nfw x = ln (x / 2) ^ 2 - wn x ^ 2.
Proof.
  intros H. assert (E := eps_pos). unfold g_nfw. cbv zeta. rewrite Rmin_left by lra. destruct (Rlt_dec 1 x); [lra|]. destruct (Rlt_dec x 1); [|lra]. rewrite acosh_inv by lra. reflexivity.
Qed.
Lemma h_inner x : 0 < x < 1 - eps_nfw -> h_nfw x = ln (x / 2) + wn x / sqrt (1 - x ^ 2).
Proof.
  intros H. assert (E := eps_pos). unfold h_nfw. cbv zeta. rewrite Rmin_left by lra. destruct (Rlt_dec 1 x); [lra|]. destruct (Rlt_dec x 1); [|lra]. rewrite acosh_inv by lra. reflexivity.
Qed.
Lemma d_root x : 1 < x -> is_derive (fun x => sqrt (x ^ 2 - 1)) x (x / sqrt (x ^ 2 - 1)).
Proof. intros H. assert (P := root_pos x H). auto_derive; [nra|]. replace (x * (x * 1) + - (1)) with (x ^ 2 - 1) by ring. field. lra. Qed.
Lemma d_lroot x : 0 < x < 1 -> is_derive (fun x => sqrt (1 - x ^ 2)) x (- x / sqrt (1 - x ^ 2)).
Proof. intros H. assert (P := lroot_pos x H). auto_derive; [nra|]. replace (1 + - (x * (x * 1))) with (1 - x ^ 2) by ring. field. lra. Qed.
Lemma d_wp x : 1 < x -> is_derive wp x (1 / (x * sqrt (x ^ 2 - 1))).
Proof.
  intros H. assert (P := root_pos x H). assert (Q := root_sq x H). unfold wp.
  assert (D := is_derive_comp atan (fun x => sqrt (x ^ 2 - 1)) x _ _ (is_derive_atan _) (d_root x H)).
  match type of D with is_derive _ _ ?v => replace (1 / (x * sqrt (x ^ 2 - 1))) with v; [exact D|] end.
  unfold scal; cbn; unfold mult; cbn. replace (x * (x * 1) - 1) with (x ^ 2 - 1) by ring. replace (1 + (sqrt (x ^ 2 - 1))²) with (x ^ 2) by (unfold Rsqr; nra). field. split; lra.
Qed.
Lemma d_wn x : 0 < x < 1 -> is_derive wn x (- 1 / (x * sqrt (1 - x ^ 2))).
Proof.
  intros H. assert (P := lroot_pos x H). assert (Q := lroot_sq x H). unfold wn.
  auto_derive; replace (1 + - (x * (x * 1))) with (1 - x ^ 2) by ring; [repeat split; try nra; apply Rmult_lt_0_compat; [lra|apply Rinv_0_lt_compat; lra]|].
  set (u := sqrt (1 - x ^ 2)) in *. transitivity (- (u * (1 + u) + x ^ 2) / (x * u * (1 + u))); [field; repeat split; lra|].
  replace (u * (1 + u) + x ^ 2) with (1 + u) by nra. field. repeat split; lra.
Qed.
Lemma ln_half x : 0 < x -> is_derive (fun x => ln (x / 2)) x (1 / x).
Proof. intros H. auto_derive; [lra|]. field. lra. Qed.
(** the derivatives of the code's functions *)
Lemma d_square (f : R -> R) (x l : R) : is_derive f x l -> is_derive (fun x => f x ^ 2) x (2 * f x * l).
Proof.
  intros D. eapply is_derive_ext; [|exact (is_derive_mult f f x l l D D ltac:(intros; apply Rmult_comm))|..] || idtac.
  assert (E := is_derive_pow f 2 x l D). match type of E with is_derive _ _ ?v => replace (2 * f x * l) with v; [exact E|] end. cbn. ring.
Qed.
Lemma locally_gt (a x : R) : a < x -> locally x (fun t => a < t).
Proof. apply (open_gt a). Qed.
Lemma locally_lt (a x : R) : x < a -> locally x (fun t => t < a).
Proof. apply (open_lt a). Qed.
Lemma g_derive x : 0 < x -> eps_nfw < Rabs (x - 1) -> is_derive g_nfw x (2 * h_nfw x / x).
Proof.
  intros Hx H. assert (E := eps_pos). destruct (Rlt_dec 1 x) as [H1|H1].
  - rewrite Rabs_pos_eq in H by lra. assert (P := root_pos x H1).
    apply is_derive_ext_loc with (fun x => ln (x / 2) ^ 2 + wp x ^ 2).
    { generalize (locally_gt (1 + eps_nfw) x ltac:(lra)). apply filter_imp. intros t Ht. symmetry. apply g_outer, Ht. }
    rewrite h_outer by lra. assert (D1 := d_square _ x _ (ln_half x Hx)). assert (D2 := d_square _ x _ (d_wp x H1)).
    assert (D := is_derive_plus _ _ x _ _ D1 D2). match type of D with is_derive _ _ ?v => replace (2 * (ln (x / 2) + wp x / sqrt (x ^ 2 - 1)) / x) with v; [exact D|] end.
    unfold plus; cbn. change (x * (x * 1) - 1) with (x ^ 2 - 1). field. split; lra.
  - assert (H2 : x < 1). { destruct (Req_dec x 1) as [->|]; [|lra]. rewrite Rminus_eq_0, Rabs_R0 in H. lra. }
    rewrite Rabs_left in H by lra. assert (P := lroot_pos x ltac:(lra)).
    apply is_derive_ext_loc with (fun x => ln (x / 2) ^ 2 - wn x ^ 2).
    { assert (L1 := locally_gt 0 x Hx). assert (L2 := locally_lt (1 - eps_nfw) x ltac:(lra)). generalize (filter_and _ _ L1 L2). apply filter_imp. intros t Ht. symmetry. apply g_inner. lra. }
    rewrite h_inner by lra. assert (D1 := d_square _ x _ (ln_half x Hx)). assert (D2 := d_square _ x _ (d_wn x ltac:(lra))).
    assert (D := is_derive_minus _ _ x _ _ D1 D2). match type of D with is_derive _ _ ?v => replace (2 * (ln (x / 2) + wn x / sqrt (1 - x ^ 2)) / x) with v; [exact D|] end.
    unfold minus, plus, opp; cbn. change (1 - x * (x * 1)) with (1 - x ^ 2). field. split; lra.
Qed.
Lemma h_derive x : 0 < x -> eps_nfw < Rabs (x - 1) -> is_derive h_nfw x (x * (f_nfw x / (x ^ 2 - 1))).
Proof.
  intros Hx H. assert (E := eps_pos). destruct (Rlt_dec 1 x) as [H1|H1].
  - rewrite Rabs_pos_eq in H by lra. assert (P := root_pos x H1). assert (Q := root_sq x H1).
    apply is_derive_ext_loc with (fun x => ln (x / 2) + wp x / sqrt (x ^ 2 - 1)).
    { generalize (locally_gt (1 + eps_nfw) x ltac:(lra)). apply filter_imp. intros t Ht. symmetry. apply h_outer, Ht. }
    rewrite f_outer by lra. assert (D2 := is_derive_div _ _ x _ _ (d_wp x H1) (d_root x H1) ltac:(lra)).
    assert (D := is_derive_plus _ _ x _ _ (ln_half x Hx) D2). match type of D with is_derive _ _ ?v => replace (x * ((1 - wp x / sqrt (x ^ 2 - 1)) / (x ^ 2 - 1))) with v; [exact D|] end.
    unfold plus; cbn. change (x * (x * 1) - 1) with (x ^ 2 - 1). set (u := sqrt (x ^ 2 - 1)) in *.
    replace (x ^ 2 - 1) with (u ^ 2) by lra. transitivity ((u ^ 2 + 1) / (x * u ^ 2) - wp x * x / u ^ 3); [field; split; lra|]. replace (u ^ 2 + 1) with (x ^ 2) by lra. field. split; lra.
  - assert (H2 : x < 1). { destruct (Req_dec x 1) as [->|]; [|lra]. rewrite Rminus_eq_0, Rabs_R0 in H. lra. }
    rewrite Rabs_left in H by lra. assert (P := lroot_pos x ltac:(lra)). assert (Q := lroot_sq x ltac:(lra)).
    apply is_derive_ext_loc with (fun x => ln (x / 2) + wn x / sqrt (1 - x ^ 2)).
    { assert (L1 := locally_gt 0 x Hx). assert (L2 := locally_lt (1 - eps_nfw) x ltac:(lra)). generalize (filter_and _ _ L1 L2). apply filter_imp. intros t Ht. symmetry. apply h_inner. lra. }
    rewrite f_inner by lra. assert (D2 := is_derive_div _ _ x _ _ (d_wn x ltac:(lra)) (d_lroot x ltac:(lra)) ltac:(lra)).
    assert (D := is_derive_plus _ _ x _ _ (ln_half x Hx) D2). match type of D with is_derive _ _ ?v => replace (x * ((1 - wn x / sqrt (1 - x ^ 2)) / (x ^ 2 - 1))) with v; [exact D|] end.
    unfold plus; cbn. change (1 - x * (x * 1)) with (1 - x ^ 2). change (x * (x * 1) - 1) with (x ^ 2 - 1). set (u := sqrt (1 - x ^ 2)) in *.
    replace (x ^ 2 - 1) with (- u ^ 2) by lra. transitivity ((u ^ 2 - 1) / (x * u ^ 2) + wn x * x / u ^ 3); [field; split; lra|]. replace (u ^ 2 - 1) with (- x ^ 2) by lra. field. split; lra.
Qed.
