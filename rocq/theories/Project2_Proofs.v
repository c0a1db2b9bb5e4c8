(** * Halo lenses are projections of their densities *)
From Coq Require Import Reals Lra Psatz.
From Coquelicot Require Import Coquelicot.
From Verif Require Import Const_Model RealFun Derive1 Cosmo_Model Geo_Model LensBase_Model Lens_Spec Nfw_Model Nfw_Spec Nfw_Proofs Nfw2_Proofs Tnfw_Model Tnfw_Proofs Tnfw2_Proofs Tnfw3_Proofs Project_Spec Project_Proofs.
Local Open Scope R_scope.

Lemma even_RInt (f : R -> R) (Z I : R) : (forall z, f (- z) = f z) -> is_RInt (V := R_NormedModule) f 0 Z I -> is_RInt (V := R_NormedModule) f (- Z) Z (2 * I).
Proof.
  intros E H. replace (2 * I) with (plus I I) by (unfold plus; simpl; ring). apply (is_RInt_Chasles (V := R_NormedModule)) with 0; [|exact H].
  apply is_RInt_swap in H. rewrite <- (Ropp_involutive Z) in H. rewrite <- Ropp_0 in H. apply (is_RInt_comp_opp (V := R_NormedModule)) in H.
  apply (is_RInt_ext (V := R_NormedModule)) with (fun y => opp (opp (f (- y)))); [intros z _; rewrite opp_opp; apply E|].
  replace I with (opp (opp I)) by apply opp_opp. apply (is_RInt_opp (V := R_NormedModule)), H.
Qed.
(** any density with an antiderivative along the line of sight, lengths in units of a *)
Lemma projects_of (rho h dh : R -> R) (a d l : R) : 0 < a -> (forall z, is_derive h z (dh z)) -> (forall z, continuous dh z) -> h 0 = 0 ->
  (forall z, rho (sqrt (d ^ 2 + z ^ 2)) = dh (z / a)) -> is_lim h p_infty l -> projects rho d (2 * (a * l)).
Proof.
  intros Ha D C H0 E L. exists (fun Z => 2 * (a * h (Z / a))). split.
  - intros Z HZ. apply even_RInt; [intros z; replace ((- z) ^ 2) with (z ^ 2) by ring; reflexivity|].
    apply (is_RInt_ext (V := R_NormedModule)) with (fun z => dh (z / a)); [intros z _; symmetry; apply E|].
    replace (a * h (Z / a)) with (minus (a * h (Z / a)) (a * h (0 / a))) by (replace (0 / a) with 0 by (unfold Rdiv; ring); rewrite H0; unfold minus, plus, opp; simpl; ring).
    apply (is_RInt_derive (V := R_CompleteNormedModule) (fun z => a * h (z / a))).
    + intros z _. eapply dv_val; [exact (dv_scal _ a z _ (dv_comp h (fun z => z / a) z _ (/ a) (D _) ltac:(auto_derive; [trivial|field; lra])))|]. field. lra.
    + intros z _. apply (continuous_comp (fun z => z / a) dh); [|apply C]. apply (ex_derive_continuous (K := R_AbsRing) (V := R_NormedModule)). auto_derive. trivial.
  - apply lim_times, lim_times. apply (lim_comp_inf h (fun Z => Z / a)); [exact L|]. apply is_lim_spec. intros M. exists (a * M). intros z Hz.
    apply Rmult_lt_reg_l with a; [exact Ha|]. replace (a * (z / a)) with z by (field; lra). exact Hz.
Qed.
Lemma sl_scaled a x z : 0 < a -> 0 < x -> sqrt ((a * x) ^ 2 + z ^ 2) = a * sl x (z / a).
Proof.
  intros Ha Hx. unfold sl. rewrite <- (sqrt_pow2 a) at 2 by lra. rewrite <- sqrt_mult by nra. f_equal. field. lra.
Qed.
Lemma sl_cont x z : 0 < x -> continuous (sl x) z.
Proof. intros H. apply (ex_derive_continuous (K := R_AbsRing) (V := R_NormedModule)). eexists. apply d_sl, H. Qed.
Lemma cont_of (f : R -> R) x z : 0 < x -> (forall s, 0 < s -> ex_derive f s) -> continuous (fun z => f (sl x z)) z.
Proof. intros H D. apply (continuous_comp (sl x) f); [apply sl_cont, H|]. apply (ex_derive_continuous (K := R_AbsRing) (V := R_NormedModule)), D, sl_pos, H. Qed.
Section Halo.
Variables (Ds a x tau : R).
Hypotheses (Ha : 0 < a) (Hx : 0 < x) (Ht : 0 < tau).
Lemma nfw_projects : projects (nfw_density Ds a) (a * x) (2 * (a * (Ds * Gx x))).
Proof.
  apply (projects_of _ (fun z => Ds * h2 x z) (fun z => Ds * (1 / (sl x z * (1 + sl x z) ^ 2)))); [exact Ha| | | | |].
  - intros z. apply dv_scal, h2_derive; assumption.
  - intros z. apply (cont_of (fun s => Ds * (1 / (s * (1 + s) ^ 2)))); [exact Hx|]. intros s Hs. auto_derive. assert (0 < s * (1 + s) ^ 2) by nra. simpl in H. lra.
  - rewrite h2_0. ring.
  - intros z. rewrite (sl_scaled a x z Ha Hx). assert (P := sl_pos x Hx (z / a)). unfold nfw_density. replace (a * sl x (z / a) / a) with (sl x (z / a)) by (field; lra). unfold Rdiv. ring.
  - apply lim_times, lim_h2; assumption.
Qed.
Lemma tnfw_projects : projects (tnfw_density Ds a (tau * a)) (a * x)
  (2 * (a * (Ds * (tau ^ 2 / (tau ^ 2 + 1) ^ 2 * ((tau ^ 2 + 1) * Gx x + 2 * Fx x - 2 * (/ hyp tau x * (PI / 2)) + (1 - tau ^ 2) * (/ (tau * hyp tau x) * - L_tnfw x tau)))))).
Proof.
  apply (projects_of _ (fun z => Ds * ht x tau z) (fun z => Ds * (1 / (sl x z * (1 + sl x z) ^ 2) * (tau ^ 2 / (tau ^ 2 + sl x z ^ 2))))); [exact Ha| | | | |].
  - intros z. apply dv_scal, ht_derive; assumption.
  - intros z. apply (cont_of (fun s => Ds * (1 / (s * (1 + s) ^ 2) * (tau ^ 2 / (tau ^ 2 + s ^ 2))))); [exact Hx|]. intros s Hs. auto_derive. assert (0 < s * (1 + s) ^ 2) by nra. simpl in H. repeat split; nra.
  - rewrite ht_0. ring.
  - intros z. rewrite (sl_scaled a x z Ha Hx). assert (P := sl_pos x Hx (z / a)). unfold tnfw_density, nfw_density. replace (a * sl x (z / a) / a) with (sl x (z / a)) by (field; lra).
    set (s := sl x (z / a)) in *. assert (A2 : 0 < a ^ 2) by nra. assert (T2 : 0 < tau ^ 2 + s ^ 2) by nra. replace ((tau * a) ^ 2 / ((tau * a) ^ 2 + (a * s) ^ 2)) with (tau ^ 2 / (tau ^ 2 + s ^ 2)); [unfold Rdiv; ring|].
    replace ((tau * a) ^ 2 + (a * s) ^ 2) with (a ^ 2 * (tau ^ 2 + s ^ 2)) by ring. field. split; lra.
  - apply lim_times, lim_ht; assumption.
Qed.
End Halo.
Lemma Fx_tnfw g : 0 < g -> 1 / 100 < Rabs (g - 1) -> F_tnfw g = Fx g.
Proof. intros H W. unfold Fx. destruct (off_window g H W) as [O|O]; destruct (Rlt_dec 1 g); try lra; destruct (Rlt_dec g 1); try lra; [apply F_outer, O|apply F_inner, O]. Qed.
Lemma Fx_nfw g : 0 < g -> eps_nfw < Rabs (g - 1) -> f_nfw g = 1 - Fx g.
Proof.
  intros H W. assert (E := eps_pos). unfold Fx. destruct (Rlt_dec 1 g) as [O|O]; [rewrite Rabs_pos_eq in W by lra; apply f_outer; lra|]. rewrite Rabs_left1 in W by lra. destruct (Rlt_dec g 1); [|lra]. apply f_inner. lra.
Qed.
Lemma lim_of_bound (f : R -> R) (l C : R) : 0 <= C -> (forall t, 1 < t -> Rabs (f t - l) <= C / t) -> is_lim f p_infty l.
Proof.
  intros HC B. apply is_lim_spec. intros eps. assert (E := cond_pos eps). exists (Rmax 1 ((C + 1) / eps)). intros t Ht. assert (M1 := Rmax_l 1 ((C + 1) / eps)). assert (M2 := Rmax_r 1 ((C + 1) / eps)).
  apply Rle_lt_trans with (C / t); [apply B; lra|]. apply Rmult_lt_reg_r with t; [lra|]. replace (C / t * t) with C by (field; lra).
  assert (C + 1 < eps * t); [|lra]. apply Rmult_lt_reg_l with (/ eps); [apply Rinv_0_lt_compat, E|]. rewrite <- Rmult_assoc, Rinv_l, Rmult_1_l by lra. unfold Rdiv in M2. lra.
Qed.
Lemma lim_sproj g : 0 < g -> g <> 1 -> is_lim (fun tau => sproj tau g) p_infty ((1 - F_tnfw g) / (g ^ 2 - 1)).
Proof.
  intros Hg N. set (A := (1 - F_tnfw g) / (g ^ 2 - 1)). assert (PP := PI_RGT_0). assert (GI := Rinv_0_lt_compat _ Hg).
  apply (lim_of_bound _ _ (Rabs A + 2 * Rabs (F_tnfw g) + PI + (2 + g) / g)).
  { assert (P1 := Rabs_pos A). assert (P2 := Rabs_pos (F_tnfw g)). assert (0 < (2 + g) / g) by (apply Rdiv_lt_0_compat; lra). lra. }
  intros tau Ht. unfold sproj. destruct (Req_EM_T g 1); [contradiction|]. set (F := F_tnfw g) in *.
  assert (HP := hyp_pos tau ltac:(lra) g). assert (HQ := hyp_sq tau g). set (h := hyp tau g) in *. assert (H1 : tau < h) by nra. assert (H2 : h < tau + g) by nra. assert (H3 : g < h) by nra.
  assert (LB : 0 <= - L_tnfw g tau <= (2 * tau + g) / g).
  { unfold L_tnfw. fold (hyp tau g). fold h. rewrite <- ln_Rinv by (apply Rdiv_lt_0_compat; lra). replace (/ (g / (tau + h))) with ((tau + h) / g) by (field; lra).
    assert (1 < (tau + h) / g) by (apply Rmult_lt_reg_r with g; [lra|]; replace ((tau + h) / g * g) with (tau + h) by (field; lra); lra). split; [rewrite <- ln_1; apply Rlt_le, ln_increasing; lra|].
    apply Rle_trans with ((tau + h) / g - 1); [apply ln_upper; lra|]. apply Rmult_le_reg_r with g; [lra|]. replace (((tau + h) / g - 1) * g) with (tau + h - g) by (field; lra). replace ((2 * tau + g) / g * g) with (2 * tau + g) by (field; lra). lra. }
  set (L := L_tnfw g tau) in *. set (t2 := tau ^ 2). assert (T2 : tau < t2) by (unfold t2; nra).
  replace ((t2 + 1) * (1 - F) / (g ^ 2 - 1)) with ((t2 + 1) * A) by (unfold A; unfold Rdiv; ring).
  replace (t2 / (t2 + 1) ^ 2 * ((t2 + 1) * A + 2 * F + - PI / h + (t2 - 1) * L / (tau * h)) - A) with
    (- A * (1 / (t2 + 1)) + (2 * F) * (t2 / (t2 + 1) ^ 2) - (PI * / h) * (t2 / (t2 + 1) ^ 2) - (- L / (tau * h)) * (t2 * (t2 - 1) / (t2 + 1) ^ 2)) by (field; repeat split; lra).
  assert (TI : 0 < / tau) by (apply Rinv_0_lt_compat; lra).
  assert (Sq : 0 < (t2 + 1) ^ 2) by nra.
  assert (Q1 : 0 <= 1 / (t2 + 1) <= / tau). { split; [apply Rlt_le, Rdiv_lt_0_compat; lra|]. unfold Rdiv. rewrite Rmult_1_l. apply Rinv_le_contravar; lra. }
  assert (Q2 : 0 <= t2 / (t2 + 1) ^ 2 <= / tau).
  { split; [apply Rlt_le, Rdiv_lt_0_compat; lra|]. apply Rmult_le_reg_r with ((t2 + 1) ^ 2); [exact Sq|]. replace (t2 / (t2 + 1) ^ 2 * (t2 + 1) ^ 2) with t2 by (field; lra).
    apply Rmult_le_reg_l with tau; [lra|]. rewrite <- Rmult_assoc, Rinv_r, Rmult_1_l by lra. nra. }
  assert (Q3 : 0 <= t2 * (t2 - 1) / (t2 + 1) ^ 2 <= 1).
  { split; [apply Rmult_le_pos; [nra|apply Rlt_le, Rinv_0_lt_compat, Sq]|]. apply Rmult_le_reg_r with ((t2 + 1) ^ 2); [exact Sq|]. replace (t2 * (t2 - 1) / (t2 + 1) ^ 2 * (t2 + 1) ^ 2) with (t2 * (t2 - 1)) by (field; lra). nra. }
  assert (TU : / tau < 1) by (rewrite <- Rinv_1; apply Rinv_lt_contravar; lra).
  assert (Q4 : 0 <= PI * / h <= PI). { assert (HI := Rinv_0_lt_compat _ HP). assert (/ h < 1) by (rewrite <- Rinv_1; apply Rinv_lt_contravar; lra). nra. }
  assert (Q5 : 0 <= - L / (tau * h) <= (2 + g) / g * / tau).
  { assert (TH : 0 < tau * h) by nra. split; [apply Rmult_le_pos; [lra|apply Rlt_le, Rinv_0_lt_compat, TH]|].
    apply Rmult_le_reg_r with (tau * h); [exact TH|]. replace (- L / (tau * h) * (tau * h)) with (- L) by (field; lra). replace ((2 + g) / g * / tau * (tau * h)) with ((2 + g) * h / g) by (field; lra).
    apply Rle_trans with ((2 * tau + g) / g); [lra|]. unfold Rdiv. apply Rmult_le_compat_r; [lra|]. nra. }
  set (q1 := 1 / (t2 + 1)) in *. set (q2 := t2 / (t2 + 1) ^ 2) in *. set (q3 := t2 * (t2 - 1) / (t2 + 1) ^ 2) in *. set (q4 := PI * / h) in *. set (q5 := - L / (tau * h)) in *. set (q6 := (2 + g) / g) in *. set (q7 := / tau) in *.
  unfold Rdiv. fold q7. clearbody q1 q2 q3 q4 q5 q6 q7 A F. clear - Q1 Q2 Q3 Q4 Q5 TI TU PP.
  apply Rle_trans with (Rabs A * q7 + 2 * Rabs F * q7 + PI * q7 + q6 * q7); [|right; ring].
  eapply Rle_trans; [apply Rabs_triang|]. apply Rplus_le_compat; [eapply Rle_trans; [apply Rabs_triang|]; apply Rplus_le_compat; [eapply Rle_trans; [apply Rabs_triang|]; apply Rplus_le_compat|]|].
  - rewrite Rabs_mult, Rabs_Ropp, (Rabs_pos_eq q1) by lra. apply Rmult_le_compat_l; [apply Rabs_pos|lra].
  - rewrite !Rabs_mult, (Rabs_pos_eq q2), (Rabs_pos_eq 2) by lra. apply Rmult_le_compat_l; [assert (P := Rabs_pos F); lra|lra].
  - rewrite Rabs_Ropp, Rabs_pos_eq by nra. nra.
  - rewrite Rabs_Ropp, Rabs_pos_eq by nra. nra.
Qed.
(** the series for F *)
Lemma atan_series s : 0 <= s -> s - s ^ 3 / 3 + s ^ 5 / 5 - s ^ 7 / 7 <= atan s <= s - s ^ 3 / 3 + s ^ 5 / 5.
Proof.
  intros H. assert (DA : forall t, is_derive atan t (/ (1 + t ^ 2))) by (intros t; eapply dv_val; [apply is_derive_atan|]; unfold Rsqr; f_equal; ring).
  assert (M : forall (f df : R -> R), (forall t, is_derive f t (df t)) -> (forall t, 0 <= t -> 0 <= df t) -> f 0 = 0 -> 0 <= f s).
  { intros f df D P Z. destruct (Rle_lt_or_eq_dec 0 s H) as [S|S]; [|rewrite <- S, Z; lra].
    destruct (MVT_cor2 f df 0 s S) as (c & E & Hc); [intros t _; apply is_derive_Reals, D|]. rewrite Z in E. assert (Pc := P c ltac:(lra)). nra. }
  split.
  - cut (0 <= atan s - (s - s ^ 3 / 3 + s ^ 5 / 5 - s ^ 7 / 7)); [lra|].
    apply (M (fun s => atan s - (s - s ^ 3 / 3 + s ^ 5 / 5 - s ^ 7 / 7)) (fun t => / (1 + t ^ 2) - (1 - t ^ 2 + t ^ 4 - t ^ 6))).
    + intros t. apply dv_minus; [apply DA|]. auto_derive; [trivial|]. field.
    + intros t Ht. replace (/ (1 + t ^ 2) - (1 - t ^ 2 + t ^ 4 - t ^ 6)) with (t ^ 8 / (1 + t ^ 2)) by (field; nra). apply Rmult_le_pos; [apply pow_le, Ht|apply Rlt_le, Rinv_0_lt_compat; nra].
    + rewrite atan_0. field.
  - cut (0 <= s - s ^ 3 / 3 + s ^ 5 / 5 - atan s); [lra|].
    apply (M (fun s => s - s ^ 3 / 3 + s ^ 5 / 5 - atan s) (fun t => 1 - t ^ 2 + t ^ 4 - / (1 + t ^ 2))).
    + intros t. apply dv_minus; [|apply DA]. auto_derive; [trivial|]. field.
    + intros t Ht. replace (1 - t ^ 2 + t ^ 4 - / (1 + t ^ 2)) with (t ^ 6 / (1 + t ^ 2)) by (field; nra). apply Rmult_le_pos; [apply pow_le, Ht|apply Rlt_le, Rinv_0_lt_compat; nra].
    + rewrite atan_0. field.
Qed.
Lemma atanh_series s : 0 <= s < 1 / 10 -> s + s ^ 3 / 3 + s ^ 5 / 5 <= atanh s <= s + s ^ 3 / 3 + s ^ 5 / 5 + s ^ 7 / 6.
Proof.
  intros H.
  assert (M : forall (f df : R -> R), (forall t, 0 <= t <= s -> is_derive f t (df t)) -> (forall t, 0 <= t <= s -> 0 <= df t) -> f 0 = 0 -> 0 <= f s).
  { intros f df D P Z. destruct (Rle_lt_or_eq_dec 0 s ltac:(lra)) as [S|S]; [|rewrite <- S, Z; lra].
    destruct (MVT_cor2 f df 0 s S) as (c & E & Hc); [intros t Ht; apply is_derive_Reals, D, Ht|]. rewrite Z in E. assert (Pc := P c ltac:(lra)). nra. }
  split.
  - cut (0 <= atanh s - (s + s ^ 3 / 3 + s ^ 5 / 5)); [lra|].
    apply (M (fun s => atanh s - (s + s ^ 3 / 3 + s ^ 5 / 5)) (fun t => / (1 - t ^ 2) - (1 + t ^ 2 + t ^ 4))).
    + intros t Ht. apply dv_minus; [apply is_derive_atanh; lra|]. auto_derive; [trivial|]. field.
    + intros t Ht. assert (0 < 1 - t ^ 2) by nra. replace (/ (1 - t ^ 2) - (1 + t ^ 2 + t ^ 4)) with (t ^ 6 / (1 - t ^ 2)) by (field; lra). apply Rmult_le_pos; [apply pow_le, Ht|apply Rlt_le, Rinv_0_lt_compat; nra].
    + rewrite atanh_0. field.
  - cut (0 <= s + s ^ 3 / 3 + s ^ 5 / 5 + s ^ 7 / 6 - atanh s); [lra|].
    apply (M (fun s => s + s ^ 3 / 3 + s ^ 5 / 5 + s ^ 7 / 6 - atanh s) (fun t => 1 + t ^ 2 + t ^ 4 + 7 / 6 * t ^ 6 - / (1 - t ^ 2))).
    + intros t Ht. apply dv_minus; [|apply is_derive_atanh; lra]. auto_derive; [trivial|]. field.
    + intros t Ht. assert (0 < 1 - t ^ 2) by nra. replace (1 + t ^ 2 + t ^ 4 + 7 / 6 * t ^ 6 - / (1 - t ^ 2)) with (t ^ 6 * (1 / 6 - 7 / 6 * t ^ 2) / (1 - t ^ 2)) by (field; lra).
      apply Rmult_le_pos; [apply Rmult_le_pos; [apply pow_le, Ht|nra]|apply Rlt_le, Rinv_0_lt_compat; nra].
    + rewrite atanh_0. field.
Qed.
(** F written with w = (1 - x) / (1 + x) *)
Lemma Fx_near x : 99 / 100 <= x <= 101 / 100 -> x <> 1 -> let w := (1 - x) / (1 + x) in exists e, Rabs e <= Rabs w ^ 3 / 6 /\ Fx x = 2 / (1 + x) * (1 + w / 3 + w ^ 2 / 5 + e).
Proof.
  intros H N w. unfold Fx. destruct (Rlt_dec 1 x) as [O|O].
  - assert (P := root_pos x O). unfold wp. rewrite <- half_angle by exact O. set (s := sqrt ((x - 1) / (x + 1))).
    assert (Q0 : 0 < (x - 1) / (x + 1)) by (apply Rdiv_lt_0_compat; lra). assert (S : 0 < s) by (apply sqrt_lt_R0, Q0). assert (S2 : s ^ 2 = - w).
    { unfold s, w. rewrite <- Rsqr_pow2, Rsqr_sqrt by lra. field. lra. }
    assert (R : sqrt (x ^ 2 - 1) = (1 + x) * s).
    { unfold s. rewrite <- (sqrt_pow2 (1 + x)) by lra. rewrite <- sqrt_mult by first [apply pow2_ge_0|apply Rlt_le, Q0]. f_equal. field. lra. }
    rewrite R. destruct (atan_series s (Rlt_le _ _ S)) as [B1 B2].
    exists (atan s / s - (1 + w / 3 + w ^ 2 / 5)). split.
    + assert (E : atan s / s - (1 + w / 3 + w ^ 2 / 5) = (atan s - (s - s ^ 3 / 3 + s ^ 5 / 5)) / s) by (replace w with (- s ^ 2) by lra; field; lra). rewrite E.
      rewrite Rabs_left1. 2:{ apply Rmult_le_reg_r with s; [exact S|]. replace ((atan s - (s - s ^ 3 / 3 + s ^ 5 / 5)) / s * s) with (atan s - (s - s ^ 3 / 3 + s ^ 5 / 5)) by (field; lra). lra. }
      replace (Rabs w) with (s ^ 2) by (rewrite Rabs_left1 by nra; lra). apply Rmult_le_reg_r with s; [exact S|].
      replace (- ((atan s - (s - s ^ 3 / 3 + s ^ 5 / 5)) / s) * s) with (s - s ^ 3 / 3 + s ^ 5 / 5 - atan s) by (field; lra). replace ((s ^ 2) ^ 3 / 6 * s) with (s ^ 7 / 6) by field. assert (0 < s ^ 7) by (apply pow_lt, S). lra.
    + field. repeat split; lra.
  - destruct (Rlt_dec x 1) as [O'|O']; [|lra]. assert (P := lroot_pos x ltac:(lra)). unfold wn. rewrite <- half_rapidity by lra. set (s := sqrt ((1 - x) / (1 + x))).
    assert (Q0 : 0 < (1 - x) / (1 + x)) by (apply Rdiv_lt_0_compat; lra). assert (S : 0 < s) by (apply sqrt_lt_R0, Q0). assert (S2 : s ^ 2 = w).
    { unfold s, w. rewrite <- Rsqr_pow2, Rsqr_sqrt by lra. reflexivity. }
    assert (WB : w < 1 / 100). { unfold w. apply Rmult_lt_reg_r with (1 + x); [lra|]. replace ((1 - x) / (1 + x) * (1 + x)) with (1 - x) by (field; lra). lra. }
    assert (R : sqrt (1 - x ^ 2) = (1 + x) * s).
    { unfold s. rewrite <- (sqrt_pow2 (1 + x)) at 1 by lra. rewrite <- sqrt_mult by first [apply pow2_ge_0|apply Rlt_le, Q0]. f_equal. field. lra. }
    rewrite R. destruct (atanh_series s ltac:(nra)) as [B1 B2].
    exists (atanh s / s - (1 + w / 3 + w ^ 2 / 5)). split.
    + assert (E : atanh s / s - (1 + w / 3 + w ^ 2 / 5) = (atanh s - (s + s ^ 3 / 3 + s ^ 5 / 5)) / s) by (replace w with (s ^ 2) by lra; field; lra). rewrite E.
      rewrite Rabs_pos_eq. 2:{ apply Rmult_le_reg_r with s; [exact S|]. replace ((atanh s - (s + s ^ 3 / 3 + s ^ 5 / 5)) / s * s) with (atanh s - (s + s ^ 3 / 3 + s ^ 5 / 5)) by (field; lra). lra. }
      replace (Rabs w) with (s ^ 2) by (rewrite Rabs_pos_eq by nra; lra). apply Rmult_le_reg_r with s; [exact S|].
      replace ((atanh s - (s + s ^ 3 / 3 + s ^ 5 / 5)) / s * s) with (atanh s - (s + s ^ 3 / 3 + s ^ 5 / 5)) by (field; lra). replace ((s ^ 2) ^ 3 / 6 * s) with (s ^ 7 / 6) by field. lra.
    + field. repeat split; lra.
Qed.
Lemma F_series x : 99 / 100 <= x <= 101 / 100 -> Rabs (F_tnfw x - Fx x) <= Rabs (x - 1) ^ 3 / 2.
Proof.
  intros H. assert (E : F_tnfw x = 1 - 2 * (x - 1) / 3 + 7 * (x - 1) ^ 2 / 15).
  { unfold F_tnfw. cbv zeta. destruct (Rlt_dec x _); [lra|]. destruct (Rlt_dec _ x); [lra|reflexivity]. }
  rewrite E. destruct (Req_dec x 1) as [->|N].
  { unfold Fx. destruct (Rlt_dec 1 1); [lra|]. destruct (Rlt_dec 1 1); [lra|]. replace (1 - 2 * (1 - 1) / 3 + 7 * (1 - 1) ^ 2 / 15 - 1) with 0 by field. rewrite Rminus_eq_0, Rabs_R0. lra. }
  destruct (Fx_near x H N) as (e & Be & ->). set (w := (1 - x) / (1 + x)) in *. set (d := x - 1).
  assert (D : - (1 / 100) <= d <= 1 / 100) by (unfold d; lra). assert (X : 1 + x = 2 + d) by (unfold d; ring). assert (W : w = - d / (2 + d)) by (unfold w; rewrite X; f_equal; unfold d; ring). rewrite X.
  assert (AW : Rabs w <= 100 / 199 * Rabs d).
  { rewrite W. unfold Rdiv at 1. rewrite Rabs_mult, Rabs_Ropp, (Rabs_pos_eq (/ _)) by (apply Rlt_le, Rinv_0_lt_compat; lra). rewrite Rmult_comm. apply Rmult_le_compat_r; [apply Rabs_pos|].
    apply Rmult_le_reg_r with (2 + d); [lra|]. rewrite Rinv_l by lra. lra. }
  assert (AD := Rabs_pos d). assert (AW0 := Rabs_pos w).
  assert (E3 : Rabs e <= Rabs d ^ 3 / 40).
  { eapply Rle_trans; [exact Be|]. assert (Rabs w ^ 3 <= (100 / 199 * Rabs d) ^ 3) by (apply pow_incr; lra). replace ((100 / 199 * Rabs d) ^ 3) with (1000000 / 7880599 * Rabs d ^ 3) in H0 by field. assert (0 <= Rabs d ^ 3) by (apply pow_le, AD). lra. }
  replace (1 - 2 * d / 3 + 7 * d ^ 2 / 15 - 2 / (2 + d) * (1 + w / 3 + w ^ 2 / 5 + e)) with
    (d ^ 3 * ((13 / 5 + 32 / 15 * d + 7 / 15 * d ^ 2) / (2 + d) ^ 3) - 2 / (2 + d) * e) by (rewrite W; field; lra).
  assert (D3 : 0 <= Rabs d ^ 3) by (apply pow_le, AD). assert (C : (199 / 100) ^ 3 <= (2 + d) ^ 3) by (apply pow_incr; lra).
  eapply Rle_trans; [apply Rabs_triang|]. rewrite Rabs_Ropp, !Rabs_mult, <- RPow_abs. 
  assert (B1 : Rabs ((13 / 5 + 32 / 15 * d + 7 / 15 * d ^ 2) / (2 + d) ^ 3) <= 4 / 10).
  { assert (PP : 0 <= 13 / 5 + 32 / 15 * d + 7 / 15 * d ^ 2) by nra. rewrite Rabs_pos_eq by (apply Rmult_le_pos; [exact PP|apply Rlt_le, Rinv_0_lt_compat; lra]).
    apply Rmult_le_reg_r with ((2 + d) ^ 3); [lra|]. unfold Rdiv. rewrite (Rmult_assoc _ (/ (2 + d) ^ 3)), Rinv_l by lra. nra. }
  assert (B2 : Rabs (2 / (2 + d)) <= 200 / 199).
  { rewrite Rabs_pos_eq by (apply Rlt_le, Rdiv_lt_0_compat; lra). apply Rmult_le_reg_r with (2 + d); [lra|]. replace (2 / (2 + d) * (2 + d)) with 2 by (field; lra). lra. }
  assert (P1 := Rabs_pos e). assert (P2 := Rabs_pos (2 / (2 + d))).
  apply Rle_trans with (Rabs d ^ 3 * (4 / 10) + 200 / 199 * (Rabs d ^ 3 / 40)); [|lra]. apply Rplus_le_compat; [apply Rmult_le_compat_l; lra|]. apply Rmult_le_compat; lra.
Qed.
Lemma F_window g : 0 < g -> Rabs (g - 1) <= 1 / 100 -> Rabs (F_tnfw g - Fx g) <= 1 / 1000000 /\ (g <> 1 -> Rabs ((Fx g - F_tnfw g) / (g ^ 2 - 1)) <= 26 / 1000000).
Proof.
  intros G W. assert (R : 99 / 100 <= g <= 101 / 100) by (unfold Rabs in W; destruct (Rcase_abs (g - 1)); lra).
  assert (S := F_series g R). assert (P := Rabs_pos (g - 1)). set (d := Rabs (g - 1)) in *. assert (D2 : d ^ 2 <= 1 / 10000) by nra. split; [assert (d ^ 3 <= 1 / 1000000) by nra; lra|].
  intros N. assert (DP : 0 < d) by (apply Rabs_pos_lt; lra). assert (E : Rabs (g ^ 2 - 1) = d * (g + 1)) by (replace (g ^ 2 - 1) with ((g - 1) * (g + 1)) by ring; rewrite Rabs_mult, (Rabs_pos_eq (g + 1)) by lra; reflexivity).
  unfold Rdiv. rewrite Rabs_mult, Rabs_inv, E, Rabs_minus_sym. apply Rmult_le_reg_r with (d * (g + 1)); [nra|]. rewrite Rmult_assoc, Rinv_l, Rmult_1_r by nra. eapply Rle_trans; [exact S|].
  replace (d ^ 3 / 2) with (d * (d ^ 2 / 2)) by field. replace (26 * / 1000000 * (d * (g + 1))) with (d * (26 * / 1000000 * (g + 1))) by ring. apply Rmult_le_compat_l; lra.
Qed.
Section Class.
Variables (dc cd : R -> R) (z_s z_l x0 y0 mass : R).
Notation d_l := (angular_diameter_distance dc z_l). Notation d_s := (angular_diameter_distance dc z_s). Notation d_ls := (angular_diameter_distance_z1z2 dc z_l z_s).
Hypotheses (Hl : 0 < d_l) (Hs : 0 < d_s) (Hls : 0 < d_ls).
Variables (x y : R).
Hypothesis Hxy : x <> x0 \/ y <> y0.
Let th := sqrt ((x - x0) ^ 2 + (y - y0) ^ 2).
Lemma class_tnfw_projected tot Rs tau : 0 < Rs -> 0 < tau ->
  let arcsec := d_l * arcsec_to_rad in let g := th / Rs in let M0 := tnfw_M0 dc cd tot z_l mass Rs tau in
  projects (tnfw_density (M0 / (4 * PI * (Rs * arcsec) ^ 3)) (Rs * arcsec) (tnfw_get_truncation_radius Rs tau * arcsec)) (th * arcsec)
    (M0 / (2 * PI * (Rs * arcsec) ^ 2) * (tau ^ 2 / (tau ^ 2 + 1) ^ 2 * ((tau ^ 2 + 1) * Gx g + 2 * Fx g + - PI / hyp tau g + (tau ^ 2 - 1) * L_tnfw g tau / (tau * hyp tau g)))).
Proof.
  intros HR Ht arcsec g M0. assert (T : 0 < th) by (apply norm_pos; destruct Hxy; [left|right]; lra). assert (A : 0 < arcsec) by (apply Rmult_lt_0_compat; [exact Hl|apply arcsec_to_rad_pos]).
  assert (G : 0 < g) by (apply Rdiv_lt_0_compat; assumption).
  unfold tnfw_get_truncation_radius. replace (tau * Rs * arcsec) with (tau * (Rs * arcsec)) by ring. replace (th * arcsec) with ((Rs * arcsec) * g) by (unfold g; field; lra).
  set (Ds := _ / (4 * PI * _)). assert (PP := tnfw_projects Ds (Rs * arcsec) g tau (Rmult_lt_0_compat _ _ HR A) G Ht).
  match type of PP with projects _ _ ?v => match goal with |- projects _ _ ?w => replace w with v; [exact PP|] end end.
  clear PP. assert (P1 := hyp_pos tau Ht g). unfold Ds. assert (Q := PI_RGT_0). set (h := hyp tau g) in *. set (F := Fx g). set (L := L_tnfw g tau). set (k := Gx g). clearbody M0 g h F L k arcsec. field. repeat split; try lra; nra.
Qed.
Lemma class_kappa tot Rs tau : 0 < Rs -> let arcsec := d_l * arcsec_to_rad in let M0 := tnfw_M0 dc cd tot z_l mass Rs tau in
  critical_surface_density dc z_l z_s * tnfw_convergence dc cd tot z_s z_l x0 y0 mass Rs tau 0 x y = M0 / (2 * PI * (Rs * arcsec) ^ 2) * sproj tau (th / Rs).
Proof.
  intros HR arcsec M0. unfold tnfw_convergence. rewrite kappa_eq. rewrite Rplus_0_r. fold th. fold M0.
  assert (S := sigma_pos dc z_s z_l Hl Hs Hls). set (sg := critical_surface_density dc z_l z_s) in *. assert (Q := PI_RGT_0). assert (AP := arcsec_to_rad_pos). unfold arcsec.
  set (sp := sproj _ _). clearbody M0 sp sg. clear arcsec. revert AP Hl. generalize d_l, arcsec_to_rad. intros dl ar AP' Hl'. field. repeat split; lra.
Qed.
Lemma class_tnfw_projects tot Rs tau : 0 < Rs -> 0 < tau -> 1 / 100 < Rabs (th / Rs - 1) ->
  let arcsec := d_l * arcsec_to_rad in
  projects (tnfw_density (tnfw_M0 dc cd tot z_l mass Rs tau / (4 * PI * (Rs * arcsec) ^ 3)) (Rs * arcsec) (tnfw_get_truncation_radius Rs tau * arcsec)) (th * arcsec)
    (critical_surface_density dc z_l z_s * tnfw_convergence dc cd tot z_s z_l x0 y0 mass Rs tau 0 x y).
Proof.
  intros HR Ht W arcsec. assert (T : 0 < th) by (apply norm_pos; destruct Hxy; [left|right]; lra). assert (G : 0 < th / Rs) by (apply Rdiv_lt_0_compat; assumption). 
  assert (NG : th / Rs <> 1) by (intros E; rewrite E, Rminus_eq_0, Rabs_R0 in W; lra).
  assert (PP := class_tnfw_projected tot Rs tau HR Ht). cbv zeta in PP. fold arcsec in PP. rewrite class_kappa by exact HR. fold arcsec. unfold sproj. unfold Gx in PP. destruct (Req_EM_T (th / Rs) 1); [contradiction|].
  rewrite (Fx_tnfw _ G W). match type of PP with projects _ _ ?v => match goal with |- projects _ _ ?w => replace w with v; [exact PP|] end end. apply f_equal. apply f_equal. unfold Rdiv. ring.
Qed.
(** inside the window of the series, including its middle *)
Lemma class_tnfw_window tot Rs tau : 0 < Rs -> 0 < tau -> Rabs (th / Rs - 1) <= 1 / 100 ->
  let arcsec := d_l * arcsec_to_rad in let M0 := tnfw_M0 dc cd tot z_l mass Rs tau in
  exists S, projects (tnfw_density (M0 / (4 * PI * (Rs * arcsec) ^ 3)) (Rs * arcsec) (tnfw_get_truncation_radius Rs tau * arcsec)) (th * arcsec) S /\
  Rabs (critical_surface_density dc z_l z_s * tnfw_convergence dc cd tot z_s z_l x0 y0 mass Rs tau 0 x y - S) <= 3 / 100000 * (Rabs M0 / (2 * PI * (Rs * arcsec) ^ 2)).
Proof.
  intros HR Ht W arcsec M0. assert (T : 0 < th) by (apply norm_pos; destruct Hxy; [left|right]; lra). assert (G : 0 < th / Rs) by (apply Rdiv_lt_0_compat; assumption).
  assert (A : 0 < arcsec) by (apply Rmult_lt_0_compat; [exact Hl|apply arcsec_to_rad_pos]).
  eexists. split; [exact (class_tnfw_projected tot Rs tau HR Ht)|]. cbv zeta. rewrite class_kappa by exact HR. fold arcsec. fold M0. set (g := th / Rs) in *. unfold sproj.
  assert (P1 := hyp_pos tau Ht g). set (h := hyp tau g) in *. set (L := L_tnfw g tau). set (t2 := tau ^ 2) in *. assert (T2 : 0 < t2) by (unfold t2; nra).
  match goal with |- Rabs (?u * (_ * ?v1) - ?u * (_ * ?v2)) <= _ => replace (u * (t2 / (t2 + 1) ^ 2 * v1) - u * (t2 / (t2 + 1) ^ 2 * v2)) with (u * (t2 / (t2 + 1) ^ 2 * (v1 - v2))) by ring end.
  rewrite Rabs_mult. assert (Q := PI_RGT_0). assert (AA : 0 < 2 * PI * (Rs * arcsec) ^ 2) by (apply Rmult_lt_0_compat; [lra|apply pow_lt, Rmult_lt_0_compat; assumption]).
  unfold Rdiv at 1. rewrite Rabs_mult, (Rabs_pos_eq (/ _)) by (apply Rlt_le, Rinv_0_lt_compat, AA). fold (Rabs M0 / (2 * PI * (Rs * arcsec) ^ 2)). rewrite (Rmult_comm (3 / 100000)).
  apply Rmult_le_compat_l; [apply Rmult_le_pos; [apply Rabs_pos|apply Rlt_le, Rinv_0_lt_compat, AA]|].
  match goal with |- Rabs (_ * ?v) <= _ => assert (B : Rabs v <= (t2 + 1) * (26 / 1000000) + 2 / 1000000) end.
  { match goal with |- Rabs (?A + 2 * ?F + ?p + ?q - (?B + 2 * ?F' + ?p + ?q)) <= _ => replace (A + 2 * F + p + q - (B + 2 * F' + p + q)) with ((A - B) + 2 * (F - F')) by ring end.
    destruct (F_window g G W) as [W1 W2]. destruct (Req_EM_T g 1) as [E|E].
    - unfold Gx. destruct (Req_EM_T g 1); [|contradiction]. replace ((t2 + 1) / 3 - (t2 + 1) * (1 / 3)) with 0 by field. rewrite Rplus_0_l, Rabs_mult, (Rabs_pos_eq 2) by lra. lra.
    - unfold Gx. destruct (Req_EM_T g 1); [contradiction|]. specialize (W2 E). eapply Rle_trans; [apply Rabs_triang|]. rewrite (Rabs_mult 2), (Rabs_pos_eq 2) by lra. apply Rplus_le_compat; [|lra].
      replace ((t2 + 1) * (1 - F_tnfw g) / (g ^ 2 - 1) - (t2 + 1) * ((1 - Fx g) / (g ^ 2 - 1))) with ((t2 + 1) * ((Fx g - F_tnfw g) / (g ^ 2 - 1))) by (unfold Rdiv; ring).
      rewrite Rabs_mult, (Rabs_pos_eq (t2 + 1)) by lra. apply Rmult_le_compat_l; lra. }
  rewrite Rabs_mult, Rabs_pos_eq by (apply Rmult_le_pos; [lra|apply Rlt_le, Rinv_0_lt_compat, pow_lt; lra]).
  apply Rle_trans with (t2 / (t2 + 1) ^ 2 * ((t2 + 1) * (26 / 1000000) + 2 / 1000000)); [apply Rmult_le_compat_l; [apply Rmult_le_pos; [lra|apply Rlt_le, Rinv_0_lt_compat, pow_lt; lra]|exact B]|].
  apply Rmult_le_reg_r with ((t2 + 1) ^ 2); [apply pow_lt; lra|]. replace (t2 / (t2 + 1) ^ 2 * ((t2 + 1) * (26 / 1000000) + 2 / 1000000) * (t2 + 1) ^ 2) with (t2 * ((t2 + 1) * (26 / 1000000) + 2 / 1000000)) by (field; lra). nra.
Qed.
(** the three-dimensional scales of the TNFW lens are those of an NFW halo of the given mass *)
Lemma tnfw_scale_radius Rs : 0 < Rs -> scale_radius_nfw (cd z_l) mass (tnfw_get_concentration dc cd z_l mass Rs) DELTA = Rs * (d_l * arcsec_to_rad).
Proof.
  intros HR. assert (AP := arcsec_to_rad_pos). unfold scale_radius_nfw, tnfw_get_concentration, concentration_tnfw. cbv zeta. set (p := Rpower _ _). assert (0 < p) by apply exp_pos.
  field. repeat split; lra.
Qed.
Lemma tnfw_concentration_pos Rs : 0 < Rs -> 0 < tnfw_get_concentration dc cd z_l mass Rs.
Proof. intros HR. assert (AP := arcsec_to_rad_pos). apply Rdiv_lt_0_compat; [apply exp_pos|]. apply Rmult_lt_0_compat; [apply Rmult_lt_0_compat|]; assumption. Qed.
Lemma tnfw_scale_density Rs : tnfw_get_scale_density dc cd z_l mass Rs = scale_density_nfw (cd z_l) (tnfw_get_concentration dc cd z_l mass Rs) DELTA.
Proof. reflexivity. Qed.
Lemma tnfw_halo_mass Rs : 0 < cd z_l -> 0 < mass -> 0 < Rs -> let arcsec := d_l * arcsec_to_rad in
  is_RInt (V := R_NormedModule) (fun r => 4 * PI * r ^ 2 * nfw_density (tnfw_get_scale_density dc cd z_l mass Rs) (Rs * arcsec) r) 0 (tnfw_get_concentration dc cd z_l mass Rs * (Rs * arcsec)) mass.
Proof.
  intros Hrho Hm HR arcsec. assert (C := tnfw_concentration_pos Rs HR). assert (I := nfw_mass_integral (cd z_l) mass _ DELTA Hrho Hm C D200). cbv zeta in I. rewrite tnfw_scale_radius in I by exact HR. exact I.
Qed.
Lemma tnfw_mean_density Rs : 0 < cd z_l -> 0 < mass -> 0 < Rs -> let r200 := tnfw_get_concentration dc cd z_l mass Rs * (Rs * (d_l * arcsec_to_rad)) in
  mass / (4 / 3 * PI * r200 ^ 3) = 200 * cd z_l.
Proof.
  intros Hrho Hm HR r200. assert (C := tnfw_concentration_pos Rs HR). assert (I := nfw_mean_density (cd z_l) mass _ DELTA Hrho Hm C D200). cbv zeta in I. rewrite tnfw_scale_radius in I by exact HR. exact I.
Qed.
Lemma tnfw_M0_scale Rs tau : 0 < Rs -> tnfw_M0 dc cd false z_l mass Rs tau / (4 * PI * (Rs * (d_l * arcsec_to_rad)) ^ 3) = tnfw_get_scale_density dc cd z_l mass Rs.
Proof.
  intros HR. unfold tnfw_M0, M0_scalemass_tnfw, tnfw_get_scale_density, tnfw_get_concentration. cbv zeta. set (D := scale_density_tnfw _ _ _). assert (AP := arcsec_to_rad_pos). assert (Q := PI_RGT_0).
  field. repeat split; lra.
Qed.
Lemma tnfw_M0_pos Rs tau : 0 < mass -> 0 < tau -> 0 < tnfw_M0 dc cd true z_l mass Rs tau.
Proof.
  intros Hm Ht. unfold tnfw_M0, M0_totmass_tnfw. assert (K := ktot_pos tau Ht). unfold ktot in K. apply Rdiv_lt_0_compat; apply Rmult_lt_0_compat; try assumption; apply pow_lt; nra.
Qed.
Lemma class_nfw_projects c k : 0 < c -> let Rs := nfw_get_scale_radius cd z_l mass c in
  1 / 1000000 < Rabs (th * (d_l * arcsec_to_rad) / Rs - 1) -> nfw_convergence dc cd z_s z_l x0 y0 mass c 0 x y = Some k ->
  projects (nfw_density (nfw_get_scale_density cd z_l c) Rs) (th * (d_l * arcsec_to_rad)) (critical_surface_density dc z_l z_s * k).
Proof.
  intros Hc Rs W K. assert (T : 0 < th) by (apply norm_pos; destruct Hxy; [left|right]; lra). assert (A : 0 < d_l * arcsec_to_rad) by (apply Rmult_lt_0_compat; [exact Hl|apply arcsec_to_rad_pos]).
  assert (PR : 0 < Rs) by apply scale_radius_pos, Hc. set (g := th * (d_l * arcsec_to_rad) / Rs) in *. assert (G : 0 < g) by (apply Rdiv_lt_0_compat; [apply Rmult_lt_0_compat|]; assumption).
  assert (NG : g <> 1) by (intros E; rewrite E, Rminus_eq_0, Rabs_R0 in W; lra). assert (G2 : g ^ 2 - 1 <> 0) by nra.
  assert (E : scaled_radius dc cd z_l mass c (th + 0) = g) by (unfold scaled_radius, g, Rs; rewrite Rplus_0_r; f_equal; ring).
  assert (H := nfw_kappa dc cd z_s z_l x0 y0 mass c x y 0). cbv zeta in H. fold th in H. rewrite E in H. specialize (H G2). rewrite K in H. injection H as ->.
  replace (th * (d_l * arcsec_to_rad)) with (Rs * g) by (unfold g; field; lra).
  assert (PP := nfw_projects (nfw_get_scale_density cd z_l c) Rs g PR G). unfold Gx in PP. destruct (Req_EM_T g 1); [contradiction|]. match type of PP with projects _ _ ?v => match goal with |- projects _ _ ?w => replace w with v; [exact PP|] end end.
  rewrite (Fx_nfw g G W). unfold convergence_s_nfw. cbv zeta. change (scale_radius_nfw (cd z_l) mass c DELTA) with Rs. change (scale_density_nfw (cd z_l) c DELTA) with (nfw_get_scale_density cd z_l c).
  assert (S := sigma_pos dc z_s z_l Hl Hs Hls). set (sg := critical_surface_density dc z_l z_s) in *. field. split; lra.
Qed.
(** the limit of no truncation *)
Lemma class_tnfw_limit Rs k : 0 < cd z_l -> 0 < mass -> 0 < Rs -> 1 / 100 < Rabs (th / Rs - 1) -> let c := tnfw_get_concentration dc cd z_l mass Rs in
  nfw_convergence dc cd z_s z_l x0 y0 mass c 0 x y = Some k ->
  is_lim (fun tau => tnfw_convergence dc cd false z_s z_l x0 y0 mass Rs tau 0 x y) p_infty k.
Proof.
  intros Hrho Hm HR W c K. assert (T : 0 < th) by (apply norm_pos; destruct Hxy; [left|right]; lra). assert (A : 0 < d_l * arcsec_to_rad) by (apply Rmult_lt_0_compat; [exact Hl|apply arcsec_to_rad_pos]).
  assert (C := tnfw_concentration_pos Rs HR). fold c in C. assert (G : 0 < th / Rs) by (apply Rdiv_lt_0_compat; assumption). set (g := th / Rs) in *.
  assert (NG : g <> 1) by (intros E; rewrite E, Rminus_eq_0, Rabs_R0 in W; lra). assert (G2 : g ^ 2 - 1 <> 0) by nra.
  assert (SR : scale_radius_nfw (cd z_l) mass c DELTA = Rs * (d_l * arcsec_to_rad)) by (apply tnfw_scale_radius, HR).
  assert (E : scaled_radius dc cd z_l mass c (th + 0) = g) by (unfold scaled_radius, nfw_get_scale_radius, g; rewrite SR, Rplus_0_r; assert (AP := arcsec_to_rad_pos); field; repeat split; lra).
  assert (H := nfw_kappa dc cd z_s z_l x0 y0 mass c x y 0). cbv zeta in H. fold th in H. rewrite E in H. specialize (H G2). rewrite K in H. injection H as ->.
  assert (EP := eps_pos). rewrite (Fx_nfw g G) by (unfold eps_nfw; lra). rewrite <- (Fx_tnfw g G W).
  assert (L := lim_times _ (tnfw_M0 dc cd false z_l mass Rs 0 / (2 * PI * (Rs * d_l * arcsec_to_rad) ^ 2) / critical_surface_density dc z_l z_s) _ (lim_sproj g G NG)).
  match type of L with is_lim _ _ (Finite ?v) => match goal with |- is_lim _ _ (Finite ?w) => replace w with v end end.
  - eapply is_lim_ext; [|exact L]. intros tau. unfold tnfw_convergence. rewrite kappa_eq, Rplus_0_r. fold th. fold g. change (tnfw_M0 dc cd false z_l mass Rs tau) with (tnfw_M0 dc cd false z_l mass Rs 0). unfold Rdiv. ring.
  - assert (M := tnfw_M0_scale Rs 0 HR). unfold convergence_s_nfw. cbv zeta. rewrite SR. change (scale_density_nfw (cd z_l) c DELTA) with (tnfw_get_scale_density dc cd z_l mass Rs). rewrite <- M.
    assert (S := sigma_pos dc z_s z_l Hl Hs Hls). set (sg := critical_surface_density dc z_l z_s) in *. set (M0 := tnfw_M0 dc cd false z_l mass Rs 0). assert (AP := arcsec_to_rad_pos). assert (Q := PI_RGT_0). field. repeat split; lra.
Qed.
End Class.
