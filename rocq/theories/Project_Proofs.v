(** * Integrals along the line of sight *)
From Coq Require Import Reals Lra Psatz.
From Coquelicot Require Import Coquelicot.
From Verif Require Import Const_Model RealFun Derive1 Nfw_Model Nfw_Proofs Tnfw_Model Tnfw_Proofs Tnfw3_Proofs.
Local Open Scope R_scope.

(** limits of quotients of z and s = sqrt(x^2 + z^2) *)
Section Line.
Variable x : R.
Hypothesis Hx : 0 < x.
Definition sl (z : R) : R := sqrt (x ^ 2 + z ^ 2).
Lemma sl_pos z : 0 < sl z. Proof. apply sqrt_lt_R0. nra. Qed.
Lemma sl_sq z : sl z ^ 2 = x ^ 2 + z ^ 2. Proof. unfold sl. rewrite <- Rsqr_pow2. apply Rsqr_sqrt. nra. Qed.
Lemma d_sl z : is_derive sl z (z / sl z).
Proof. assert (P := sl_pos z). unfold sl in *. auto_derive; [nra|]. replace (x * (x * 1) + z * (z * 1)) with (x ^ 2 + z ^ 2) by ring. field. lra. Qed.
(** 1 / (s (1 + s)) *)
Definition h1 (z : R) : R :=
  if Rlt_dec 1 x then atan (sqrt (x ^ 2 - 1) * z / (x ^ 2 + sl z)) / sqrt (x ^ 2 - 1)
  else if Rlt_dec x 1 then atanh (sqrt (1 - x ^ 2) * z / (x ^ 2 + sl z)) / sqrt (1 - x ^ 2)
  else z / (1 + sl z).
Definition Fx : R := if Rlt_dec 1 x then wp x / sqrt (x ^ 2 - 1) else if Rlt_dec x 1 then wn x / sqrt (1 - x ^ 2) else 1.
Definition Gx : R := if Req_EM_T x 1 then 1 / 3 else (1 - Fx) / (x ^ 2 - 1).
Lemma frac_derive (w z : R) : is_derive (fun z => w * z / (x ^ 2 + sl z)) z (w * x ^ 2 * (1 + sl z) / (sl z * (x ^ 2 + sl z) ^ 2)).
Proof.
  assert (P := sl_pos z). assert (Q := sl_sq z).
  eapply dv_val; [exact (dv_div _ _ z _ _ (dv_scal _ w z _ (dv_id z)) (dv_plus _ _ z _ _ (dv_const (x ^ 2) z) (d_sl z)) ltac:(cbv beta; nra))|]. cbv beta.
  set (s := sl z) in *. transitivity (w * (x ^ 2 * s + (s ^ 2 - z ^ 2)) / (s * (x ^ 2 + s) ^ 2)); [field; split; nra|]. rewrite Q. field. split; nra.
Qed.
Lemma h1_derive z : is_derive h1 z (1 / (sl z * (1 + sl z))).
Proof.
  assert (P := sl_pos z). assert (Q := sl_sq z). unfold h1. destruct (Rlt_dec 1 x) as [H|H]; [|destruct (Rlt_dec x 1) as [H'|H']].
  - assert (W := root_pos x H). assert (W2 := root_sq x H). set (w := sqrt (x ^ 2 - 1)) in *.
    apply dv_ext with (fun z => / w * atan (w * z / (x ^ 2 + sl z))); [intros; field; lra|].
    eapply dv_val; [exact (dv_scal _ (/ w) z _ (dv_comp atan _ z _ _ (is_derive_atan _) (frac_derive w z)))|]. unfold Rsqr. set (s := sl z) in *.
    assert (D : (x ^ 2 + s) ^ 2 + w ^ 2 * z ^ 2 = x ^ 2 * (1 + s) ^ 2) by (rewrite W2; replace (z ^ 2) with (s ^ 2 - x ^ 2) by lra; ring).
    assert (X2 : 0 < x ^ 2) by nra.
    transitivity (x ^ 2 * (1 + s) / (s * ((x ^ 2 + s) ^ 2 + w ^ 2 * z ^ 2))); [field; repeat split; try lra; nra|]. rewrite D. field. repeat split; lra.
  - assert (W := lroot_pos x ltac:(lra)). assert (W2 := lroot_sq x ltac:(lra)). set (w := sqrt (1 - x ^ 2)) in *.
    apply dv_ext with (fun z => / w * atanh (w * z / (x ^ 2 + sl z))); [intros; field; lra|].
    set (s := sl z) in *. assert (X2 : 0 < x ^ 2) by nra.
    assert (D : (x ^ 2 + s) ^ 2 - w ^ 2 * z ^ 2 = x ^ 2 * (1 + s) ^ 2) by (rewrite W2; replace (z ^ 2) with (s ^ 2 - x ^ 2) by lra; ring).
    assert (B : -1 < w * z / (x ^ 2 + s) < 1).
    { assert (E : (w * z / (x ^ 2 + s)) ^ 2 < 1).
      { apply Rmult_lt_reg_r with ((x ^ 2 + s) ^ 2); [nra|]. replace ((w * z / (x ^ 2 + s)) ^ 2 * (x ^ 2 + s) ^ 2) with (w ^ 2 * z ^ 2) by (field; nra). nra. }
      split; nra. }
    eapply dv_val; [exact (dv_scal _ (/ w) z _ (dv_comp atanh _ z _ _ (is_derive_atanh _ B) (frac_derive w z)))|]. fold s.
    transitivity (x ^ 2 * (1 + s) / (s * ((x ^ 2 + s) ^ 2 - w ^ 2 * z ^ 2))); [field; repeat split; try lra; nra|]. rewrite D. field. repeat split; lra.
  - assert (E : x = 1) by lra. eapply dv_val; [exact (dv_div _ _ z _ _ (dv_id z) (dv_plus _ _ z _ _ (dv_const 1 z) (d_sl z)) ltac:(cbv beta; lra))|].
    cbv beta. set (s := sl z) in *. transitivity ((s + (s ^ 2 - z ^ 2)) / (s * (1 + s) ^ 2)); [field; repeat split; lra|]. rewrite Q, E. field. repeat split; lra.
Qed.
(** 1 / (s (1 + s)^2) *)
Definition h2 (z : R) : R := if Req_EM_T x 1 then z * (2 + sl z) / (3 * (1 + sl z) ^ 2) else / (x ^ 2 - 1) * (z / (1 + sl z) - h1 z).
Lemma h2_derive z : is_derive h2 z (1 / (sl z * (1 + sl z) ^ 2)).
Proof.
  assert (P := sl_pos z). assert (Q := sl_sq z). unfold h2. destruct (Req_EM_T x 1) as [E|N].
  { assert (D2 : is_derive (fun z => 3 * (1 + sl z) ^ 2) z (3 * (2 * (1 + sl z) * (z / sl z)))).
    { eapply dv_val; [exact (dv_scal _ 3 z _ (dv_sq _ z _ (dv_plus _ _ z _ _ (dv_const 1 z) (d_sl z))))|]. cbv beta. ring. }
    assert (D3 := dv_div _ _ z _ _ (dv_mult _ _ z _ _ (dv_id z) (dv_plus _ _ z _ _ (dv_const 2 z) (d_sl z))) D2 ltac:(cbv beta; nra)).
    eapply dv_val; [exact D3|]. cbv beta. set (s := sl z) in *. assert (Z2 : z ^ 2 = s ^ 2 - 1) by (rewrite E in Q; lra).
    transitivity ((s * (2 + s) * (1 + s) + z ^ 2 * (1 + s) - 2 * z ^ 2 * (2 + s)) / (3 * s * (1 + s) ^ 3)); [field; repeat split; lra|]. rewrite Z2. field. split; lra. }
  assert (N2 : x ^ 2 - 1 <> 0) by nra.
  eapply dv_val; [exact (dv_scal _ (/ (x ^ 2 - 1)) z _ (dv_minus _ _ z _ _ (dv_div _ _ z _ _ (dv_id z) (dv_plus _ _ z _ _ (dv_const 1 z) (d_sl z)) ltac:(cbv beta; lra)) (h1_derive z)))|].
  cbv beta. set (s := sl z) in *. transitivity (/ (x ^ 2 - 1) * ((s ^ 2 - z ^ 2 - 1) / (s * (1 + s) ^ 2))); [field; repeat split; lra|].
  replace (s ^ 2 - z ^ 2) with (x ^ 2) by lra. field. repeat split; lra.
Qed.
Variable tau : R.
Hypothesis Ht : 0 < tau.
Let hh := hyp tau x.
(** 1 / (tau^2 + s^2) and 1 / (s (tau^2 + s^2)) *)
Definition h3 (z : R) : R := / hh * atan (/ hh * z).
Definition h4 (z : R) : R := / (tau * hh) * atanh (tau / hh * (z / sl z)).
Lemma h3_derive z : is_derive h3 z (1 / (tau ^ 2 + sl z ^ 2)).
Proof.
  assert (P := hyp_pos tau Ht x). assert (Q := hyp_sq tau x). fold hh in P, Q. unfold h3. rewrite sl_sq.
  eapply dv_val; [exact (dv_scal _ (/ hh) z _ (dv_comp atan _ z _ _ (is_derive_atan _) (dv_scal _ (/ hh) z _ (dv_id z))))|]. unfold Rsqr.
  transitivity (1 / (hh ^ 2 + z ^ 2)); [field; split; nra|]. rewrite Q. f_equal. ring.
Qed.
Lemma h4_derive z : is_derive h4 z (1 / (sl z * (tau ^ 2 + sl z ^ 2))).
Proof.
  assert (P := hyp_pos tau Ht x). assert (Q := hyp_sq tau x). fold hh in P, Q. assert (P1 := sl_pos z). assert (Q1 := sl_sq z). unfold h4.
  set (s := sl z) in *. assert (X2 : 0 < x ^ 2) by nra.
  assert (D : hh ^ 2 * s ^ 2 - tau ^ 2 * z ^ 2 = x ^ 2 * (tau ^ 2 + s ^ 2)) by (rewrite Q; replace (z ^ 2) with (s ^ 2 - x ^ 2) by lra; ring).
  assert (B : -1 < tau / hh * (z / s) < 1).
  { assert (E : (tau / hh * (z / s)) ^ 2 < 1).
    { apply Rmult_lt_reg_r with (hh ^ 2 * s ^ 2); [nra|]. replace ((tau / hh * (z / s)) ^ 2 * (hh ^ 2 * s ^ 2)) with (tau ^ 2 * z ^ 2) by (field; split; lra). nra. }
    split; nra. }
  eapply dv_val; [exact (dv_scal _ (/ (tau * hh)) z _ (dv_comp atanh _ z _ _ (is_derive_atanh _ B) (dv_scal _ (tau / hh) z _ (dv_div _ _ z _ _ (dv_id z) (d_sl z) (Rgt_not_eq _ _ P1)))))|].
  fold s. transitivity ((s ^ 2 - z ^ 2) / (s * (hh ^ 2 * s ^ 2 - tau ^ 2 * z ^ 2))); [field; repeat split; try lra; nra|].
  rewrite D. replace (s ^ 2 - z ^ 2) with (x ^ 2) by lra. field. repeat split; nra.
Qed.
(** limits far away *)
Lemma lim_sl : is_lim sl p_infty p_infty.
Proof.
  apply is_lim_spec. intros M. exists (Rmax M 1). intros z Hz. assert (A := Rmax_l M 1). assert (B := Rmax_r M 1). apply Rle_lt_trans with (Rmax M 1); [exact A|].
  assert (P := sl_pos z). assert (Q := sl_sq z). nra.
Qed.
Lemma lim_ratio c : 0 <= c -> is_lim (fun z => z / (c + sl z)) p_infty 1.
Proof.
  intros Hc. apply is_lim_spec. intros eps. exists ((c + x) / eps). intros z Hz. assert (E := cond_pos eps). assert (0 < (c + x) / eps) by (apply Rdiv_lt_0_compat; lra).
  assert (P := sl_pos z). assert (Q := sl_sq z). set (s := sl z) in *. assert (S1 : z < s) by nra. assert (S2 : s < z + x) by nra.
  rewrite Rabs_left by (apply Rmult_lt_reg_r with (c + s); [lra|]; replace ((z / (c + s) - 1) * (c + s)) with (z - (c + s)) by (field; lra); lra).
  apply Rmult_lt_reg_r with (c + s); [lra|]. replace (- (z / (c + s) - 1) * (c + s)) with (c + s - z) by (field; lra).
  assert (c + x < eps * z). { apply Rmult_lt_reg_l with (/ eps); [apply Rinv_0_lt_compat, E|]. rewrite <- Rmult_assoc, Rinv_l, Rmult_1_l by lra. unfold Rdiv in Hz. lra. }
  nra.
Qed.
Lemma lim_cont (f g : R -> R) (l : R) : is_lim g p_infty l -> continuous f l -> is_lim (fun z => f (g z)) p_infty (f l).
Proof. intros G F. exact (is_lim_comp_continuous g f p_infty l G F). Qed.
Lemma lim_times (f : R -> R) (c l : R) : is_lim f p_infty l -> is_lim (fun z => c * f z) p_infty (c * l).
Proof. intros H. exact (is_lim_scal_l f c p_infty l H). Qed.
Lemma lim_minus (f g : R -> R) (l k : R) : is_lim f p_infty l -> is_lim g p_infty k -> is_lim (fun z => f z - g z) p_infty (l - k).
Proof. intros H1 H2. eapply is_lim_minus; [exact H1|exact H2|reflexivity]. Qed.
Lemma lim_plus (f g : R -> R) (l k : R) : is_lim f p_infty l -> is_lim g p_infty k -> is_lim (fun z => f z + g z) p_infty (l + k).
Proof. intros H1 H2. eapply is_lim_plus; [exact H1|exact H2|reflexivity]. Qed.
Lemma cont_atanh y : -1 < y < 1 -> continuous atanh y.
Proof. intros B. apply (ex_derive_continuous (K := R_AbsRing) (V := R_NormedModule)). eexists. exact (is_derive_atanh y B). Qed.
Lemma cont_atan y : continuous atan y.
Proof. apply (ex_derive_continuous (K := R_AbsRing) (V := R_NormedModule)). eexists. exact (is_derive_atan y). Qed.
Lemma lim_h1 : is_lim h1 p_infty Fx.
Proof.
  unfold h1, Fx. destruct (Rlt_dec 1 x) as [H|H]; [|destruct (Rlt_dec x 1) as [H'|H']].
  - assert (W := root_pos x H). unfold wp. set (w := sqrt (x ^ 2 - 1)) in *.
    apply is_lim_ext with (fun z => / w * atan (w * (z / (x ^ 2 + sl z)))); [intros z; unfold Rdiv; rewrite (Rmult_assoc w); ring|].
    replace (atan w / w) with (/ w * atan (w * 1)) by (rewrite Rmult_1_r; unfold Rdiv; ring). apply lim_times. apply (lim_cont atan (fun z => w * (z / (x ^ 2 + sl z)))); [|apply cont_atan]. apply lim_times, lim_ratio. nra.
  - assert (W := lroot_pos x ltac:(lra)). assert (W2 := lroot_sq x ltac:(lra)). unfold wn. set (w := sqrt (1 - x ^ 2)) in *. assert (W1 : w < 1) by nra.
    apply is_lim_ext with (fun z => / w * atanh (w * (z / (x ^ 2 + sl z)))); [intros z; unfold Rdiv; rewrite (Rmult_assoc w); ring|].
    replace (ln ((1 + w) / x) / w) with (/ w * atanh (w * 1)).
    + apply lim_times. apply (lim_cont atanh (fun z => w * (z / (x ^ 2 + sl z)))); [|apply cont_atanh; lra]. apply lim_times, lim_ratio. nra.
    + rewrite Rmult_1_r. unfold atanh, Rdiv. rewrite (Rmult_comm _ (/ w)). apply f_equal. assert (E : (1 + w) * / (1 - w) = ((1 + w) * / x) * ((1 + w) * / x)).
      { apply Rmult_eq_reg_r with ((1 - w) * x ^ 2); [|apply Rmult_integral_contrapositive_currified; [lra|apply pow_nonzero; lra]]. transitivity ((1 + w) * x ^ 2); [field; lra|]. transitivity ((1 + w) * ((1 + w) * (1 - w))); [|field; lra]. replace ((1 + w) * (1 - w)) with (1 - w ^ 2) by ring. rewrite W2. ring. }
      rewrite E. assert (0 < (1 + w) * / x) by (apply Rmult_lt_0_compat; [lra|apply Rinv_0_lt_compat, Hx]). rewrite ln_mult by assumption. field.
  - apply lim_ratio. lra.
Qed.
Lemma lim_h2 : is_lim h2 p_infty Gx.
Proof.
  unfold h2, Gx. destruct (Req_EM_T x 1) as [E|N].
  { assert (L := lim_ratio 1 ltac:(lra)). assert (I : is_lim (fun z => / (1 + sl z)) p_infty 0).
    { replace (Finite 0) with (Rbar_inv p_infty) by reflexivity. apply is_lim_inv; [|discriminate]. eapply is_lim_plus; [apply is_lim_const|apply lim_sl|reflexivity]. }
    apply is_lim_ext with (fun z => / 3 * (z / (1 + sl z)) + / 3 * (z / (1 + sl z) * / (1 + sl z))).
    { intros z. assert (P := sl_pos z). field. lra. }
    replace (1 / 3) with (/ 3 * 1 + / 3 * (1 * 0)) by field. apply lim_plus; apply lim_times; [exact L|]. exact (is_lim_mult _ _ p_infty _ _ L I Logic.I). }
  replace ((1 - Fx) / (x ^ 2 - 1)) with (/ (x ^ 2 - 1) * (1 - Fx)) by (unfold Rdiv; ring).
  apply lim_times, lim_minus; [apply lim_ratio; lra|apply lim_h1].
Qed.
Lemma lim_h3 : is_lim h3 p_infty (/ hh * (PI / 2)).
Proof.
  assert (P := hyp_pos tau Ht x). fold hh in P. apply lim_times. apply (lim_comp_inf atan (fun z => / hh * z)).
  - apply is_lim_spec. intros eps. assert (E := cond_pos eps). exists (2 / eps). intros z Hz. assert (0 < 2 / eps) by (apply Rdiv_lt_0_compat; lra). assert (B := atan_bound z). rewrite Rabs_left by lra.
    assert (Z0 : 0 < z) by lra. rewrite (atan_recip z Z0). assert (A : atan (/ z) <= / z).
    { assert (I := Rinv_0_lt_compat _ Z0). destruct (MVT_cor2 atan (fun x => / (1 + x ^ 2)) 0 (/ z) I) as (c & Ec & Hc).
      - intros c _. replace (1 + c ^ 2) with (1 + c²) by (unfold Rsqr; ring). apply is_derive_Reals, is_derive_atan.
      - rewrite atan_0 in Ec. assert (D1 : / (1 + c ^ 2) <= / 1) by (apply Rinv_le_contravar; nra). rewrite Rinv_1 in D1. nra. }
    assert (/ z < eps); [|lra]. apply Rmult_lt_reg_r with z; [exact Z0|]. rewrite Rinv_l by lra.
    assert (2 < eps * z). { apply Rmult_lt_reg_l with (/ eps); [apply Rinv_0_lt_compat, E|]. rewrite <- Rmult_assoc, Rinv_l, Rmult_1_l by lra. unfold Rdiv in Hz. lra. } lra.
  - apply is_lim_spec. intros M. exists (hh * M). intros z Hz. apply Rmult_lt_reg_l with hh; [exact P|]. rewrite <- Rmult_assoc, Rinv_r, Rmult_1_l by lra. exact Hz.
Qed.
Lemma lim_h4 : is_lim h4 p_infty (/ (tau * hh) * - L_tnfw x tau).
Proof.
  assert (P := hyp_pos tau Ht x). assert (Q := hyp_sq tau x). rewrite (L_eq tau x Ht Hx), Ropp_involutive. fold hh. fold hh in P, Q. unfold h4. apply lim_times.
  replace (tau * / hh) with (tau / hh * 1) by (field; lra). apply (lim_cont atanh (fun z => tau / hh * (z / sl z))).
  - apply lim_times. apply is_lim_ext with (fun z => z / (0 + sl z)); [intros z; rewrite Rplus_0_l; reflexivity|]. apply lim_ratio. lra.
  - apply cont_atanh. rewrite Rmult_1_r. assert (tau < hh) by nra. assert (0 < tau / hh) by (apply Rdiv_lt_0_compat; lra). split; [lra|]. apply Rmult_lt_reg_r with hh; [exact P|]. replace (tau / hh * hh) with tau by (field; lra). lra.
Qed.
(** the truncated profile *)
Definition ht (z : R) : R :=
  tau ^ 2 / (tau ^ 2 + 1) ^ 2 * ((tau ^ 2 + 1) * h2 z + 2 * h1 z - 2 * h3 z + (1 - tau ^ 2) * h4 z).
Lemma ht_derive z : is_derive ht z (1 / (sl z * (1 + sl z) ^ 2) * (tau ^ 2 / (tau ^ 2 + sl z ^ 2))).
Proof.
  assert (P := sl_pos z). unfold ht.
  eapply dv_val; [exact (dv_scal _ _ z _ (dv_plus _ _ z _ _ (dv_minus _ _ z _ _ (dv_plus _ _ z _ _ (dv_scal _ _ z _ (h2_derive z)) (dv_scal _ _ z _ (h1_derive z))) (dv_scal _ _ z _ (h3_derive z))) (dv_scal _ _ z _ (h4_derive z))))|].
  set (s := sl z) in *. field. repeat split; nra.
Qed.
Lemma lim_ht : is_lim ht p_infty (tau ^ 2 / (tau ^ 2 + 1) ^ 2 * ((tau ^ 2 + 1) * Gx + 2 * Fx - 2 * (/ hh * (PI / 2)) + (1 - tau ^ 2) * (/ (tau * hh) * - L_tnfw x tau))).
Proof.
  unfold ht. apply lim_times, lim_plus; [apply lim_minus; [apply lim_plus|]|]; apply lim_times; [apply lim_h2|apply lim_h1|apply lim_h3|apply lim_h4].
Qed.
Lemma atanh_0 : atanh 0 = 0.
Proof. unfold atanh. replace ((1 + 0) / (1 - 0)) with 1 by field. rewrite ln_1. ring. Qed.
Lemma h1_0 : h1 0 = 0.
Proof. unfold h1. destruct (Rlt_dec 1 x); [|destruct (Rlt_dec x 1); [|unfold Rdiv; ring]]; rewrite Rmult_0_r; replace (0 / (x ^ 2 + sl 0)) with 0 by (unfold Rdiv; ring); rewrite ?atan_0, ?atanh_0; unfold Rdiv; ring. Qed.
Lemma h2_0 : h2 0 = 0.
Proof. unfold h2. rewrite h1_0. destruct (Req_EM_T x 1); unfold Rdiv; ring. Qed.
Lemma ht_0 : ht 0 = 0.
Proof.
  unfold ht, h3, h4. rewrite h1_0, h2_0. replace (/ hh * 0) with 0 by ring. rewrite atan_0. replace (tau / hh * (0 / sl 0)) with 0 by (unfold Rdiv; ring). rewrite atanh_0. unfold Rdiv. ring.
Qed.
End Line.
