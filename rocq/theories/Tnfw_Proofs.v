(** * The functions of the truncated NFW lens *)
From Coq Require Import Reals Lra Psatz.
From Coquelicot Require Import Coquelicot.
From Verif Require Import Const_Model RealFun Derive1 Nfw_Model Nfw_Proofs Tnfw_Model.
Local Open Scope R_scope.

Lemma F_outer x : 1 + 1 / 100 < x -> F_tnfw x = wp x / sqrt (x ^ 2 - 1).
Proof. intros H. unfold F_tnfw. cbv zeta. destruct (Rlt_dec x _); [lra|]. destruct (Rlt_dec _ x); [|lra]. rewrite Rmax_left by lra. rewrite acos_inv by lra. reflexivity. Qed.
Lemma F_inner x : 0 < x < 1 - 1 / 100 -> F_tnfw x = wn x / sqrt (1 - x ^ 2).
Proof. intros H. unfold F_tnfw. cbv zeta. destruct (Rlt_dec x _); [|lra]. rewrite Rmin_left by lra. rewrite acosh_inv by lra. reflexivity. Qed.
Lemma P_outer x : 1 + 1 / 100 < x -> P_tnfw x = wp x ^ 2.
Proof. intros H. unfold P_tnfw. cbv zeta. destruct (Rlt_dec x _); [lra|]. destruct (Rlt_dec _ x); [|lra]. rewrite Rmax_left by lra. rewrite acos_inv by lra. reflexivity. Qed.
Lemma P_inner x : 0 < x < 1 - 1 / 100 -> P_tnfw x = - wn x ^ 2.
Proof. intros H. unfold P_tnfw. cbv zeta. destruct (Rlt_dec x _); [|lra]. rewrite Rmin_left by lra. rewrite acosh_inv by lra. reflexivity. Qed.
Lemma off_window x : 0 < x -> 1 / 100 < Rabs (x - 1) -> 1 + 1 / 100 < x \/ 0 < x < 1 - 1 / 100.
Proof. intros Hx H. destruct (Rlt_dec 1 x); [left; rewrite Rabs_pos_eq in H by lra; lra|right]. rewrite Rabs_left1 in H by lra. lra. Qed.
Lemma F_derive x : 0 < x -> 1 / 100 < Rabs (x - 1) -> is_derive F_tnfw x ((1 - x ^ 2 * F_tnfw x) / (x * (x ^ 2 - 1))).
Proof.
  intros Hx W. destruct (off_window x Hx W) as [H|H].
  - assert (P := root_pos x ltac:(lra)). assert (Q := root_sq x ltac:(lra)).
    apply is_derive_ext_loc with (fun x => wp x / sqrt (x ^ 2 - 1)).
    { generalize (locally_gt _ x H). apply filter_imp. intros t Ht. symmetry. apply F_outer, Ht. }
    rewrite F_outer by lra. assert (D := is_derive_div _ _ x _ _ (d_wp x ltac:(lra)) (d_root x ltac:(lra)) ltac:(lra)).
    match type of D with is_derive _ _ ?v => match goal with |- is_derive _ _ ?w => replace w with v; [exact D|] end end.
    set (u := sqrt (x ^ 2 - 1)) in *. replace (x ^ 2 - 1) with (u ^ 2) by lra. field. split; lra.
  - assert (P := lroot_pos x ltac:(lra)). assert (Q := lroot_sq x ltac:(lra)).
    apply is_derive_ext_loc with (fun x => wn x / sqrt (1 - x ^ 2)).
    { assert (L1 := locally_gt 0 x Hx). assert (L2 := locally_lt (1 - 1 / 100) x ltac:(lra)). generalize (filter_and _ _ L1 L2). apply filter_imp. intros t Ht. symmetry. apply F_inner. lra. }
    rewrite F_inner by lra. assert (D := is_derive_div _ _ x _ _ (d_wn x ltac:(lra)) (d_lroot x ltac:(lra)) ltac:(lra)).
    match type of D with is_derive _ _ ?v => match goal with |- is_derive _ _ ?w => replace w with v; [exact D|] end end.
    set (u := sqrt (1 - x ^ 2)) in *. replace (x ^ 2 - 1) with (- u ^ 2) by lra. field. repeat split; lra.
Qed.
Lemma P_derive x : 0 < x -> 1 / 100 < Rabs (x - 1) -> is_derive P_tnfw x (2 * F_tnfw x / x).
Proof.
  intros Hx W. destruct (off_window x Hx W) as [H|H].
  - assert (P := root_pos x ltac:(lra)).
    apply is_derive_ext_loc with (fun x => wp x ^ 2).
    { generalize (locally_gt _ x H). apply filter_imp. intros t Ht. symmetry. apply P_outer, Ht. }
    rewrite F_outer by lra. assert (D := d_square _ x _ (d_wp x ltac:(lra))).
    match type of D with is_derive _ _ ?v => match goal with |- is_derive _ _ ?w => replace w with v; [exact D|] end end. field. split; lra.
  - assert (P := lroot_pos x ltac:(lra)).
    apply is_derive_ext_loc with (fun x => - wn x ^ 2).
    { assert (L1 := locally_gt 0 x Hx). assert (L2 := locally_lt (1 - 1 / 100) x ltac:(lra)). generalize (filter_and _ _ L1 L2). apply filter_imp. intros t Ht. symmetry. apply P_inner. lra. }
    rewrite F_inner by lra. assert (D := is_derive_opp _ x _ (d_square _ x _ (d_wn x ltac:(lra)))).
    match type of D with is_derive _ _ ?v => match goal with |- is_derive _ _ ?w => replace w with v; [exact D|] end end. unfold opp; cbn. change (1 - x * (x * 1)) with (1 - x ^ 2). field. split; lra.
Qed.
Section Tau.
Variable tau : R.
Hypothesis Ht : 0 < tau.
Definition hyp (g : R) : R := sqrt (tau ^ 2 + g ^ 2).
Lemma hyp_pos g : 0 < hyp g.
Proof. apply sqrt_lt_R0. nra. Qed.
Lemma hyp_sq g : hyp g ^ 2 = tau ^ 2 + g ^ 2.
Proof. apply sqrt_sq2. nra. Qed.
Lemma d_hyp g : is_derive hyp g (g / hyp g).
Proof. assert (P := hyp_pos g). unfold hyp in *. auto_derive; [nra|]. replace (tau * (tau * 1) + g * (g * 1)) with (tau ^ 2 + g ^ 2) by ring. field. lra. Qed.
Lemma L_derive g : 0 < g -> is_derive (fun g => L_tnfw g tau) g (tau / (g * hyp g)).
Proof.
  intros H. assert (P := hyp_pos g). assert (Q := hyp_sq g).
  apply dv_ext with (fun g => ln (g / (tau + hyp g))); [reflexivity|].
  assert (PP : 0 < g / (tau + hyp g)) by (apply Rdiv_lt_0_compat; lra).
  assert (D := dv_ln _ g _ (dv_div _ _ g _ _ (dv_id g) (dv_plus _ _ g _ _ (dv_const tau g) (d_hyp g)) ltac:(cbv beta; lra)) PP).
  eapply dv_val; [exact D|]. cbv beta. set (s := hyp g) in *.
  transitivity ((s * tau + (s ^ 2 - g ^ 2)) / (g * s * (tau + s))); [field; repeat split; lra|]. replace (s ^ 2 - g ^ 2) with (tau ^ 2) by lra. field. repeat split; lra.
Qed.
(** the projected mass within g Rs, in units of M0 *)
Definition mproj (g : R) : R :=
  tau ^ 2 / (tau ^ 2 + 1) ^ 2 * ((tau ^ 2 + 1 + 2 * (g ^ 2 - 1)) * F_tnfw g + tau * PI + (tau ^ 2 - 1) * ln tau + hyp g * (- PI + (tau ^ 2 - 1) * L_tnfw g tau / tau)).
(** the surface density at g Rs, in units of M0 / (2 pi Rs^2) *)
Definition sproj (g : R) : R :=
  tau ^ 2 / (tau ^ 2 + 1) ^ 2 * ((if Req_EM_T g 1 then (tau ^ 2 + 1) / 3 else (tau ^ 2 + 1) * (1 - F_tnfw g) / (g ^ 2 - 1)) + 2 * F_tnfw g + - PI / hyp g + (tau ^ 2 - 1) * L_tnfw g tau / (tau * hyp g)).
Definition vproj (g : R) : R :=
  1 / (tau ^ 2 + 1) ^ 2 * (2 * PI * tau ^ 2 * (tau - hyp g + tau * ln (tau + hyp g)) + 2 * (tau ^ 2 - 1) * tau * hyp g * L_tnfw g tau + tau ^ 2 * (tau ^ 2 - 1) * L_tnfw g tau ^ 2 +
    4 * tau ^ 2 * (g ^ 2 - 1) * F_tnfw g + tau ^ 2 * (tau ^ 2 - 1) * P_tnfw g + tau ^ 2 * ((tau ^ 2 - 1) * ln tau - tau ^ 2 - 1) * ln (g ^ 2) -
    tau ^ 2 * ((tau ^ 2 - 1) * ln tau * ln (4 * tau) + 2 * ln (tau / 2) - 2 * tau * (tau - PI) * ln (2 * tau))).
Lemma sq_ne g : 0 < g -> 1 / 100 < Rabs (g - 1) -> g ^ 2 - 1 <> 0 /\ g <> 1.
Proof. intros H W. assert (N : g <> 1) by (intros ->; rewrite Rminus_eq_0, Rabs_R0 in W; lra). split; [nra|exact N]. Qed.
Lemma m_derive g : 0 < g -> 1 / 100 < Rabs (g - 1) -> is_derive mproj g (g * sproj g).
Proof.
  intros H W. destruct (sq_ne g H W) as [N1 N2]. assert (P := hyp_pos g). assert (Q := hyp_sq g). unfold mproj.
  assert (T : 0 < (tau ^ 2 + 1) ^ 2) by (apply pow_lt; nra). set (c := tau ^ 2 / (tau ^ 2 + 1) ^ 2).
  assert (D1 : is_derive (fun g => tau ^ 2 + 1 + 2 * (g ^ 2 - 1)) g (4 * g)) by (auto_derive; trivial; ring).
  assert (D2 := dv_mult _ _ g _ _ D1 (F_derive g H W)).
  assert (D3 := dv_plus _ _ g _ _ (dv_const (- PI) g) (dv_scal _ ((tau ^ 2 - 1) / tau) g _ (L_derive g H))).
  assert (D4 := dv_mult _ _ g _ _ (d_hyp g) D3).
  assert (D6 := dv_scal _ c g _ (dv_plus _ _ g _ _ (dv_plus _ _ g _ _ D2 (dv_const (tau * PI + (tau ^ 2 - 1) * ln tau) g)) D4)).
  eapply dv_ext; [|eapply dv_val; [exact D6|]].
  - intros t. cbv beta. field. lra.
  - cbv beta.
    unfold sproj. destruct (Req_EM_T g 1); [contradiction|]. fold c. set (F := F_tnfw g). set (L := L_tnfw g tau). set (s := hyp g) in *. field. repeat split; lra.
Qed.
Lemma v_derive g : 0 < g -> 1 / 100 < Rabs (g - 1) -> is_derive vproj g (2 * mproj g / g).
Proof.
  intros H W. destruct (sq_ne g H W) as [N1 N2]. assert (P := hyp_pos g). assert (Q := hyp_sq g). assert (T : 0 < (tau ^ 2 + 1) ^ 2) by (apply pow_lt; nra).
  unfold vproj. set (c := 1 / (tau ^ 2 + 1) ^ 2). set (k8 := tau ^ 2 * ((tau ^ 2 - 1) * ln tau * ln (4 * tau) + 2 * ln (tau / 2) - 2 * tau * (tau - PI) * ln (2 * tau))).
  assert (DH := dv_plus _ _ g _ _ (dv_const tau g) (d_hyp g)).
  assert (D2 := dv_scal _ (2 * PI * tau ^ 2) g _ (dv_plus _ _ g _ _ (dv_minus _ _ g _ _ (dv_const tau g) (d_hyp g)) (dv_scal _ tau g _ (dv_ln _ g _ DH ltac:(cbv beta; lra))))).
  assert (D3 := dv_scal _ (2 * (tau ^ 2 - 1) * tau) g _ (dv_mult _ _ g _ _ (d_hyp g) (L_derive g H))).
  assert (D4 := dv_scal _ (tau ^ 2 * (tau ^ 2 - 1)) g _ (dv_sq _ g _ (L_derive g H))).
  assert (DG : is_derive (fun g : R => g ^ 2 - 1) g (2 * g)) by (auto_derive; trivial; ring).
  assert (D5 := dv_scal _ (4 * tau ^ 2) g _ (dv_mult _ _ g _ _ DG (F_derive g H W))).
  assert (D6 := dv_scal _ (tau ^ 2 * (tau ^ 2 - 1)) g _ (P_derive g H W)).
  assert (D7 : is_derive (fun g => tau ^ 2 * ((tau ^ 2 - 1) * ln tau - tau ^ 2 - 1) * ln (g ^ 2)) g (tau ^ 2 * ((tau ^ 2 - 1) * ln tau - tau ^ 2 - 1) * (2 / g))).
  { apply dv_scal. auto_derive; [nra|]. field. lra. }
  assert (D := dv_scal _ c g _ (dv_minus _ _ g _ _ (dv_plus _ _ g _ _ (dv_plus _ _ g _ _ (dv_plus _ _ g _ _ (dv_plus _ _ g _ _ (dv_plus _ _ g _ _ D2 D3) D4) D5) D6) D7) (dv_const k8 g))).
  eapply dv_ext; [|eapply dv_val; [exact D|]].
  - intros t. cbv beta. ring.
  - clear D D2 D3 D4 D5 D6 D7 DH DG. cbv beta. unfold mproj, c. set (F := F_tnfw g). set (L := L_tnfw g tau). set (s := hyp g) in *. set (l := ln tau).
    apply Rmult_eq_reg_r with ((tau ^ 2 + 1) ^ 2 * g * s / tau ^ 2); [|apply Rgt_not_eq, Rdiv_lt_0_compat; [|nra]; apply Rmult_lt_0_compat; [apply Rmult_lt_0_compat|]; assumption].
    replace (0 - g / s + tau * ((0 + g / s) / (tau + s))) with (- g / (tau + s)) by (field; split; lra).
    assert (E2 : g ^ 2 / (tau + s) = s - tau) by (apply Rmult_eq_reg_r with (tau + s); [|lra]; unfold Rdiv; rewrite Rmult_assoc, Rinv_l by lra; nra).
    assert (E3 : - g / (tau + s) = - (s - tau) / g) by (rewrite <- E2; field; split; lra). rewrite E3.
    assert (T1 : tau ^ 2 + 1 <> 0) by nra.
    transitivity (2 * PI * (tau - s) * s + 2 * (tau ^ 2 - 1) * (g ^ 2 * L / tau + s) + 2 * (tau ^ 2 - 1) * L * tau + 4 * s * (2 * g ^ 2 * F + (1 - g ^ 2 * F)) + 2 * (tau ^ 2 - 1) * F * s + 2 * ((tau ^ 2 - 1) * l - tau ^ 2 - 1) * s).
    { field. repeat split; lra. }
    transitivity (2 * s * ((tau ^ 2 + 1 + 2 * (g ^ 2 - 1)) * F + tau * PI + (tau ^ 2 - 1) * l) - 2 * PI * s ^ 2 + 2 * s ^ 2 * (tau ^ 2 - 1) * L / tau); [replace (g ^ 2 * L / tau + s) with ((s ^ 2 - tau ^ 2) * L / tau + s) by (rewrite Q; field; lra); field; lra|field; repeat split; lra].
Qed.
End Tau.
