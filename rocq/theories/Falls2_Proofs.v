(** * Convergence falls with the distance: halos *)
From Coq Require Import Reals Lra Psatz.
From Coquelicot Require Import Coquelicot.
From Verif Require Import Const_Model RealFun Derive1 Cosmo_Model Geo_Model LensBase_Model Nfw_Model Nfw_Spec Nfw_Proofs Nfw2_Proofs Nfw3_Proofs Tnfw_Model Tnfw_Proofs Tnfw2_Proofs Tnfw3_Proofs Project_Spec Project_Proofs Project2_Proofs Falls_Spec Falls_Proofs.
Local Open Scope R_scope.

(** ** the densities, lengths in units of the scale radius *)
Lemma unit_nfw r : nfw_density 1 1 r = 1 / (r * (1 + r) ^ 2).
Proof. unfold nfw_density. replace (r / 1) with r by field. reflexivity. Qed.
Lemma nfw_den_pos r : 0 < r -> 0 < r * (1 + r) ^ 2.
Proof. intros H. apply Rmult_lt_0_compat; [exact H|apply pow_lt; lra]. Qed.
Lemma nfw_density_pos r : 0 < r -> 0 < nfw_density 1 1 r.
Proof. intros H. rewrite unit_nfw. apply Rdiv_lt_0_compat; [lra|apply nfw_den_pos, H]. Qed.
Lemma nfw_den_grows r r' : 0 < r -> r < r' -> r * (1 + r) ^ 2 < r' * (1 + r') ^ 2.
Proof. intros H L. assert ((1 + r) ^ 2 < (1 + r') ^ 2) by nra. assert (0 < (1 + r) ^ 2) by nra. apply Rmult_gt_0_lt_compat; lra. Qed.
Lemma nfw_density_falls r r' : 0 < r -> r < r' -> nfw_density 1 1 r' < nfw_density 1 1 r.
Proof. intros H L. rewrite !unit_nfw. apply inv_falls; [lra|apply nfw_den_pos, H|apply nfw_den_grows; assumption]. Qed.
Lemma nfw_density_continuous r : 0 < r -> continuous (nfw_density 1 1) r.
Proof.
  intros H. apply (continuous_ext (fun r => 1 / (r * (1 + r) ^ 2))); [intros t; symmetry; apply unit_nfw|]. assert (P := nfw_den_pos r H).
  apply (ex_derive_continuous (K := R_AbsRing) (V := R_NormedModule)). auto_derive. simpl in P. lra.
Qed.
Section Trunc.
Variable tau : R.
Hypothesis Ht : 0 < tau.
Lemma unit_tnfw r : tnfw_density 1 1 (tau * 1) r = nfw_density 1 1 r * (tau ^ 2 / (tau ^ 2 + r ^ 2)).
Proof. unfold tnfw_density. rewrite Rmult_1_r. reflexivity. Qed.
Lemma trunc_pos r : 0 < tau ^ 2 / (tau ^ 2 + r ^ 2).
Proof. apply Rdiv_lt_0_compat; nra. Qed.
Lemma tnfw_density_pos r : 0 < r -> 0 < tnfw_density 1 1 (tau * 1) r.
Proof. intros H. rewrite unit_tnfw. apply Rmult_lt_0_compat; [apply nfw_density_pos, H|apply trunc_pos]. Qed.
Lemma tnfw_density_falls r r' : 0 < r -> r < r' -> tnfw_density 1 1 (tau * 1) r' < tnfw_density 1 1 (tau * 1) r.
Proof.
  intros H L. rewrite !unit_tnfw. assert (A := nfw_density_falls r r' H L). assert (B := nfw_density_pos r' ltac:(lra)). assert (C := trunc_pos r').
  assert (D : tau ^ 2 / (tau ^ 2 + r' ^ 2) < tau ^ 2 / (tau ^ 2 + r ^ 2)) by (apply inv_falls; nra). apply Rmult_gt_0_lt_compat; lra.
Qed.
Lemma tnfw_density_continuous r : 0 < r -> continuous (tnfw_density 1 1 (tau * 1)) r.
Proof.
  intros H. apply (continuous_ext (fun r => nfw_density 1 1 r * (tau ^ 2 / (tau ^ 2 + r ^ 2)))); [intros t; symmetry; apply unit_tnfw|].
  apply (continuous_mult (K := R_AbsRing)); [apply nfw_density_continuous, H|]. apply (ex_derive_continuous (K := R_AbsRing) (V := R_NormedModule)). auto_derive. nra.
Qed.
End Trunc.

(** ** the projected profiles *)
Lemma Gx_falls x x' : 0 < x -> x < x' -> 0 < Gx x' < Gx x.
Proof.
  intros H L. assert (P := nfw_projects 1 1 x Rlt_0_1 H). assert (P' := nfw_projects 1 1 x' Rlt_0_1 ltac:(lra)). rewrite Rmult_1_l in P, P'.
  destruct (projection_falls (nfw_density 1 1) nfw_density_pos nfw_density_falls nfw_density_continuous x x' _ _ H L P P'). lra.
Qed.
Lemma Gx_pos x : 0 < x -> 0 < Gx x.
Proof. intros H. destruct (Gx_falls (x / 2) x ltac:(lra) ltac:(lra)). assumption. Qed.
Definition Ex (tau x : R) : R := (tau ^ 2 + 1) * Gx x + 2 * Fx x - 2 * (/ hyp tau x * (PI / 2)) + (1 - tau ^ 2) * (/ (tau * hyp tau x) * - L_tnfw x tau).
Section Trunc2.
Variable tau : R.
Hypothesis Ht : 0 < tau.
Lemma front_pos : 0 < tau ^ 2 / (tau ^ 2 + 1) ^ 2.
Proof. apply Rdiv_lt_0_compat; [nra|apply pow_lt; nra]. Qed.
Lemma Ex_projects x : 0 < x -> projects (tnfw_density 1 1 (tau * 1)) x (2 * (tau ^ 2 / (tau ^ 2 + 1) ^ 2 * Ex tau x)).
Proof. intros H. assert (P := tnfw_projects 1 1 x tau Rlt_0_1 H Ht). rewrite !Rmult_1_l in P. exact P. Qed.
Lemma Ex_falls x x' : 0 < x -> x < x' -> 0 < Ex tau x' < Ex tau x.
Proof.
  intros H L. assert (F := front_pos). destruct (projection_falls _ (tnfw_density_pos tau Ht) (tnfw_density_falls tau Ht) (tnfw_density_continuous tau) x x' _ _ H L (Ex_projects x H) (Ex_projects x' ltac:(lra))) as [A B].
  set (f := tau ^ 2 / (tau ^ 2 + 1) ^ 2) in *. split.
  - apply Rmult_lt_reg_l with f; [exact F|]. lra.
  - apply Rmult_lt_reg_l with f; [exact F|]. lra.
Qed.
(** well inside, by integrating the density between one scale radius in front of and one behind the lens plane only *)
Lemma Ex_lower x : 0 < x <= 101 / 100 -> 4 / 100 * (tau ^ 2 + 1) <= Ex tau x.
Proof.
  intros [H L]. assert (F := front_pos). destruct (Ex_projects x H) as (I & HI & HL).
  assert (C : forall z, continuous (fun z => tnfw_density 1 1 (tau * 1) (sqrt (x ^ 2 + z ^ 2))) z) by (intros z; apply sight_continuous; [exact H|apply tnfw_density_continuous]).
  assert (M := middle_part _ I _ C (fun z => Rlt_le _ _ (tnfw_density_pos tau Ht _ (sight_pos x z H))) HI HL).
  assert (B : 2 * (1 / (3 / 2 * (5 / 2) ^ 2) * (tau ^ 2 / (tau ^ 2 + 9 / 4))) <= I 1).
  { eapply middle_bound; [|exact (HI 1 Rlt_0_1)]. intros z Hz. cbv beta. rewrite unit_tnfw. assert (SP := sight_pos x z H). set (r := sqrt (x ^ 2 + z ^ 2)) in *.
    assert (RB : r <= 3 / 2). { unfold r. rewrite <- (sqrt_pow2 (3 / 2)) by lra. apply sqrt_le_1_alt. nra. }
    apply Rmult_le_compat; [lra|apply Rlt_le, Rdiv_lt_0_compat; nra| |].
    - rewrite unit_nfw. apply Rmult_le_compat_l; [lra|]. apply Rinv_le_contravar; [apply nfw_den_pos, SP|]. destruct (Req_dec r (3 / 2)) as [E|E]; [rewrite E; lra|]. assert (X := nfw_den_grows r (3 / 2) SP ltac:(lra)). lra.
    - apply Rmult_le_compat_l; [nra|]. apply Rinv_le_contravar; nra. }
  assert (D : 2 * (1 / (3 / 2 * (5 / 2) ^ 2) * (tau ^ 2 / (tau ^ 2 + 9 / 4))) <= 2 * (tau ^ 2 / (tau ^ 2 + 1) ^ 2 * Ex tau x)) by lra. clear B M HL HI C I. assert (D' : 1 / (3 / 2 * (5 / 2) ^ 2) * (tau ^ 2 / (tau ^ 2 + 9 / 4)) <= tau ^ 2 / (tau ^ 2 + 1) ^ 2 * Ex tau x) by lra. clear D.
  set (t2 := tau ^ 2) in *. assert (T2 : 0 < t2) by (unfold t2; nra). clearbody t2. set (e := Ex tau x) in *. clearbody e.
  apply (Rmult_le_compat_r ((t2 + 1) ^ 2 / t2)) in D'. 2:{ apply Rlt_le, Rdiv_lt_0_compat; [apply pow_lt; lra|exact T2]. }
  replace (t2 / (t2 + 1) ^ 2 * e * ((t2 + 1) ^ 2 / t2)) with e in D' by (field; lra). eapply Rle_trans; [|exact D'].
  replace (1 / (3 / 2 * (5 / 2) ^ 2) * (t2 / (t2 + 9 / 4)) * ((t2 + 1) ^ 2 / t2)) with (8 / 75 * ((t2 + 1) ^ 2 / (t2 + 9 / 4))) by (field; lra).
  apply Rmult_le_reg_r with (t2 + 9 / 4); [lra|]. replace (8 / 75 * ((t2 + 1) ^ 2 / (t2 + 9 / 4)) * (t2 + 9 / 4)) with (8 / 75 * (t2 + 1) ^ 2) by (field; lra). nra.
Qed.
End Trunc2.
