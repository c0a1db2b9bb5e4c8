(** * The pieces of a scene have a least arrival time *)
From Coq Require Import Reals Lra Lia Psatz List FunctionalExtensionality.
From Coquelicot Require Import Coquelicot.
From Verif Require Import RealFun Calc2 Geo_Model Lens_Spec Lens_Lib LensBasic_Model LensBasic_Proofs LensBase_Model LensBase_Proofs Soft_Proofs Project_Proofs Round_Proofs First_Spec First_Proofs First2_Proofs.
Import ListNotations.
Local Open Scope R_scope.

Definition good (L : thin_lens) (E : R -> R -> R) (k : R) (off : R -> R -> Prop) : Prop :=
  weighed L E /\ grows k (potential L) /\ (forall x y, off x y -> E x y <> 0) /\ (forall x y, E x y <> 0 -> off x y \/ cusp (potential L) x y).
Lemma smooth_good L k : (forall x y, smooth_at L x y) -> grows k (potential L) -> good L (fun x y => exp (potential L x y)) k (fun _ _ => True).
Proof.
  intros S G. split; [apply smooth_weighed, S|]. split; [exact G|]. split; [intros; apply Rgt_not_eq, exp_pos|]. intros; left; exact Logic.I.
Qed.
Lemma norm_sum a b : sqrt (a ^ 2 + b ^ 2) <= Rabs a + Rabs b.
Proof.
  assert (A := Rabs_pos a). assert (B := Rabs_pos b). rewrite <- (sqrt_pow2 (Rabs a + Rabs b)) by lra. apply sqrt_le_1_alt.
  assert (S1 : Rabs a ^ 2 = a ^ 2) by (rewrite RPow_abs, Rabs_right; [reflexivity|apply Rle_ge, pow2_ge_0]).
  assert (S2 : Rabs b ^ 2 = b ^ 2) by (rewrite RPow_abs, Rabs_right; [reflexivity|apply Rle_ge, pow2_ge_0]). nra.
Qed.
Lemma rinv_nonneg a : 0 <= a -> 0 <= / a.
Proof. intros [H|<-]; [left; apply Rinv_0_lt_compat, H|rewrite Rinv_0; lra]. Qed.
(** ** sheet and shear *)
Lemma sheet_good z x0 y0 k : 0 <= k -> good (lens_of z (Sheet x0 y0 k)) (fun x y => exp (potential_mass_sheet x0 y0 k x y)) k (fun _ _ => True).
Proof.
  intros K. apply (smooth_good (lens_of z (Sheet x0 y0 k))).
  - intros x y. apply consistent_smooth; [intros; apply mass_sheet_consistent|cbn; unfold convergence_mass_sheet; lra].
  - apply (grows_general k 0 0 x0 y0). intros x y. cbn. unfold potential_mass_sheet, translate_rotate. lra.
Qed.
Lemma shear_good z x0 y0 a b : good (lens_of z (Shear x0 y0 a b)) (fun x y => exp (potential_external_shear x0 y0 a b x y)) (sqrt (a ^ 2 + b ^ 2)) (fun _ _ => True).
Proof.
  apply (smooth_good (lens_of z (Shear x0 y0 a b))).
  - intros x y. apply consistent_smooth; [intros; apply external_shear_consistent|cbn; unfold convergence_external_shear; lra].
  - apply (grows_general _ 0 0 x0 y0). intros x y. cbn [lens_of potential]. unfold potential_external_shear, translate_rotate. set (X := x - x0). set (Y := y - y0).
    rewrite Rplus_0_l, Rmult_0_l, Rplus_0_r. apply Rle_trans with (Rabs (/ 2 * a * (X ^ 2 - Y ^ 2) + b * X * Y)); [apply Rle_abs|].
    apply Rsqr_incr_0_var; [|apply Rmult_le_pos; [apply Rmult_le_pos; [apply sqrt_pos|lra]|nra]].
    rewrite <- Rsqr_abs. unfold Rsqr.
    replace (sqrt (a ^ 2 + b ^ 2) / 2 * (X ^ 2 + Y ^ 2) * (sqrt (a ^ 2 + b ^ 2) / 2 * (X ^ 2 + Y ^ 2))) with (sqrt (a ^ 2 + b ^ 2) ^ 2 * ((X ^ 2 + Y ^ 2) ^ 2 / 4)) by field.
    rewrite pow2_sqrt by nra.
    assert (Q : 0 <= (a * (2 * X * Y) - b * (X ^ 2 - Y ^ 2)) ^ 2) by apply pow2_ge_0. nra.
Qed.
(** ** SIS *)
Lemma sis_good z x0 y0 Rein : 0 < Rein -> good (lens_of z (Isothermal x0 y0 Rein)) (fun x y => exp (potential_sis x0 y0 Rein 0 x y)) 0 (fun x y => x <> x0 \/ y <> y0).
Proof.
  intros HR. set (L := lens_of z (Isothermal x0 y0 Rein)).
  assert (V : forall x y, potential L x y = Rein * sqrt ((x - x0) ^ 2 + (y - y0) ^ 2)).
  { intros x y. cbn. unfold potential_sis, translate_rotate. rewrite Rplus_0_r. reflexivity. }
  assert (B : forall x y, 0 <= potential L x y <= Rein * (Rabs (x - x0) + Rabs (y - y0))).
  { intros x y. rewrite V. split; [apply Rmult_le_pos; [lra|apply sqrt_pos]|]. apply Rmult_le_compat_l; [lra|apply norm_sum]. }
  assert (C : forall t, 0 < t -> Rein * t <= potential L (x0 + t * 1) (y0 + t * 0)).
  { intros t T. rewrite V. replace ((x0 + t * 1 - x0) ^ 2 + (y0 + t * 0 - y0) ^ 2) with (t ^ 2) by ring. rewrite sqrt_pow2 by lra. lra. }
  assert (Z : potential L x0 y0 = 0) by (rewrite V; replace ((x0 - x0) ^ 2 + (y0 - y0) ^ 2) with 0 by ring; rewrite sqrt_0; ring).
  split; [|split; [|split]].
  - apply (cone_weighed L x0 y0 Rein 1 0 Rein); auto.
    + intros x y O. apply sis_consistent, O.
    + intros x y _. cbn. unfold convergence_sis, translate_rotate. apply Rmult_le_pos; [lra|]. apply rinv_nonneg. rewrite Rplus_0_r. apply sqrt_pos.
  - apply (grows_general 0 Rein 0 x0 y0). intros x y. assert (B' := B x y). lra.
  - intros; apply Rgt_not_eq, exp_pos.
  - intros x y _. destruct (Req_dec x x0) as [X|X]; [destruct (Req_dec y y0) as [Y|Y]|]; [right|left; auto|left; auto]. subst.
    exists 1, 0, Rein, 1. split; [exact HR|]. split; [lra|]. intros t T. unfold rise. fold L. rewrite Z. assert (C' := C t ltac:(lra)). assert (B' := B (x0 - t * 1) (y0 - t * 0)). lra.
Qed.
(** ** point mass *)
Lemma point_good z x0 y0 Rein : 0 < Rein -> exists E, good (lens_of z (PointMass x0 y0 Rein)) E 0 (fun x y => x <> x0 \/ y <> y0).
Proof.
  intros HR. set (L := lens_of z (PointMass x0 y0 Rein)). assert (R2 : 0 < Rein ^ 2) by (apply pow_lt, HR).
  assert (V : forall x y, potential L x y = Rein ^ 2 * ln (sqrt ((x - x0) ^ 2 + (y - y0) ^ 2))).
  { intros x y. cbn [L lens_of potential]. unfold potential_point, translate_rotate. rewrite Rplus_0_r. reflexivity. }
  assert (Pos : forall x y, x <> x0 \/ y <> y0 -> 0 < sqrt ((x - x0) ^ 2 + (y - y0) ^ 2)) by (intros x y O; apply norm_pos; destruct O; [left|right]; lra).
  assert (Con : forall x y, x <> x0 \/ y <> y0 -> lens_consistent (potential L) (reduced_deflection_angle L) (convergence L) x y).
  { intros x y O. cbn [L lens_of potential reduced_deflection_angle convergence]. destruct (convergence_point x0 y0 x y) as [k|] eqn:Ek.
    - destruct (point_consistent x0 y0 Rein x y k Ek) as [A B]. split; [exact A|]. unfold convergence_is_half_divergence in *. rewrite Ek. exact B.
    - apply convergence_point_centre in Ek. destruct O; tauto. }
  assert (Ka : forall x y, x <> x0 \/ y <> y0 -> 0 <= convergence L x y).
  { intros x y _. cbn [L lens_of convergence]. unfold convergence_point, translate_rotate. destruct (Req_EM_T _ _); [destruct (Req_EM_T _ _)|]; lra. }
  set (E := fun x y => if Req_EM_T x x0 then if Req_EM_T y y0 then 0 else exp (potential L x y) else exp (potential L x y)).
  assert (E1 : forall x y, x <> x0 \/ y <> y0 -> E x y = exp (potential L x y)).
  { intros x y O. unfold E. destruct (Req_EM_T x x0); [destruct (Req_EM_T y y0)|]; try reflexivity. destruct O; contradiction. }
  assert (E0 : E x0 y0 = 0) by (unfold E; destruct (Req_EM_T x0 x0); [destruct (Req_EM_T y0 y0)|]; congruence).
  exists E. split; [split|split; [|split]].
  - intros x y. destruct (Req_dec x x0) as [X|X]; [destruct (Req_dec y y0) as [Y|Y]|].
    + subst. intros e. assert (He := cond_pos e). set (r := exp (ln e / Rein ^ 2)). assert (Hr : 0 < r / 2) by (assert (Q := exp_pos (ln e / Rein ^ 2)); fold r in Q; lra).
      exists (mkposreal _ Hr). intros u v U W. cbn [pos] in U, W. rewrite E0, Rminus_0_r.
      assert (St : u <> x0 \/ v <> y0 -> Rabs (E u v) < e).
      { intros O. rewrite (E1 _ _ O), Rabs_right by (apply Rle_ge, Rlt_le, exp_pos). rewrite V. rewrite <- (exp_ln e He) at 1. apply exp_increasing.
        replace (ln e) with (Rein ^ 2 * ln r) by (unfold r; rewrite ln_exp; field; lra). apply Rmult_lt_compat_l; [exact R2|].
        assert (P := Pos _ _ O). apply ln_increasing; [exact P|]. eapply Rle_lt_trans; [apply norm_sum|lra]. }
      destruct (Req_dec u x0) as [X|X]; [destruct (Req_dec v y0) as [Y|Y]|]; [subst; rewrite E0, Rabs_R0; exact He|apply St; auto|apply St; auto].
    + apply (continuity_2d_pt_ext_loc (fun u v => exp (potential L u v))).
      * eapply locally_2d_impl; [|exact (open_off x0 y0 x y (or_intror Y))]. apply locally_2d_forall. intros u v O. symmetry. apply E1, O.
      * eapply D2_continuous. apply D2_exp. apply (Con x y (or_intror Y)).
    + apply (continuity_2d_pt_ext_loc (fun u v => exp (potential L u v))).
      * eapply locally_2d_impl; [|exact (open_off x0 y0 x y (or_introl X))]. apply locally_2d_forall. intros u v O. symmetry. apply E1, O.
      * eapply D2_continuous. apply D2_exp. apply (Con x y (or_introl X)).
  - intros x y. destruct (Req_dec x x0) as [X|X]; [destruct (Req_dec y y0) as [Y|Y]|].
    + left. subst. exact E0.
    + right. split; [apply E1; auto|]. left. apply (off_smooth L x0 y0); auto.
    + right. split; [apply E1; auto|]. left. apply (off_smooth L x0 y0); auto.
  - apply (grows_general 0 (Rein ^ 2) 0 x0 y0). intros x y. rewrite V. assert (N := norm_sum (x - x0) (y - y0)). set (r := sqrt _) in *.
    assert (Q : ln r <= Rabs (x - x0) + Rabs (y - y0)).
    { assert (P := sqrt_pos ((x - x0) ^ 2 + (y - y0) ^ 2)). fold r in P. destruct P as [P|P].
      - assert (H := exp_ineq1_le (ln r)). rewrite exp_ln in H by exact P. lra.
      - assert (Z : ln r = 0) by (rewrite <- P; unfold ln; destruct (Rlt_dec 0 0) as [A|A]; [destruct (Rlt_irrefl _ A)|reflexivity]). rewrite Z. assert (A1 := Rabs_pos (x - x0)). assert (A2 := Rabs_pos (y - y0)). lra. }
    assert (Q2 : Rein ^ 2 * ln r <= Rein ^ 2 * (Rabs (x - x0) + Rabs (y - y0))) by (apply Rmult_le_compat_l; [apply Rlt_le, R2|exact Q]). unfold Rdiv. rewrite !Rmult_0_l, !Rplus_0_l. exact Q2.
  - intros x y O. rewrite (E1 x y O). apply Rgt_not_eq, exp_pos.
  - intros x y N. left. destruct (Req_dec x x0) as [X|X]; [destruct (Req_dec y y0) as [Y|Y]|]; auto. subst. destruct (N E0).
Qed.
