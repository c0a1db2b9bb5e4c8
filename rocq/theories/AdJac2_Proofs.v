(** * Differentiating Jacobian, shear and magnification: the methods and some lenses *)
From Coq Require Import Reals List String Lra Lia FunctionalExtensionality.
From Coquelicot Require Import Coquelicot.
From Verif Require Import RealFun Derive1 Calc2 Py LensBase_Model LensBasic_Model LensBasic_Proofs Ad_Model Ad_Spec Ad_Proofs AdLens_Model AdLens_Proofs AdLens2_Proofs AdJac_Model AdJac_Spec AdJac_Proofs.
Import ListNotations.
Local Open Scope R_scope.

(** ** finite differences *)
Section Finite.
Variables (F : (nat -> R) -> R * R) (rows cols : nat) (X Y : nat -> nat -> R) (h : R) (t : nat -> nat -> expr * expr) (a : nat -> R) (s : nat -> option R).
Hypothesis Hr : (2 <= rows)%nat.
Hypothesis Hc : (2 <= cols)%nat.
Hypothesis Hh : h <> 0.
Hypothesis HT : forall i j, (i < rows)%nat -> (j < cols)%nat -> ad_exact2 (fun b => at_position F b (X i j) (Y i j)) (t i j) a s.
Variables (i j : nat).
Hypothesis Hi : (i < rows)%nat.
Hypothesis Hj : (j < cols)%nat.
Definition fd_jac (b : nat -> R) (i j : nat) : mat2 :=
  let ax i j := fst (at_position F b (X i j) (Y i j)) in
  let ay i j := snd (at_position F b (X i j) (Y i j)) in
  Mat2 (gradient1 cols h (fun k => ax i k) j) (gradient1 rows h (fun k => ax k j) i) (gradient1 cols h (fun k => ay i k) j) (gradient1 rows h (fun k => ay k j) i).
Lemma fd_lens b : jacobian_lens_equation (at_position F b) (rows, cols) X Y "finitediff" (Some h) = Ok (fun i j => mat2_sub eye2 (fd_jac b i j)).
Proof.
  unfold jacobian_lens_equation. cbn [String.eqb Ascii.eqb Bool.eqb]. unfold jacobian_finitediff, gradient2.
  replace (Nat.ltb rows 2) with false by (symmetry; apply Nat.ltb_ge; lia). replace (Nat.ltb cols 2) with false by (symmetry; apply Nat.ltb_ge; lia). reflexivity.
Qed.
Lemma fd_deflection : dual_exact_mat (fun b => fd_jac b i j) (d_jacobian_deflection_finitediff rows cols h t i j a s) a s.
Proof.
  unfold d_jacobian_deflection_finitediff, run, dual_exact_mat. cbn [fst snd]. unfold fd_jac. cbn [m00 m01 m10 m11].
  repeat split.
  - apply (dx_gradient1 cols h (fun b k => fst (at_position F b (X i k) (Y i k))) (fun k => fst (t i k))); try assumption. intros k Hk. apply (HT i k); assumption.
  - apply (dx_gradient1 rows h (fun b k => fst (at_position F b (X k j) (Y k j))) (fun k => fst (t k j))); try assumption. intros k Hk. apply (HT k j); assumption.
  - apply (dx_gradient1 cols h (fun b k => snd (at_position F b (X i k) (Y i k))) (fun k => snd (t i k))); try assumption. intros k Hk. apply (HT i k); assumption.
  - apply (dx_gradient1 rows h (fun b k => snd (at_position F b (X k j) (Y k j))) (fun k => snd (t k j))); try assumption. intros k Hk. apply (HT k j); assumption.
Qed.
Lemma finitediff_ad :
  (exists A, (forall b, jacobian_lens_equation (at_position F b) (rows, cols) X Y "finitediff" (Some h) = Ok (A b)) /\
     dual_exact_mat (fun b => A b i j) (d_jacobian_lens_equation_finitediff rows cols h t i j a s) a s) /\
  (exists G, (forall b, shear (at_position F b) (rows, cols) X Y "finitediff" (Some h) = Ok (G b)) /\
     dual_exact (fun b => fst (G b i j)) (fst (d_shear (d_jacobian_lens_equation_finitediff rows cols h t i j a s))) a s /\
     dual_exact (fun b => snd (G b i j)) (snd (d_shear (d_jacobian_lens_equation_finitediff rows cols h t i j a s))) a s).
Proof.
  assert (D : dual_exact_mat (fun b => mat2_sub eye2 (fd_jac b i j)) (d_jacobian_lens_equation_finitediff rows cols h t i j a s) a s) by (apply dx_eye_minus, fd_deflection).
  split.
  - exists (fun b i j => mat2_sub eye2 (fd_jac b i j)). split; [exact fd_lens|exact D].
  - exists (fun b i j => shear_of_jacobian (mat2_sub eye2 (fd_jac b i j))). split; [intros b; unfold shear; rewrite fd_lens; reflexivity|]. exact (dx_shear _ _ _ _ D).
Qed.
End Finite.

(** ** magnification *)
Lemma Fin_inj r t : Fin r = Fin t -> r = t.
Proof. congruence. Qed.
Section Mag.
Variables (F : (nat -> R) -> R * R) (t : expr * expr) (a : nat -> R) (s : nat -> option R).
Hypothesis HF : computes F t.
Hypothesis H1 : smooth a (fst t).
Hypothesis H2 : smooth a (snd t).
Let traced : expr * expr := (Sub (Var 0) (fst t), Sub (Var 1) (snd t)).
Let G (b : nat -> R) : R * R := (b 0%nat - fst (F b), b 1%nat - snd (F b)).
Let J := t_jacfwd traced.
Let det : expr := Sub (Mul (fst (fst J)) (snd (snd J))) (Mul (snd (fst J)) (fst (snd J))).
Lemma G_computes : computes G traced.
Proof. intros b. unfold G, traced. cbn [fst snd ev]. rewrite HF. reflexivity. Qed.
Lemma raytrace_G b x y : raytrace (at_position F b) x y = G (moved b x y).
Proof. unfold raytrace, G, at_position. destruct (F (moved b x y)). reflexivity. Qed.
Lemma det_eq b : smooth b (fst traced) -> smooth b (snd traced) ->
  let j := jacfwd (raytrace (at_position F b)) (b 0%nat) (b 1%nat) in m00 j * m11 j - m01 j * m10 j = ev b det.
Proof.
  intros S1 S2. cbv zeta. replace (jacfwd (raytrace (at_position F b)) (b 0%nat) (b 1%nat)) with (deflection_jacobian G b).
  2:{ unfold deflection_jacobian. f_equal. apply functional_extensionality. intros x. apply functional_extensionality. intros y. unfold at_position at 1. symmetry. apply raytrace_G. }
  destruct (deflection_jacobian_ad G traced b (unit_seed 0) G_computes S1 S2) as ((t1 & V1 & _) & (t2 & V2 & _) & (t3 & V3 & _) & (t4 & V4 & _)).
  change (fst (jvp b (unit_seed 0) (fst (fst J))) = Fin (m00 (deflection_jacobian G b))) in V1. change (fst (jvp b (unit_seed 0) (snd (fst J))) = Fin (m01 (deflection_jacobian G b))) in V2.
  change (fst (jvp b (unit_seed 0) (fst (snd J))) = Fin (m10 (deflection_jacobian G b))) in V3. change (fst (jvp b (unit_seed 0) (snd (snd J))) = Fin (m11 (deflection_jacobian G b))) in V4.
  assert (S : smooth b (fst (fst J)) /\ smooth b (snd (fst J)) /\ smooth b (fst (snd J)) /\ smooth b (snd (snd J))) by (unfold J, t_jacfwd; cbn [fst snd]; repeat split; apply smooth_trace; assumption).
  destruct S as (Sa & Sb & Sc & Sd).
  rewrite (ok_value b (unit_seed 0) _ (smooth_ok _ _ _ Sa)) in V1. rewrite (ok_value b (unit_seed 0) _ (smooth_ok _ _ _ Sb)) in V2.
  rewrite (ok_value b (unit_seed 0) _ (smooth_ok _ _ _ Sc)) in V3. rewrite (ok_value b (unit_seed 0) _ (smooth_ok _ _ _ Sd)) in V4.
  apply Fin_inj in V1, V2, V3, V4. unfold det. cbn [ev]. rewrite V1, V2, V3, V4. reflexivity.
Qed.
Lemma mag_value b : smooth b (fst traced) -> smooth b (snd traced) -> ev b det <> 0 -> magnification (at_position F b) (b 0%nat) (b 1%nat) = Some (ev b (t_magnification t)).
Proof.
  intros S1 S2 N. unfold magnification, pixel_magnification. assert (E := det_eq b S1 S2). cbv zeta in E. rewrite E.
  destruct (Req_EM_T (Rabs (ev b det)) 0) as [Z|Z]; [apply Rabs_eq_0 in Z; contradiction|]. f_equal.
  change (ev b (t_magnification t)) with (1 / (if Rlt_dec (ev b det) 0 then - ev b det else ev b det)). f_equal.
  destruct (Rlt_dec (ev b det) 0); [apply Rabs_left; assumption|apply Rabs_right; lra].
Qed.
Lemma det_nonzero : smooth a (fst traced) -> smooth a (snd traced) -> magnification (at_position F a) (a 0%nat) (a 1%nat) <> None -> ev a det <> 0.
Proof.
  intros S1 S2 N Z. apply N. unfold magnification, pixel_magnification. assert (E := det_eq a S1 S2). cbv zeta in E. rewrite E, Z, Rabs_R0.
  destruct (Req_EM_T 0 0); [reflexivity|contradiction].
Qed.
Lemma magnification_ad : magnification (at_position F a) (a 0%nat) (a 1%nat) <> None ->
  ad_exact_opt (fun b => magnification (at_position F b) (b 0%nat) (b 1%nat)) (t_magnification t) a s.
Proof.
  intros N. assert (S1 : smooth a (fst traced)) by (split; [exact Logic.I|exact H1]). assert (S2 : smooth a (snd traced)) by (split; [exact Logic.I|exact H2]).
  assert (D := det_nonzero S1 S2 N). split; [eexists; apply mag_value; assumption|].
  assert (SD : smooth a det) by (unfold det, J, t_jacfwd; cbn [fst snd smooth]; repeat split; apply smooth_trace; assumption).
  assert (SM : smooth a (t_magnification t)).
  { change (t_magnification t) with (Div (Cst 1) (t_abs det)). change (smooth a (Div (Cst 1) (t_abs det))) with (True /\ smooth a (t_abs det) /\ ev a (t_abs det) <> 0). split; [exact Logic.I|]. split.
    1: change (smooth a det /\ True /\ ev a det <> 0 /\ (ev a det < 0 -> smooth a det) /\ (0 < ev a det -> smooth a det)); tauto.
    change ((if Rlt_dec (ev a det) 0 then - ev a det else ev a det) <> 0). destruct (Rlt_dec (ev a det) 0); lra. }
  apply ad_of_loc; [apply smooth_ok, SM|].
  generalize (filter_and _ _ (smooth_near a s _ S1) (filter_and _ _ (smooth_near a s _ S2) (near_ne a s det 0 SD D))). apply filter_imp.
  intros h (A & B & C). rewrite (mag_value _ A B C). reflexivity.
Qed.
End Mag.

(** ** lenses *)
Local Notation "a @ n" := (a n%nat) (at level 9, only parsing).
Local Notation V n := (Var n%nat).
Lemma sheet_computes : computes sheet_lens t_sheet. Proof. intros b. reflexivity. Qed.
Lemma shear_computes : computes shear_lens t_shear. Proof. intros b. reflexivity. Qed.
Lemma sis_computes : computes sis_lens t_sis. Proof. intros b. reflexivity. Qed.
Lemma point_computes : computes point_lens t_point. Proof. intros b. reflexivity. Qed.
Lemma sie_computes : computes sie_lens t_sie. Proof. intros b. reflexivity. Qed.
Lemma sheet_smooth a : smooth a (fst t_sheet) /\ smooth a (snd t_sheet).
Proof. cbn. tauto. Qed.
Lemma shear_smooth a : smooth a (fst t_shear) /\ smooth a (snd t_shear).
Proof. cbn. tauto. Qed.
Lemma rad_pos u v : u <> 0 \/ v <> 0 -> 0 < u ^ 2 + v ^ 2.
Proof. intros [H|H]; [pose proof (pow2_gt_0 _ H)|pose proof (pow2_gt_0 _ H)]; nra. Qed.
Lemma sis_smooth a : a@0 <> a@2 \/ a@1 <> a@3 -> 0 <= a@5 -> smooth a (fst t_sis) /\ smooth a (snd t_sis).
Proof.
  intros H S. assert (P : 0 < (a@0 - a@2) ^ 2 + (a@1 - a@3) ^ 2) by (apply rad_pos; destruct H; [left|right]; lra). assert (Q := sqrt_lt_R0 _ P).
  cbn [t_sis t_deflection_sis t_translate_rotate fst snd smooth ev]. repeat split; try assumption; lra.
Qed.
Lemma point_smooth a : a@0 <> a@2 \/ a@1 <> a@3 -> 0 <= a@5 -> smooth a (fst t_point) /\ smooth a (snd t_point).
Proof.
  intros H S. assert (P : 0 < (a@0 - a@2) ^ 2 + (a@1 - a@3) ^ 2) by (apply rad_pos; destruct H; [left|right]; lra). assert (Q := sqrt_lt_R0 _ P).
  cbn [t_point t_deflection_point t_translate_rotate fst snd smooth ev]. repeat split; try assumption; apply pow_nonzero; lra.
Qed.
Lemma sie_smooth a : (a@0 <> a@2 \/ a@1 <> a@3) \/ 0 < a@7 -> 0 <= a@7 -> 0 < a@4 < 1 -> smooth a (fst t_sie) /\ smooth a (snd t_sie).
Proof.
  intros H S Q. set (X := (a@0 - a@2) * cos a@5 + (a@1 - a@3) * sin a@5). set (Y := (a@1 - a@3) * cos a@5 - (a@0 - a@2) * sin a@5).
  assert (HO : X <> 0 \/ Y <> 0 \/ 0 < a@7).
  { destruct H as [H|H]; [|auto]. destruct (Req_dec X 0) as [EX|]; [|auto]. destruct (Req_dec Y 0) as [EY|]; [|auto]. exfalso.
    assert (N : (a@0 - a@2) ^ 2 + (a@1 - a@3) ^ 2 = X ^ 2 + Y ^ 2).
    { unfold X, Y. pose proof (sin2_cos2 a@5) as K. unfold Rsqr in K.
      replace (((a@0 - a@2) * cos a@5 + (a@1 - a@3) * sin a@5) ^ 2 + ((a@1 - a@3) * cos a@5 - (a@0 - a@2) * sin a@5) ^ 2)
        with (((a@0 - a@2) ^ 2 + (a@1 - a@3) ^ 2) * (sin a@5 * sin a@5 + cos a@5 * cos a@5)) by ring. rewrite K. ring. }
    assert (P : 0 < (a@0 - a@2) ^ 2 + (a@1 - a@3) ^ 2) by (apply rad_pos; destruct H; [left|right]; lra). rewrite N, EX, EY in P. lra. }
  pose proof (sie_psi2_pos a@4 a@7 Q X Y HO) as P2. pose proof (sqrt_lt_R0 _ P2) as P1.
  assert (Pq2 : 0 < a@4 ^ 2) by (apply pow_lt; lra). assert (F2 : 0 < 1 - a@4 ^ 2) by nra.
  pose proof (sqrt_lt_R0 _ F2) as F1. assert (Pq2s : 0 <= a@4 ^ 2 * a@7) by (apply Rmult_le_pos; lra).
  pose proof (sie_w_bound a@4 a@7 Q S X Y HO) as W.
  cbn [t_sie t_deflection_sie t_translate_rotate t_derotate fst snd smooth ev].
  destruct (Req_EM_T a@4 1) as [E|E]; [lra|]. fold X Y.
  repeat split; try assumption; try exact Logic.I; try lra; try apply W.
Qed.
(** ** the external shear: its shear is gamma, and does not move under automatic differentiation *)
Lemma shear_lens_shear b : shear_of_jacobian (lens_jacobian shear_lens b) = (b@4, b@5).
Proof.
  assert (D : deflection_jacobian shear_lens b = Mat2 b@4 b@5 b@5 (- b@4)).
  { unfold deflection_jacobian, jacfwd, at_position, shear_lens, reduced_deflection_angle_external_shear. cbn [Geo_Model.translate_rotate moved fst snd].
    f_equal; apply is_derive_unique; auto_derive; auto; ring. }
  unfold lens_jacobian. rewrite D. unfold shear_of_jacobian, mat2_sub, eye2. cbn [m00 m01 m10 m11]. f_equal; field.
Qed.
Lemma shear_refuted : exists F t a seed, computes F t /\ smooth a (fst t) /\ smooth a (snd t) /\
  fst (fst (d_shear (d_jacobian_lens_equation_autograd t a seed))) = Fin (fst (shear_of_jacobian (lens_jacobian F a))) /\
  tval (snd (fst (d_shear (d_jacobian_lens_equation_autograd t a seed)))) = Fin 0 /\
  is_derive (fun h => fst (shear_of_jacobian (lens_jacobian F (along a seed h)))) 0 1.
Proof.
  exists shear_lens, t_shear, (fun _ => 0), (unit_seed 4). split; [apply shear_computes|]. split; [apply shear_smooth|]. split; [apply shear_smooth|]. split; [|split; [reflexivity|]].
  - rewrite shear_lens_shear. destruct (lens_jacobian_values shear_lens t_shear (fun _ => 0) (unit_seed 4) shear_computes (proj1 (shear_smooth _)) (proj2 (shear_smooth _))) as (A & B & C & D).
    unfold d_shear, dmul, dsub, dadd, dcst. cbn [fst snd]. unfold values in A, B, C, D.
    assert (E : lens_jacobian shear_lens (fun _ => 0) = Mat2 1 0 0 1).
    { unfold lens_jacobian. replace (deflection_jacobian shear_lens (fun _ => 0)) with (Mat2 0 0 0 0); [unfold mat2_sub, eye2; cbn; f_equal; ring|].
      unfold deflection_jacobian, jacfwd, at_position, shear_lens, reduced_deflection_angle_external_shear. cbn [Geo_Model.translate_rotate moved fst snd].
      f_equal; symmetry; apply is_derive_unique; auto_derive; auto; ring. }
    rewrite E in A, D. rewrite A, D. cbn. f_equal. field.
  - apply (is_derive_ext (fun h => h)); [|apply dv_id]. intros h. rewrite shear_lens_shear. cbn. unfold along, unit_seed. cbn. symmetry. ring.
Qed.
Lemma hyps_jac : exists a : nat -> R, (a@0 <> a@2 \/ a@1 <> a@3) /\ 0 <= a@7 /\ 0 < a@4 < 1 /\ smooth a (fst t_sie) /\ smooth a (snd t_sie) /\ computes sie_lens t_sie.
Proof.
  set (a := fun n => match n with O => 1 | 4%nat => / 2 | 6%nat => 1 | _ => 0 end). exists a.
  assert (P : a@0 <> a@2 \/ a@1 <> a@3) by (left; cbn; lra). assert (Q : 0 <= a@7) by (cbn; lra). assert (U : 0 < a@4 < 1) by (cbn; lra).
  destruct (sie_smooth a (or_introl P) Q U). split; [exact P|]. split; [exact Q|]. split; [exact U|]. split; [assumption|]. split; [assumption|]. exact sie_computes.
Qed.
Lemma hyps_mag : exists a : nat -> R, magnification (at_position sheet_lens a) (a@0) (a@1) = Some 4.
Proof.
  set (a := fun n => match n with 4%nat => / 2 | _ => 0 end : R). exists a. unfold magnification, pixel_magnification.
  replace (jacfwd (raytrace (at_position sheet_lens a)) (a@0) (a@1)) with (Mat2 (/ 2) 0 0 (/ 2)).
  2:{ unfold jacfwd, raytrace, at_position, sheet_lens, reduced_deflection_angle_mass_sheet. cbn [Geo_Model.translate_rotate moved fst snd].
      f_equal; symmetry; apply is_derive_unique; auto_derive; auto; cbn; lra. }
  cbn [m00 m01 m10 m11]. rewrite Rabs_right by lra. destruct (Req_EM_T (/ 2 * / 2 - 0 * 0) 0); [lra|]. f_equal. lra.
Qed.
Lemma hyps_fd a s : forall i j : nat, ad_exact2 (fun b => at_position sheet_lens b (INR j) (INR i)) (t_deflection_mass_sheet (V 2) (V 3) (V 4) (Cst (INR j)) (Cst (INR i))) a s.
Proof.
  intros i j. split; (apply ad_of_loc; [apply smooth_ok; cbn; tauto|apply filter_forall; intros h; reflexivity]).
Qed.
