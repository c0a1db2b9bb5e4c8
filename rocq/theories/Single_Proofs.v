(** * Below the critical strength the lens equation is one to one *)
From Coq Require Import Reals Lra Lia Psatz List.
From Coquelicot Require Import Coquelicot.
From Verif Require Import RealFun Calc2 Geo_Model Lens_Spec Lens_Lib LensBasic_Model LensBasic_Proofs LensBase_Model LensBase_Proofs Soft_Proofs Project_Proofs Round_Proofs First_Spec First_Proofs First2_Proofs First3_Proofs First4_Proofs Single_Spec.
Import ListNotations.
Local Open Scope R_scope.

(** the deflections at two points differ by no more than [k] times their distance, along the line that joins them *)
Definition spreads (k : R) (a : R -> R -> R * R) : Prop := forall x y x' y',
  (fst (a x' y') - fst (a x y)) * (x' - x) + (snd (a x' y') - snd (a x y)) * (y' - y) <= k * ((x' - x) ^ 2 + (y' - y) ^ 2).
Lemma spreads_plus j k a b : spreads j a -> spreads k b -> spreads (j + k) (fun x y => (fst (a x y) + fst (b x y), snd (a x y) + snd (b x y))).
Proof. intros A B x y x' y'. cbn [fst snd]. specialize (A x y x' y'). specialize (B x y x' y'). lra. Qed.
Lemma spreads_one k a x y x' y' : spreads k a -> k < 1 -> raytrace a x y = raytrace a x' y' -> x' = x /\ y' = y.
Proof.
  intros S K H. specialize (S x y x' y'). unfold raytrace in H. destruct (a x y) as [ax ay], (a x' y') as [bx by_]. cbn [fst snd] in S. inversion H.
  assert (E1 : bx - ax = x' - x) by lra. assert (E2 : by_ - ay = y' - y) by lra. rewrite E1, E2 in S.
  assert (X := pow2_ge_0 (x' - x)). assert (Y := pow2_ge_0 (y' - y)).
  assert (Z : (x' - x) ^ 2 + (y' - y) ^ 2 <= 0) by nra.
  assert (X0 : (x' - x) ^ 2 = 0) by lra. assert (Y0 : (y' - y) ^ 2 = 0) by lra. rewrite <- Rsqr_pow2 in X0, Y0. apply Rsqr_0_uniq in X0. apply Rsqr_0_uniq in Y0. lra.
Qed.
(** at a point where the deflection is differentiable *)
Lemma half_derive (g : R -> R) l : is_derive g 0 l -> (forall t, 0 < t -> g t <= g 0) -> l <= 0.
Proof.
  intros D H. destruct (Rle_dec l 0) as [E|E]; [exact E|exfalso]. apply is_derive_Reals in D. destruct (D (l / 2) ltac:(lra)) as [d Hd]. assert (P := cond_pos d).
  assert (A := Hd (d / 2) ltac:(lra) ltac:(rewrite Rabs_right; lra)). rewrite Rplus_0_l in A. apply Rabs_def2 in A. assert (B := H (d / 2) ltac:(lra)).
  assert (C : (g (d / 2) - g 0) / (d / 2) <= 0). { apply (Rmult_le_reg_r (d / 2)); [lra|]. unfold Rdiv at 1. rewrite Rmult_assoc, Rinv_l by lra. lra. }
  lra.
Qed.
Lemma spreads_form k a x y axx axy ayx ayy : spreads k a -> D2 (fun u v => fst (a u v)) x y axx axy -> D2 (fun u v => snd (a u v)) x y ayx ayy ->
  forall u v, axx * u ^ 2 + (axy + ayx) * u * v + ayy * v ^ 2 <= k * (u ^ 2 + v ^ 2).
Proof.
  intros S D1 D2' u v.
  assert (H : (axx * u + axy * v) * u + (ayx * u + ayy * v) * v - k * (u ^ 2 + v ^ 2) <= 0).
  { apply (half_derive (fun t => (fst (a (x + t * u) (y + t * v)) * u + snd (a (x + t * u) (y + t * v)) * v) - t * (k * (u ^ 2 + v ^ 2)))).
    - apply (is_derive_minus (fun t => fst (a (x + t * u) (y + t * v)) * u + snd (a (x + t * u) (y + t * v)) * v) (fun t => t * (k * (u ^ 2 + v ^ 2)))); [|auto_derive; [exact Logic.I|ring]].
      apply (is_derive_plus (fun t => fst (a (x + t * u) (y + t * v)) * u) (fun t => snd (a (x + t * u) (y + t * v)) * v)).
      + apply (is_derive_scal_l (fun t => fst (a (x + t * u) (y + t * v))) 0 (axx * u + axy * v) u).
        apply (D2_curve (fun u v => fst (a u v)) (fun t => x + t * u) (fun t => y + t * v)); [replace (x + 0 * u) with x by ring; replace (y + 0 * v) with y by ring; exact D1| |]; auto_derive; auto; ring.
      + apply (is_derive_scal_l (fun t => snd (a (x + t * u) (y + t * v))) 0 (ayx * u + ayy * v) v).
        apply (D2_curve (fun u v => snd (a u v)) (fun t => x + t * u) (fun t => y + t * v)); [replace (x + 0 * u) with x by ring; replace (y + 0 * v) with y by ring; exact D2'| |]; auto_derive; auto; ring.
    - intros t T. replace (x + 0 * u) with x by ring. replace (y + 0 * v) with y by ring. assert (Q := S x y (x + t * u) (y + t * v)).
      replace (x + t * u - x) with (t * u) in Q by ring. replace (y + t * v - y) with (t * v) in Q by ring.
      apply (Rmult_le_reg_l t); [exact T|]. nra. }
  nra.
Qed.
Lemma sheet_spreads x0 y0 k : spreads k (reduced_deflection_angle_mass_sheet x0 y0 k).
Proof. intros x y x' y'. unfold reduced_deflection_angle_mass_sheet, translate_rotate. cbn [fst snd]. right. ring. Qed.
Lemma shear_spreads x0 y0 a b : spreads (sqrt (a ^ 2 + b ^ 2)) (reduced_deflection_angle_external_shear x0 y0 a b).
Proof.
  intros x y x' y'. unfold reduced_deflection_angle_external_shear, translate_rotate. cbn [fst snd]. set (X := x' - x). set (Y := y' - y).
  replace ((a * (x' - x0) + b * (y' - y0) - (a * (x - x0) + b * (y - y0))) * X + (b * (x' - x0) - a * (y' - y0) - (b * (x - x0) - a * (y - y0))) * Y) with (a * (X ^ 2 - Y ^ 2) + b * (2 * X * Y)) by (unfold X, Y; ring).
  eapply Rle_trans; [apply Rle_abs|]. apply Rsqr_incr_0_var; [|apply Rmult_le_pos; [apply sqrt_pos|nra]]. rewrite <- Rsqr_abs. unfold Rsqr.
  replace (sqrt (a ^ 2 + b ^ 2) * (X ^ 2 + Y ^ 2) * (sqrt (a ^ 2 + b ^ 2) * (X ^ 2 + Y ^ 2))) with (sqrt (a ^ 2 + b ^ 2) ^ 2 * (X ^ 2 + Y ^ 2) ^ 2) by ring. rewrite pow2_sqrt by nra.
  assert (Q : 0 <= (a * (2 * X * Y) - b * (X ^ 2 - Y ^ 2)) ^ 2) by apply pow2_ge_0. nra.
Qed.

(** ** The elliptical lens *)
Section Sie.
Variables q Rein s : R.
Hypothesis Hq : 0 < q < 1.
Hypothesis HR : 0 < Rein.
Hypothesis Hs : 0 < s.
Let f := sqrt (1 - q ^ 2).
Let K := Rein * sqrt q / f.
Let psi (x y : R) := sqrt (q ^ 2 * (x ^ 2 + s ^ 2) + y ^ 2).
Let D (x y : R) := (psi x y + s) ^ 2 + (1 - q ^ 2) * x ^ 2.
Let ax (x y : R) := K * atan (f * x / (psi x y + s)).
Let ay (x y : R) := K * atanh (f * y / (psi x y + q ^ 2 * s)).
Let c := Rein * sqrt q.
Lemma strength_eq : c / (q * (1 + q) * s) = Rein / (sqrt q * (1 + q) * s).
Proof. assert (Q := sqrt_lt_R0 q ltac:(lra)). unfold c. rewrite <- (pow2_sqrt q) at 2 by lra. field. repeat split; lra. Qed.
Lemma c_pos : 0 < c.
Proof. apply Rmult_lt_0_compat; [exact HR|apply sqrt_lt_R0; lra]. Qed.
(** the polynomial inequality behind it *)
Lemma poly w d : q * s <= w -> 0 < d -> q ^ 2 * d <= (w + q ^ 2 * s) ^ 2 -> q * (1 + q) * s * (d - s * w - q ^ 2 * s ^ 2) <= w * d.
Proof.
  intros W Hd B. assert (P : 0 < w + q ^ 2 * s) by nra. destruct (Rle_dec (q * (1 + q) * s) w) as [E|E].
  - assert (0 <= (w - q * (1 + q) * s) * d) by (apply Rmult_le_pos; lra). assert (0 <= q * (1 + q) * s * (s * w + q ^ 2 * s ^ 2)) by (repeat apply Rmult_le_pos; try nra). nra.
  - set (k := q * (1 + q) * s - w). assert (Hk : 0 < k) by (unfold k; lra).
    assert (A : q ^ 2 * (k * d) <= k * (w + q ^ 2 * s) ^ 2) by (replace (q ^ 2 * (k * d)) with (k * (q ^ 2 * d)) by ring; apply Rmult_le_compat_l; lra).
    assert (F : k * (w + q ^ 2 * s) <= q ^ 3 * (1 + q) * s ^ 2) by (unfold k; assert (0 <= w * (w - q * s)) by (apply Rmult_le_pos; nra); nra).
    assert (G : k * (w + q ^ 2 * s) ^ 2 <= q ^ 3 * (1 + q) * s ^ 2 * (w + q ^ 2 * s)) by (replace (k * (w + q ^ 2 * s) ^ 2) with (k * (w + q ^ 2 * s) * (w + q ^ 2 * s)) by ring; apply Rmult_le_compat_r; lra).
    assert (I : k * d <= q * (1 + q) * s ^ 2 * (w + q ^ 2 * s)).
    { apply (Rmult_le_reg_l (q ^ 2)); [nra|]. eapply Rle_trans; [exact A|]. eapply Rle_trans; [exact G|]. right. ring. }
    unfold k in I. nra.
Qed.
Lemma form_le x y u v : (K * f * (psi x y + s - q ^ 2 * x ^ 2 / psi x y) / D x y) * u ^ 2 + 2 * (- K * f * x * y / psi x y / D x y) * u * v
  + (K * f * (psi x y + q ^ 2 * s - y ^ 2 / psi x y) / (q ^ 2 * D x y)) * v ^ 2 <= c / (q * (1 + q) * s) * (u ^ 2 + v ^ 2).
Proof.
  assert (H0 : x <> 0 \/ y <> 0 \/ 0 < s) by auto. assert (S0 : 0 <= s) by lra.
  assert (Hp := sie_psi_pos q s Hq x y H0). assert (HD := sie_D_pos q s Hq S0 x y H0). assert (HE := sie_E q s Hq x y H0). assert (Hpp := sie_psi_sq q s Hq x y H0). assert (Hf := sie_f_pos q Hq). cbv beta in Hp, HD, HE, Hpp.
  change (sqrt (q ^ 2 * (x ^ 2 + s ^ 2) + y ^ 2)) with (psi x y) in *. change ((psi x y + s) ^ 2 + (1 - q ^ 2) * x ^ 2) with (D x y) in *. fold f in HE, Hf.
  assert (HK : K * f = c) by (unfold K, c; field; lra). assert (C := c_pos).
  assert (W : q * s <= psi x y). { apply Rsqr_incr_0_var; [|lra]. unfold Rsqr. replace (psi x y * psi x y) with (psi x y ^ 2) by ring. rewrite Hpp. nra. }
  assert (B : q ^ 2 * D x y <= (psi x y + q ^ 2 * s) ^ 2) by (assert (0 <= f ^ 2 * y ^ 2) by (apply Rmult_le_pos; apply pow2_ge_0); lra).
  assert (P := poly (psi x y) (D x y) W HD B).
  assert (DT : D x y = (1 + q ^ 2) * s ^ 2 + x ^ 2 + y ^ 2 + 2 * s * psi x y) by (unfold D; replace ((psi x y + s) ^ 2) with (psi x y ^ 2 + 2 * s * psi x y + s ^ 2) by ring; rewrite Hpp; ring).
  set (w := psi x y) in *. set (d := D x y) in *. clearbody w d.
  assert (M : (K * f * (w + s - q ^ 2 * x ^ 2 / w) / d) * u ^ 2 + 2 * (- K * f * x * y / w / d) * u * v + (K * f * (w + q ^ 2 * s - y ^ 2 / w) / (q ^ 2 * d)) * v ^ 2
     = c / (w * d) * ((s * w + (q ^ 2 * s ^ 2 + y ^ 2)) * u ^ 2 - 2 * x * y * u * v + (s * w + (s ^ 2 + x ^ 2)) * v ^ 2)).
  { replace (- K * f) with (- c) by lra. rewrite HK.
    replace (w + s - q ^ 2 * x ^ 2 / w) with ((s * w + (q ^ 2 * s ^ 2 + y ^ 2)) / w) by (replace (q ^ 2 * s ^ 2 + y ^ 2) with (w ^ 2 - q ^ 2 * x ^ 2) by lra; field; lra).
    replace (w + q ^ 2 * s - y ^ 2 / w) with (q ^ 2 * (s * w + (s ^ 2 + x ^ 2)) / w) by (replace (y ^ 2) with (w ^ 2 - q ^ 2 * (x ^ 2 + s ^ 2)) by lra; field; lra).
    field. repeat split; lra. }
  rewrite M. clear M.
  assert (N : (s * w + (q ^ 2 * s ^ 2 + y ^ 2)) * u ^ 2 - 2 * x * y * u * v + (s * w + (s ^ 2 + x ^ 2)) * v ^ 2 <= (d - s * w - q ^ 2 * s ^ 2) * (u ^ 2 + v ^ 2)).
  { rewrite DT. assert (Q1 : 0 <= (x * u + y * v) ^ 2) by apply pow2_ge_0. assert (Q2 : 0 <= (1 - q ^ 2) * s ^ 2 * u ^ 2) by (apply Rmult_le_pos; [apply Rmult_le_pos|]; try apply pow2_ge_0; nra). nra. }
  assert (U : 0 <= u ^ 2 + v ^ 2) by nra.
  assert (I : c / (w * d) * ((d - s * w - q ^ 2 * s ^ 2)) <= c / (q * (1 + q) * s)).
  { assert (Y1 : 0 < w * d) by (apply Rmult_lt_0_compat; lra). assert (Y2 : 0 < q * (1 + q) * s) by (repeat apply Rmult_lt_0_compat; lra).
    apply (Rmult_le_reg_l (w * d)); [exact Y1|]. apply (Rmult_le_reg_l (q * (1 + q) * s)); [exact Y2|].
    replace (q * (1 + q) * s * (w * d * (c / (w * d) * (d - s * w - q ^ 2 * s ^ 2)))) with (c * (q * (1 + q) * s * (d - s * w - q ^ 2 * s ^ 2))) by (field; lra).
    replace (q * (1 + q) * s * (w * d * (c / (q * (1 + q) * s)))) with (c * (w * d)) by (field; repeat split; lra). apply Rmult_le_compat_l; lra. }
  apply (Rle_trans _ (c / (w * d) * ((d - s * w - q ^ 2 * s ^ 2) * (u ^ 2 + v ^ 2)))).
  - apply Rmult_le_compat_l; [|exact N]. apply Rlt_le, Rdiv_lt_0_compat; [lra|apply Rmult_lt_0_compat; lra].
  - rewrite <- Rmult_assoc. apply Rmult_le_compat_r; [exact U|exact I].
Qed.
Lemma centred_spreads : spreads (c / (q * (1 + q) * s)) (fun x y => (ax x y, ay x y)).
Proof.
  intros x y x' y'. cbn [fst snd]. set (u := x' - x). set (v := y' - y). assert (S0 : 0 <= s) by lra.
  assert (Der : forall t, is_derive (fun t => ax (x + t * u) (y + t * v) * u + ay (x + t * u) (y + t * v) * v) t
    ((K * f * (psi (x + t * u) (y + t * v) + s - q ^ 2 * (x + t * u) ^ 2 / psi (x + t * u) (y + t * v)) / D (x + t * u) (y + t * v)) * u ^ 2 + 2 * (- K * f * (x + t * u) * (y + t * v) / psi (x + t * u) (y + t * v) / D (x + t * u) (y + t * v)) * u * v
     + (K * f * (psi (x + t * u) (y + t * v) + q ^ 2 * s - (y + t * v) ^ 2 / psi (x + t * u) (y + t * v)) / (q ^ 2 * D (x + t * u) (y + t * v))) * v ^ 2)).
  { intros t. assert (H0 : x + t * u <> 0 \/ y + t * v <> 0 \/ 0 < s) by auto.
    set (X := x + t * u) in *. set (Y := y + t * v) in *.
    assert (A : D2 ax X Y (K * f * (psi X Y + s - q ^ 2 * X ^ 2 / psi X Y) / D X Y) (- K * f * X * Y / psi X Y / D X Y)) by exact (sie_D2_ax q Rein s Hq S0 X Y H0).
    assert (B : D2 ay X Y (- K * f * X * Y / psi X Y / D X Y) (K * f * (psi X Y + q ^ 2 * s - Y ^ 2 / psi X Y) / (q ^ 2 * D X Y))) by exact (sie_D2_ay q Rein s Hq S0 X Y H0).
    set (m00 := K * f * (psi X Y + s - q ^ 2 * X ^ 2 / psi X Y) / D X Y) in *. set (m01 := - K * f * X * Y / psi X Y / D X Y) in *. set (m11 := K * f * (psi X Y + q ^ 2 * s - Y ^ 2 / psi X Y) / (q ^ 2 * D X Y)) in *.
    replace (m00 * u ^ 2 + 2 * m01 * u * v + m11 * v ^ 2) with ((m00 * u + m01 * v) * u + (m01 * u + m11 * v) * v) by ring.
    apply (is_derive_plus (fun t => ax (x + t * u) (y + t * v) * u) (fun t => ay (x + t * u) (y + t * v) * v)).
    - apply (is_derive_scal_l (fun t => ax (x + t * u) (y + t * v)) t _ u).
      apply (D2_curve ax (fun t => x + t * u) (fun t => y + t * v)); [exact A| |]; auto_derive; auto; ring.
    - apply (is_derive_scal_l (fun t => ay (x + t * u) (y + t * v)) t _ v).
      apply (D2_curve ay (fun t => x + t * u) (fun t => y + t * v)); [exact B| |]; auto_derive; auto; ring. }
  destruct (MVT_gen (fun t => ax (x + t * u) (y + t * v) * u + ay (x + t * u) (y + t * v) * v) 0 1 _ (fun t _ => Der t)) as [t [_ T]].
  { intros t _. apply continuity_pt_filterlim. apply (ex_derive_continuous (fun t => ax (x + t * u) (y + t * v) * u + ay (x + t * u) (y + t * v) * v)). eexists. apply Der. }
  replace (x + 1 * u) with x' in T by (unfold u; ring). replace (y + 1 * v) with y' in T by (unfold v; ring). replace (x + 0 * u) with x in T by ring. replace (y + 0 * v) with y in T by ring.
  replace ((ax x' y' - ax x y) * u + (ay x' y' - ay x y) * v) with (ax x' y' * u + ay x' y' * v - (ax x y * u + ay x y * v)) by ring. rewrite T. rewrite Rminus_0_r, Rmult_1_r. apply form_le.
Qed.
Lemma sie_spreads x0 y0 phi : spreads (Rein / (sqrt q * (1 + q) * s)) (reduced_deflection_angle_sie x0 y0 q phi Rein s).
Proof.
  intros x y x' y'. rewrite <- strength_eq.
  set (X := (x - x0) * cos phi + (y - y0) * sin phi). set (Y := (y - y0) * cos phi - (x - x0) * sin phi).
  set (X' := (x' - x0) * cos phi + (y' - y0) * sin phi). set (Y' := (y' - y0) * cos phi - (x' - x0) * sin phi).
  assert (H := centred_spreads X Y X' Y'). cbn [fst snd] in H. assert (U := sin2_cos2 phi). unfold Rsqr in U.
  assert (V : forall a b, reduced_deflection_angle_sie x0 y0 q phi Rein s a b = derotate (ax ((a - x0) * cos phi + (b - y0) * sin phi) ((b - y0) * cos phi - (a - x0) * sin phi)) (ay ((a - x0) * cos phi + (b - y0) * sin phi) ((b - y0) * cos phi - (a - x0) * sin phi)) (Some phi)).
  { intros a b. unfold reduced_deflection_angle_sie. destruct (Req_EM_T q 1) as [E|_]; [lra|]. reflexivity. }
  rewrite (V x y), (V x' y'). fold X Y X' Y'. cbn [derotate]. cbv zeta. cbn [fst snd].
  replace ((x' - x) ^ 2 + (y' - y) ^ 2) with ((X' - X) ^ 2 + (Y' - Y) ^ 2); [|unfold X, Y, X', Y'; transitivity (((x' - x) ^ 2 + (y' - y) ^ 2) * (sin phi * sin phi + cos phi * cos phi)); [ring|rewrite U; ring]].
  eapply Rle_trans; [|exact H]. right. set (A := ax X Y). set (B := ay X Y). set (A' := ax X' Y'). set (B' := ay X' Y'). clearbody A B A' B'. unfold X, Y, X', Y'. ring.
Qed.
End Sie.

(** ** Scenes *)
Lemma piece_spreads z p : ordinary p -> diffuse p -> spreads (strength p) (reduced_deflection_angle (lens_of z p)).
Proof.
  destruct p as [x0 y0 k|x0 y0 a b|x0 y0 Rein|x0 y0 q phi Rein s|x0 y0 Rein]; cbn [ordinary diffuse strength lens_of reduced_deflection_angle]; intros H D; try contradiction.
  - apply sheet_spreads.
  - apply shear_spreads.
  - destruct H as (Hq & HR & _). apply sie_spreads; assumption.
Qed.
Lemma piece_smooth z p : ordinary p -> diffuse p -> forall x y, smooth_at (lens_of z p) x y.
Proof.
  destruct p as [x0 y0 k|x0 y0 a b|x0 y0 Rein|x0 y0 q phi Rein s|x0 y0 Rein]; cbn [ordinary diffuse]; intros H D x y; try contradiction.
  - apply consistent_smooth; [intros; apply mass_sheet_consistent|cbn; unfold convergence_mass_sheet; lra].
  - apply consistent_smooth; [intros; apply external_shear_consistent|cbn; unfold convergence_external_shear; lra].
  - destruct H as (Hq & HR & [Hs|Hs]); [lra|]. apply consistent_smooth; [|apply sie_kappa; auto]. intros u v. apply sie_consistent; [exact Hq|auto|]. right; right; lra.
Qed.
Section Scene.
Variables (z : R) (l : list piece).
Hypothesis Ord : forall p, In p l -> ordinary p.
Hypothesis Dif : forall p, In p l -> diffuse p.
Let L := singleplane z (map (lens_of z) l).
Lemma scene_spreads : spreads (total_strength l) (reduced_deflection_angle L).
Proof.
  unfold L. clear L. induction l as [|p t IH].
  - intros x y x' y'. cbn. lra.
  - cbn [map]. rewrite singleplane_cons. apply (spreads_plus (strength p) (total_strength t)); [apply piece_spreads; [apply Ord|apply Dif]; left; reflexivity|].
    apply IH; intros; [apply Ord|apply Dif]; right; assumption.
Qed.
Lemma scene_smooth x y : smooth_at L x y.
Proof.
  unfold L. clear L. induction l as [|p t IH].
  - apply consistent_smooth; [intros u v; apply singleplane_consistent; intros r []|cbn; lra].
  - cbn [map]. rewrite singleplane_cons. apply smooth_plus; [apply piece_smooth; [apply Ord|apply Dif]; left; reflexivity|].
    apply IH; intros; [apply Ord|apply Dif]; right; assumption.
Qed.
Lemma scene_clear x y : clear l x y.
Proof. intros p I. specialize (Dif p I). destruct p; cbn [diffuse off_centre] in *; try exact Logic.I; try contradiction. intros E; lra. Qed.
Lemma focusing_strength : total_focusing l <= total_strength l.
Proof.
  clear L. induction l as [|p t IH]; [right; reflexivity|]. unfold total_focusing, total_strength in *. cbn [map fold_right]. apply Rplus_le_compat.
  - specialize (Ord p (or_introl eq_refl)). specialize (Dif p (or_introl eq_refl)). destruct p as [| | |? ? q ? Rein s|]; cbn [ordinary diffuse focusing strength] in *; try lra.
    apply Rlt_le, Rdiv_lt_0_compat; [lra|]. repeat apply Rmult_lt_0_compat; try lra. apply sqrt_lt_R0; lra.
  - apply IH; intros; [apply Ord|apply Dif]; right; assumption.
Qed.
Hypothesis Weak : total_strength l < 1.
Lemma one_image bx by_ : exists x y, image L l bx by_ x y /\ forall x' y', image L l bx by_ x' y' -> x' = x /\ y' = y.
Proof.
  destruct (some_first z l bx by_ Ord) as (E & x & y & _ & _ & I); [assert (F := focusing_strength); lra|]. exists x, y. split; [exact I|].
  intros x' y' I'. apply (spreads_one _ _ _ _ _ _ scene_spreads Weak). transitivity (bx, by_); [exact (proj2 I)|symmetry; exact (proj2 I')].
Qed.
Lemma bounded_brightness x y : (exists m, magnification (reduced_deflection_angle L) x y = Some m /\ 1 <= m <= / (1 - total_strength l) ^ 2) /\ not_mirrored (jacfwd (raytrace (reduced_deflection_angle L)) x y).
Proof.
  set (k := total_strength l) in *.
  assert (Lo : not_dimmed (magnification (reduced_deflection_angle L) x y) /\ not_mirrored (jacfwd (raytrace (reduced_deflection_angle L)) x y)).
  { destruct (raytrace (reduced_deflection_angle L) x y) as [bx by_] eqn:B.
    destruct (some_first z l bx by_ Ord) as (E & u & v & Gd & F & I); [assert (F := focusing_strength); fold k in F; lra|].
    assert (U : u = x /\ v = y) by (apply (spreads_one _ _ _ _ _ _ scene_spreads Weak); transitivity (bx, by_); [exact B|symmetry; exact (proj2 I)]). destruct U as [-> ->].
    apply (first_bright z l bx by_ E x y (proj1 Gd) F). }
  destruct (scene_smooth x y) as (_ & (axx & axy & ayx & ayy & D1 & D2' & Sy & _) & _).
  assert (Q := spreads_form k _ x y _ _ _ _ scene_spreads D1 D2').
  destruct (quadratic_nonneg (k - axx) axy (k - ayy)) as (A & D & Det). { intros u v. specialize (Q u v). rewrite <- Sy in Q. nra. }
  destruct (D2_raytrace _ _ _ _ _ _ _ D1 D2') as [R1 R2]. destruct Lo as [Lo Mi]. split; [|exact Mi]. clear Mi. revert Lo.
  unfold magnification, pixel_magnification. rewrite (jacfwd_D2 _ _ _ _ _ _ _ R1 R2). cbn [m00 m01 m10 m11]. cbv zeta.
  assert (Big : (1 - k) ^ 2 <= (1 - axx) * (1 - ayy) - (0 - axy) * (0 - ayx)).
  { rewrite <- Sy. assert (0 <= (1 - k) * (k - axx)) by (apply Rmult_le_pos; lra). assert (0 <= (1 - k) * (k - ayy)) by (apply Rmult_le_pos; lra). nra. }
  assert (Pk : 0 < (1 - k) ^ 2) by (apply pow_lt; lra). rewrite Rabs_right by lra.
  destruct (Req_EM_T _ 0) as [Z|Z]; [lra|]. cbn [not_dimmed]. intros Lo. eexists. split; [reflexivity|]. split; [exact Lo|]. unfold Rdiv. rewrite Rmult_1_l. apply Rinv_le_contravar; assumption.
Qed.
End Scene.

(** ** Above it *)
Lemma atanh_above u : 0 <= u < 1 -> u <= atanh u.
Proof.
  intros [U V]. destruct (MVT_gen atanh 0 u (fun t => / (1 - t ^ 2))) as (t & T & H).
  - rewrite Rmin_left, Rmax_right by lra. intros t T. apply is_derive_atanh. lra.
  - rewrite Rmin_left, Rmax_right by lra. intros t T. apply continuity_pt_filterlim, (ex_derive_continuous atanh). eexists. apply is_derive_atanh. lra.
  - rewrite Rmin_left, Rmax_right in T by lra. rewrite atanh_0, !Rminus_0_r in H. rewrite H. rewrite <- (Rmult_1_l u) at 1. apply Rmult_le_compat_r; [exact U|].
    rewrite <- Rinv_1. apply Rinv_le_contravar; nra.
Qed.
Section Strong.
Variables x0 y0 q phi Rein s : R.
Hypothesis Hq : 0 < q < 1.
Hypothesis HR : 0 < Rein.
Hypothesis Hs : 1 / 10 ^ 6 <= s.
Hypothesis St : 1 < Rein / (sqrt q * (1 + q) * s).
Let f := sqrt (1 - q ^ 2).
Let K := Rein * sqrt q / f.
Let c := Rein * sqrt q.
Let psi (Y : R) := sqrt (q ^ 2 * (0 ^ 2 + s ^ 2) + Y ^ 2).
Let ay (Y : R) := K * atanh (f * Y / (psi Y + q ^ 2 * s)).
Lemma c_big : q * s + q ^ 2 * s < c.
Proof.
  rewrite <- (strength_eq q Rein s Hq ltac:(lra)) in St. fold c in St. assert (P : 0 < q * (1 + q) * s) by (repeat apply Rmult_lt_0_compat; lra).
  apply (Rmult_lt_compat_r (q * (1 + q) * s)) in St; [|exact P]. replace (c / (q * (1 + q) * s) * (q * (1 + q) * s)) with c in St by (field; repeat split; lra). lra.
Qed.
Lemma axis_root : exists Y, 0 < Y /\ ay Y = Y.
Proof.
  assert (C := c_big). assert (S0 : 0 < s) by lra. assert (F := f_range q Hq). fold f in F. assert (KP := K_pos q Rein Hq HR). change (0 < K) in KP.
  assert (Qs : 0 < q * s) by (apply Rmult_lt_0_compat; lra). assert (Qs2 : 0 < q ^ 2 * s) by (apply Rmult_lt_0_compat; [apply pow_lt|]; lra).
  set (g := c - q ^ 2 * s) in *. assert (G : q * s < g) by (unfold g; lra).
  assert (W : 0 < g ^ 2 - (q * s) ^ 2) by nra. set (Y1 := sqrt (g ^ 2 - (q * s) ^ 2) / 2). assert (P1 : 0 < Y1) by (unfold Y1; assert (A := sqrt_lt_R0 _ W); lra).
  assert (Ps : forall Y, 0 < psi Y) by (intros Y; unfold psi; apply sqrt_lt_R0; assert (A := pow2_ge_0 Y); assert (0 < q ^ 2 * (0 ^ 2 + s ^ 2)) by (apply Rmult_lt_0_compat; nra); lra).
  set (Y2 := Y1 + K * / (1 - f ^ 2)).
  assert (FI : 0 < / (1 - f ^ 2)) by (apply Rinv_0_lt_compat; nra).
  assert (P2 : Y1 < Y2) by (unfold Y2; assert (0 < K * / (1 - f ^ 2)) by (apply Rmult_lt_0_compat; lra); lra).
  assert (Arg : forall Y, Rabs (f * Y / (psi Y + q ^ 2 * s)) <= f) by (intros Y; apply (arg_le q Rein s Hq (or_intror Hs) 0 Y)).
  assert (L1 : Y1 < ay Y1).
  { assert (T : psi Y1 < g). { rewrite <- (sqrt_pow2 g) by lra. unfold psi. apply sqrt_lt_1_alt. split; [nra|]. unfold Y1. replace ((sqrt (g ^ 2 - (q * s) ^ 2) / 2) ^ 2) with (sqrt (g ^ 2 - (q * s) ^ 2) ^ 2 / 4) by field. rewrite pow2_sqrt by lra. lra. }
    assert (U : 0 <= f * Y1 / (psi Y1 + q ^ 2 * s)) by (apply Rlt_le, Rdiv_lt_0_compat; [apply Rmult_lt_0_compat; lra|specialize (Ps Y1); lra]).
    assert (V := Arg Y1). rewrite Rabs_right in V by lra. assert (A := atanh_above _ (conj U (Rle_lt_trans _ _ _ V (proj2 F)))).
    apply Rlt_le_trans with (K * (f * Y1 / (psi Y1 + q ^ 2 * s))); [|apply Rmult_le_compat_l; [lra|exact A]].
    replace (K * (f * Y1 / (psi Y1 + q ^ 2 * s))) with (c * Y1 / (psi Y1 + q ^ 2 * s)) by (unfold K, c; field; split; [specialize (Ps Y1); lra|lra]).
    apply (Rmult_lt_reg_r (psi Y1 + q ^ 2 * s)); [specialize (Ps Y1); lra|]. unfold Rdiv. rewrite Rmult_assoc, Rinv_l by (specialize (Ps Y1); lra). unfold g in T. nra. }
  assert (L2 : ay Y2 < Y2).
  { assert (A := atanh_le q Hq _ (Arg Y2)). fold f in A. assert (A' := Rle_abs (atanh (f * Y2 / (psi Y2 + q ^ 2 * s)))). unfold ay. apply Rle_lt_trans with (K * / (1 - f ^ 2)); [apply Rmult_le_compat_l; lra|unfold Y2; lra]. }
  destruct (IVT_gen (fun Y => ay Y - Y) Y1 Y2 0) as (Y & HY & E).
  - intros Y. apply continuity_pt_filterlim. apply (ex_derive_continuous (fun Y => ay Y - Y)).
    eexists. apply (is_derive_minus ay (fun Y => Y)); [|apply (is_derive_id (K := R_AbsRing))].
    eapply (D2_curve (fun x y => K * atanh (f * y / (sqrt (q ^ 2 * (x ^ 2 + s ^ 2) + y ^ 2) + q ^ 2 * s))) (fun _ => 0) (fun t => t)); [exact (sie_D2_ay q Rein s Hq (Rlt_le _ _ S0) 0 Y (or_intror (or_intror S0)))|apply (is_derive_const (K := R_AbsRing) (V := R_NormedModule))|apply (is_derive_id (K := R_AbsRing))].
  - rewrite Rmin_right, Rmax_left by lra. lra.
  - rewrite Rmin_left, Rmax_right in HY by lra. exists Y. split; lra.
Qed.
Lemma axis_odd Y : ay (- Y) = - ay Y.
Proof.
  assert (F := f_range q Hq). fold f in F. assert (A := arg_le q Rein s Hq (or_intror Hs) 0 Y). change (Rabs (f * Y / (psi Y + q ^ 2 * s)) <= f) in A. apply Rabs_le_between in A.
  unfold ay. assert (P : psi (- Y) = psi Y) by (unfold psi; f_equal; ring). rewrite P.
  replace (f * - Y / (psi Y + q ^ 2 * s)) with (- (f * Y / (psi Y + q ^ 2 * s))) by (unfold Rdiv; ring). rewrite atanh_odd by lra. ring.
Qed.
Lemma axis_image Y : ay Y = Y -> raytrace (reduced_deflection_angle_sie x0 y0 q phi Rein s) (x0 - Y * sin phi) (y0 + Y * cos phi) = (x0, y0).
Proof.
  intros H. unfold raytrace, reduced_deflection_angle_sie. destruct (Req_EM_T q 1) as [E|_]; [lra|]. unfold translate_rotate. cbv zeta. 
  assert (U := sin2_cos2 phi). unfold Rsqr in U.
  replace ((x0 - Y * sin phi - x0) * cos phi + (y0 + Y * cos phi - y0) * sin phi) with 0 by ring.
  replace ((y0 + Y * cos phi - y0) * cos phi - (x0 - Y * sin phi - x0) * sin phi) with Y by (transitivity (Y * (sin phi * sin phi + cos phi * cos phi)); [rewrite U; ring|ring]).
  unfold derotate. cbv zeta. fold f. fold (psi Y). fold K. fold (ay Y). rewrite H. replace (f * 0 / (psi Y + s)) with 0 by (unfold Rdiv; ring). rewrite atan_0. f_equal; ring.
Qed.
Lemma three_images z : let l := [Elliptical x0 y0 q phi Rein s] in let L := singleplane z (map (lens_of z) l) in
  exists x1 y1 x2 y2 x3 y3, (image L l x0 y0 x1 y1 /\ image L l x0 y0 x2 y2 /\ image L l x0 y0 x3 y3) /\
    (x1, y1) <> (x2, y2) /\ (x2, y2) <> (x3, y3) /\ (x1, y1) <> (x3, y3).
Proof.
  intros l L. destruct axis_root as (Y & PY & E).
  assert (Im : forall T, ay T = T -> image L l x0 y0 (x0 - T * sin phi) (y0 + T * cos phi)).
  { intros T HT. split; [intros p [<-|[]]; cbn; lra|]. rewrite <- (axis_image T HT). unfold raytrace. change (reduced_deflection_angle L) with (singleplane_deflection [lens_of z (Elliptical x0 y0 q phi Rein s)]).
    unfold singleplane_deflection. cbn [fold_left lens_of reduced_deflection_angle fst snd].
    destruct (reduced_deflection_angle_sie x0 y0 q phi Rein s (x0 - T * sin phi) (y0 + T * cos phi)) as [a b]. f_equal; ring. }
  assert (Di : forall T U, T <> U -> (x0 - T * sin phi, y0 + T * cos phi) <> (x0 - U * sin phi, y0 + U * cos phi)).
  { intros T U N H. inversion H. assert (V := sin2_cos2 phi). unfold Rsqr in V. assert (A : (T - U) * sin phi = 0) by lra. assert (B : (T - U) * cos phi = 0) by lra.
    apply Rmult_integral in A. apply Rmult_integral in B. destruct A as [A|A]; [lra|]. destruct B as [B|B]; [lra|]. rewrite A, B in V. lra. }
  exists (x0 - 0 * sin phi), (y0 + 0 * cos phi), (x0 - Y * sin phi), (y0 + Y * cos phi), (x0 - (- Y) * sin phi), (y0 + (- Y) * cos phi).
  split; [split; [|split]; apply Im; [|exact E|rewrite axis_odd, E; reflexivity]|split; [|split]; apply Di; lra].
  unfold ay. replace (f * 0 / (psi 0 + q ^ 2 * s)) with 0 by (unfold Rdiv; ring). rewrite atanh_0. ring.
Qed.
End Strong.
Lemma several_images z x0 y0 q phi Rein s : ordinary (Elliptical x0 y0 q phi Rein s) -> diffuse (Elliptical x0 y0 q phi Rein s) -> 1 < strength (Elliptical x0 y0 q phi Rein s) ->
  let l := [Elliptical x0 y0 q phi Rein s] in let L := singleplane z (map (lens_of z) l) in
  exists x1 y1 x2 y2 x3 y3, (image L l x0 y0 x1 y1 /\ image L l x0 y0 x2 y2 /\ image L l x0 y0 x3 y3) /\
    (x1, y1) <> (x2, y2) /\ (x2, y2) <> (x3, y3) /\ (x1, y1) <> (x3, y3).
Proof.
  cbn [ordinary diffuse strength]. intros (Hq & HR & [Z|Hs]) D S; [lra|]. exact (three_images x0 y0 q phi Rein s Hq HR Hs S z).
Qed.
Definition weak_scene : list piece := [Sheet 0 0 (1 / 10); Shear 0 0 (6 / 100) (8 / 100); Elliptical 2 1 (1 / 4) 1 (1 / 10) 1].
Lemma sqrt_quarter : sqrt (1 / 4) = 1 / 2.
Proof. replace (1 / 4) with ((1 / 2) ^ 2) by field. apply sqrt_pow2. lra. Qed.
Lemma weak_scene_fits : ((forall p, In p weak_scene -> ordinary p) /\ (forall p, In p weak_scene -> diffuse p) /\ total_strength weak_scene < 1) /\
  (ordinary (Elliptical 0 0 (1 / 4) 0 1 (1 / 10)) /\ diffuse (Elliptical 0 0 (1 / 4) 0 1 (1 / 10)) /\ 1 < strength (Elliptical 0 0 (1 / 4) 0 1 (1 / 10))).
Proof.
  split; (split; [|split]).
  - intros p I. repeat (destruct I as [<-|I]; [cbn; lra|]). destruct I.
  - intros p I. repeat (destruct I as [<-|I]; [cbn; lra|]). destruct I.
  - unfold total_strength, weak_scene. cbn [map fold_right strength]. replace ((6 / 100) ^ 2 + (8 / 100) ^ 2) with ((1 / 10) ^ 2) by field. rewrite sqrt_pow2, sqrt_quarter by lra. lra.
  - cbn. lra.
  - cbn. lra.
  - cbn [strength]. rewrite sqrt_quarter. lra.
Qed.
