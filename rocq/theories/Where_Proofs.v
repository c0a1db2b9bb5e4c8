(** * Images are near their source, and a source far from all lenses has one *)
From Coq Require Import Reals Lra Lia Psatz List.
From Coquelicot Require Import Coquelicot.
From Verif Require Import RealFun Calc2 Geo_Model Lens_Spec Lens_Lib LensBasic_Model LensBasic_Proofs LensBase_Model LensBase_Proofs Soft_Proofs Project_Proofs Round_Proofs First_Spec First_Proofs First2_Proofs First3_Proofs First4_Proofs Single_Spec Single_Proofs Where_Spec.
Import ListNotations.
Local Open Scope R_scope.

Definition norm (p : R * R) : R := sqrt (fst p ^ 2 + snd p ^ 2).
Lemma norm_ge p : 0 <= norm p. Proof. apply sqrt_pos. Qed.
Lemma norm_sq p : norm p ^ 2 = fst p ^ 2 + snd p ^ 2.
Proof. apply pow2_sqrt. nra. Qed.
Lemma norm_le p m : 0 <= m -> fst p ^ 2 + snd p ^ 2 <= m ^ 2 -> norm p <= m.
Proof. intros M H. rewrite <- (sqrt_pow2 m M). apply sqrt_le_1_alt, H. Qed.
Lemma norm_ge_of p m : 0 <= m -> m ^ 2 <= fst p ^ 2 + snd p ^ 2 -> m <= norm p.
Proof. intros M H. rewrite <- (sqrt_pow2 m M). apply sqrt_le_1_alt, H. Qed.
Lemma cauchy a b c d : a * c + b * d <= norm (a, b) * norm (c, d).
Proof.
  eapply Rle_trans; [apply Rle_abs|]. apply Rsqr_incr_0_var; [|apply Rmult_le_pos; apply norm_ge]. rewrite <- Rsqr_abs. unfold Rsqr.
  replace (norm (a, b) * norm (c, d) * (norm (a, b) * norm (c, d))) with (norm (a, b) ^ 2 * norm (c, d) ^ 2) by ring. rewrite !norm_sq. cbn [fst snd].
  assert (0 <= (a * d - b * c) ^ 2) by apply pow2_ge_0. nra.
Qed.
Lemma norm_tri a b c d : norm (a + c, b + d) <= norm (a, b) + norm (c, d).
Proof.
  assert (P := norm_ge (a, b)). assert (Q := norm_ge (c, d)). apply norm_le; [lra|]. cbn [fst snd]. assert (C := cauchy a b c d). assert (S1 := norm_sq (a, b)). assert (S2 := norm_sq (c, d)). cbn [fst snd] in *. nra.
Qed.
Lemma dist_norm x y x' y' : dist2 x y x' y' = norm (x - x', y - y').
Proof. reflexivity. Qed.
Lemma dist_sym x y x' y' : dist2 x y x' y' = dist2 x' y' x y.
Proof. unfold dist2. f_equal. ring. Qed.
Lemma dist_tri x y x' y' x'' y'' : dist2 x y x'' y'' <= dist2 x y x' y' + dist2 x' y' x'' y''.
Proof. rewrite !dist_norm. replace (x - x'') with ((x - x') + (x' - x'')) by ring. replace (y - y'') with ((y - y') + (y' - y'')) by ring. apply norm_tri. Qed.
(** ** how far each piece deflects *)
Section Reach.
Variables bx by_ x y : R.
Let off := dist2 x y bx by_.
Lemma sheet_reach x0 y0 k : 0 <= k -> norm (reduced_deflection_angle_mass_sheet x0 y0 k x y) <= k * dist2 bx by_ x0 y0 + k * off.
Proof.
  intros K. assert (T := dist_tri x y bx by_ x0 y0). fold off in T. assert (P := norm_ge (x - x0, y - y0)). rewrite <- dist_norm in P.
  unfold reduced_deflection_angle_mass_sheet, translate_rotate. cbv zeta. apply Rle_trans with (k * dist2 x y x0 y0); [|nra].
  apply norm_le; [apply Rmult_le_pos; assumption|]. cbn [fst snd]. replace ((k * dist2 x y x0 y0) ^ 2) with (k ^ 2 * dist2 x y x0 y0 ^ 2) by ring. rewrite dist_norm, norm_sq. cbn [fst snd]. right. ring.
Qed.
Lemma shear_reach x0 y0 a b : norm (reduced_deflection_angle_external_shear x0 y0 a b x y) <= sqrt (a ^ 2 + b ^ 2) * dist2 bx by_ x0 y0 + sqrt (a ^ 2 + b ^ 2) * off.
Proof.
  assert (G := sqrt_pos (a ^ 2 + b ^ 2)). assert (T := dist_tri x y bx by_ x0 y0). fold off in T. assert (P := norm_ge (x - x0, y - y0)). rewrite <- dist_norm in P.
  unfold reduced_deflection_angle_external_shear, translate_rotate. cbv zeta. apply Rle_trans with (sqrt (a ^ 2 + b ^ 2) * dist2 x y x0 y0); [|nra].
  apply norm_le; [apply Rmult_le_pos; assumption|]. cbn [fst snd]. replace ((sqrt (a ^ 2 + b ^ 2) * dist2 x y x0 y0) ^ 2) with (sqrt (a ^ 2 + b ^ 2) ^ 2 * dist2 x y x0 y0 ^ 2) by ring. rewrite pow2_sqrt by nra. rewrite dist_norm, norm_sq. cbn [fst snd]. right. ring.
Qed.
Lemma sis_reach x0 y0 Rein : 0 < Rein -> x <> x0 \/ y <> y0 -> norm (reduced_deflection_angle_sis x0 y0 Rein 0 x y) <= Rein.
Proof.
  intros HR O. unfold reduced_deflection_angle_sis, translate_rotate. cbv zeta. rewrite Rplus_0_r. change (sqrt ((x - x0) ^ 2 + (y - y0) ^ 2)) with (norm (x - x0, y - y0)).
  assert (P : 0 < norm (x - x0, y - y0)) by (change (0 < sqrt ((x - x0) ^ 2 + (y - y0) ^ 2)); apply norm_pos; destruct O; [left|right]; lra).
  apply norm_le; [lra|]. cbn [fst snd]. set (r := norm (x - x0, y - y0)) in *. assert (S := norm_sq (x - x0, y - y0)). fold r in S. cbn [fst snd] in S.
  right. replace ((Rein * (x - x0) / r) ^ 2 + (Rein * (y - y0) / r) ^ 2) with (Rein ^ 2 * ((x - x0) ^ 2 + (y - y0) ^ 2) / r ^ 2) by (field; lra). rewrite <- S. field. lra.
Qed.
Lemma point_reach x0 y0 Rein : 0 < Rein -> Rein <= dist2 x y x0 y0 -> norm (reduced_deflection_angle_point x0 y0 Rein 0 x y) <= Rein.
Proof.
  intros HR O. rewrite dist_norm in O. unfold reduced_deflection_angle_point, translate_rotate. cbv zeta. rewrite Rplus_0_r. change (sqrt ((x - x0) ^ 2 + (y - y0) ^ 2)) with (norm (x - x0, y - y0)).
  apply norm_le; [lra|]. cbn [fst snd]. set (r := norm (x - x0, y - y0)) in *. assert (S := norm_sq (x - x0, y - y0)). fold r in S. cbn [fst snd] in S.
  replace (((x - x0) * Rein ^ 2 / r ^ 2) ^ 2 + ((y - y0) * Rein ^ 2 / r ^ 2) ^ 2) with (Rein ^ 4 * ((x - x0) ^ 2 + (y - y0) ^ 2) / r ^ 4) by (field; lra). rewrite <- S.
  replace (Rein ^ 4 * r ^ 2 / r ^ 4) with (Rein ^ 2 * (Rein / r) ^ 2) by (field; lra). rewrite <- (Rmult_1_r (Rein ^ 2)) at 2. apply Rmult_le_compat_l; [nra|].
  assert (Q : 0 < Rein / r <= 1). { split; [apply Rdiv_lt_0_compat; lra|]. apply (Rmult_le_reg_r r); [lra|]. unfold Rdiv. rewrite Rmult_assoc, Rinv_l by lra. lra. }
  nra.
Qed.
Lemma derotate_norm a b phi : norm (derotate a b (Some phi)) = norm (a, b).
Proof.
  unfold norm, derotate. cbn [fst snd]. cbv zeta. f_equal. assert (S := sin2_cos2 phi). unfold Rsqr in S. transitivity ((a ^ 2 + b ^ 2) * (sin phi * sin phi + cos phi * cos phi)); [cbn; ring|rewrite S; ring].
Qed.
Lemma abs_sq a b : Rabs a <= b -> a ^ 2 <= b ^ 2.
Proof. intros H. assert (P := Rabs_pos a). rewrite <- (Rabs_right (a ^ 2)) by (apply Rle_ge, pow2_ge_0). rewrite <- RPow_abs. apply pow_incr. lra. Qed.
Lemma atan_abs a b : Rabs a <= b -> Rabs (atan a) <= atan b.
Proof.
  intros H. assert (P := Rabs_pos a). apply Rabs_le_between in H. apply Rabs_le. rewrite <- atan_opp.
  split; match goal with |- atan ?u <= atan ?v => destruct (Req_dec u v) as [->|N]; [right; reflexivity|left; apply atan_increasing; lra] end.
Qed.
Lemma atanh_mono a b : 0 <= a <= b -> b < 1 -> atanh a <= atanh b.
Proof.
  intros [A B] C. unfold atanh. apply Rmult_le_compat_l; [lra|]. apply ln_le; [apply Rdiv_lt_0_compat; lra|].
  apply (Rmult_le_reg_r ((1 - a) * (1 - b))); [apply Rmult_lt_0_compat; lra|].
  replace ((1 + a) / (1 - a) * ((1 - a) * (1 - b))) with ((1 + a) * (1 - b)) by (field; lra). replace ((1 + b) / (1 - b) * ((1 - a) * (1 - b))) with ((1 + b) * (1 - a)) by (field; lra). nra.
Qed.
Lemma atanh_abs a b : Rabs a <= b -> b < 1 -> Rabs (atanh a) <= atanh b.
Proof.
  intros H B. assert (P := Rabs_pos a). destruct (Rle_dec 0 a) as [Q|Q].
  - rewrite Rabs_right in H by lra. assert (A := atanh_mono 0 a ltac:(lra) ltac:(lra)). rewrite atanh_0 in A. rewrite Rabs_right by lra. apply atanh_mono; lra.
  - rewrite Rabs_left in H by lra. replace a with (- (- a)) by ring. rewrite (atanh_odd (- a)), Rabs_Ropp by lra. assert (A := atanh_mono 0 (- a) ltac:(lra) ltac:(lra)). rewrite atanh_0 in A. rewrite Rabs_right by lra. apply atanh_mono; lra.
Qed.
Lemma sie_reach x0 y0 q phi Rein s : 0 < q < 1 -> 0 < Rein -> s = 0 \/ 1 / 10 ^ 6 <= s ->
  norm (reduced_deflection_angle_sie x0 y0 q phi Rein s x y) <= (let f := sqrt (1 - q ^ 2) in Rein * sqrt q / f * sqrt (atan (f / q) ^ 2 + atanh f ^ 2)).
Proof.
  intros Hq HR Hs. cbv zeta. assert (F := f_range q Hq). assert (KP := K_pos q Rein Hq HR). unfold reduced_deflection_angle_sie. destruct (Req_EM_T q 1) as [E|_]; [lra|]. unfold translate_rotate. cbv zeta.
  rewrite derotate_norm. set (X := (x - x0) * cos phi + (y - y0) * sin phi). set (Y := (y - y0) * cos phi - (x - x0) * sin phi).
  assert (A := arg_le q Rein s Hq Hs X Y). cbv beta in A. set (f := sqrt (1 - q ^ 2)) in *. set (K := Rein * sqrt q / f) in *. set (psi := sqrt (q ^ 2 * (X ^ 2 + s ^ 2) + Y ^ 2)) in *.
  assert (S0 : 0 <= s) by (destruct Hs; lra).
  assert (B : Rabs (f * X / (psi + s)) <= f / q).
  { assert (W : q * Rabs X <= psi). { unfold psi. rewrite <- (sqrt_pow2 (q * Rabs X)) by (apply Rmult_le_pos; [lra|apply Rabs_pos]). apply sqrt_le_1_alt. rewrite Rpow_mult_distr, RPow_abs, (Rabs_right (X ^ 2)) by (apply Rle_ge, pow2_ge_0).
      assert (0 <= q ^ 2 * s ^ 2) by (apply Rmult_le_pos; apply pow2_ge_0). assert (0 <= Y ^ 2) by apply pow2_ge_0. lra. }
    assert (PX := Rabs_pos X). assert (FQ : 0 < f / q) by (apply Rdiv_lt_0_compat; lra). unfold Rdiv at 1. rewrite !Rabs_mult, (Rabs_right f) by lra. destruct (Req_dec (psi + s) 0) as [Z|Z]; [rewrite Z, Rinv_0, Rabs_R0; lra|].
    assert (PP : 0 < psi + s) by (assert (Q := sqrt_pos (q ^ 2 * (X ^ 2 + s ^ 2) + Y ^ 2)); fold psi in Q; lra). rewrite Rabs_inv, (Rabs_right (psi + s)) by lra.
    apply (Rmult_le_reg_r ((psi + s) * q)); [apply Rmult_lt_0_compat; lra|]. replace (f * Rabs X * / (psi + s) * ((psi + s) * q)) with (f * (q * Rabs X)) by (field; lra). replace (f / q * ((psi + s) * q)) with (f * (psi + s)) by (field; lra). apply Rmult_le_compat_l; lra. }
  assert (A2 := abs_sq _ _ (atanh_abs _ _ A (proj2 F))). assert (B2 := abs_sq _ _ (atan_abs _ _ B)).
  apply norm_le; [apply Rmult_le_pos; [lra|apply sqrt_pos]|]. cbn [fst snd]. rewrite !Rpow_mult_distr, pow2_sqrt by (assert (U := pow2_ge_0 (atan (f / q))); assert (V := pow2_ge_0 (atanh f)); lra).
  rewrite Rmult_plus_distr_l. apply Rplus_le_compat; apply Rmult_le_compat_l; try apply pow2_ge_0; assumption.
Qed.
Lemma piece_reach z p : ordinary p -> off_centre x y p -> (forall x0 y0 Rein, p = PointMass x0 y0 Rein -> Rein <= dist2 x y x0 y0) ->
  norm (reduced_deflection_angle (lens_of z p) x y) <= reach bx by_ p + focusing p * off.
Proof.
  destruct p as [x0 y0 k|x0 y0 a b|x0 y0 Rein|x0 y0 q phi Rein s|x0 y0 Rein]; cbn [ordinary off_centre lens_of reduced_deflection_angle reach focusing]; intros H O N; rewrite ?Rmult_0_l, ?Rplus_0_r.
  - apply sheet_reach, H.
  - apply shear_reach.
  - apply sis_reach; assumption.
  - destruct H as (Hq & HR & Hs). apply sie_reach; assumption.
  - apply point_reach; [exact H|apply N; reflexivity].
Qed.
Lemma scene_reach z l : (forall p, In p l -> ordinary p) -> clear l x y -> ~ inside_a_ring l x y ->
  norm (reduced_deflection_angle (singleplane z (map (lens_of z) l)) x y) <= total_reach bx by_ l + total_focusing l * off.
Proof.
  induction l as [|p l IH]; intros H C N.
  - cbn. unfold total_reach, total_focusing. cbn. rewrite Rmult_0_l, Rplus_0_r. apply norm_le; [lra|]. cbn [fst snd]. lra.
  - cbn [map]. rewrite singleplane_cons. cbn [lplus reduced_deflection_angle]. unfold total_reach, total_focusing. cbn [map fold_right]. fold (total_reach bx by_ l). fold (total_focusing l).
    assert (A : norm (reduced_deflection_angle (lens_of z p) x y) <= reach bx by_ p + focusing p * off).
    { apply piece_reach; [apply H; left; reflexivity|apply C; left; reflexivity|]. intros x0 y0 Rein ->. destruct (Rle_dec Rein (dist2 x y x0 y0)) as [Q|Q]; [exact Q|]. exfalso. apply N. exists x0, y0, Rein. split; [left; reflexivity|lra]. }
    assert (B : norm (reduced_deflection_angle (singleplane z (map (lens_of z) l)) x y) <= total_reach bx by_ l + total_focusing l * off).
    { apply IH; [intros; apply H; right; assumption|intros r Hr; apply C; right; exact Hr|]. intros (x0 & y0 & Rein & I & Q). apply N. exists x0, y0, Rein. split; [right; exact I|exact Q]. }
    rewrite (surjective_pairing (reduced_deflection_angle (lens_of z p) x y)) in A. rewrite (surjective_pairing (reduced_deflection_angle (singleplane z (map (lens_of z) l)) x y)) in B.
    eapply Rle_trans; [apply norm_tri|]. lra.
Qed.
Lemma image_near z l : (forall p, In p l -> ordinary p) -> total_focusing l < 1 -> image (singleplane z (map (lens_of z) l)) l bx by_ x y ->
  dist2 x y bx by_ <= radius bx by_ l \/ inside_a_ring l x y.
Proof.
  intros H F [C I]. destruct (Classical_Prop.classic (inside_a_ring l x y)) as [N|N]; [right; exact N|left].
  assert (R := scene_reach z l H C N). unfold raytrace in I. destruct (reduced_deflection_angle (singleplane z (map (lens_of z) l)) x y) as [a b]. injection I as I1 I2.
  assert (E : off = norm (a, b)) by (unfold off; rewrite dist_norm; replace (x - bx) with a by lra; replace (y - by_) with b by lra; reflexivity). rewrite <- E in R. fold off. unfold radius.
  apply (Rmult_le_reg_r (1 - total_focusing l)); [lra|]. unfold Rdiv. rewrite Rmult_assoc, Rinv_l by lra. lra.
Qed.
End Reach.
(** ** two images of a far source *)
Definition spreads_between (k : R) (a : R -> R -> R * R) (x y x' y' : R) : Prop :=
  (fst (a x' y') - fst (a x y)) * (x' - x) + (snd (a x' y') - snd (a x y)) * (y' - y) <= k * ((x' - x) ^ 2 + (y' - y) ^ 2).
Lemma sis_between d Rein X Y X' Y' : 0 < d -> 0 <= Rein -> d <= norm (X, Y) -> d <= norm (X', Y') ->
  (Rein * X' / norm (X', Y') - Rein * X / norm (X, Y)) * (X' - X) + (Rein * Y' / norm (X', Y') - Rein * Y / norm (X, Y)) * (Y' - Y) <= Rein / d * ((X' - X) ^ 2 + (Y' - Y) ^ 2).
Proof.
  intros D HR N N'. assert (C := cauchy X Y X' Y'). assert (S := norm_sq (X, Y)). assert (S' := norm_sq (X', Y')). cbn [fst snd] in S, S'. set (r := norm (X, Y)) in *. set (r' := norm (X', Y')) in *. clearbody r r'.
  set (e := r * r' - (X * X' + Y * Y')). assert (E : 0 <= e) by (unfold e; lra).
  apply Rle_trans with (Rein * (e / r + e / r')).
  - right. transitivity (Rein * ((X' ^ 2 + Y' ^ 2) / r' - (X * X' + Y * Y') / r' - (X * X' + Y * Y') / r + (X ^ 2 + Y ^ 2) / r)); [field; lra|]. rewrite <- S, <- S'. unfold e. field. lra.
  - unfold Rdiv at 3. rewrite Rmult_assoc. apply Rmult_le_compat_l; [exact HR|].
    assert (A : e / r <= e * / d) by (apply Rmult_le_compat_l; [exact E|apply Rinv_le_contravar; assumption]). assert (B : e / r' <= e * / d) by (apply Rmult_le_compat_l; [exact E|apply Rinv_le_contravar; assumption]).
    assert (Q : 2 * e <= (X' - X) ^ 2 + (Y' - Y) ^ 2). { assert (0 <= (r - r') ^ 2) by apply pow2_ge_0. unfold e. nra. }
    assert (I : 0 < / d) by (apply Rinv_0_lt_compat, D). nra.
Qed.
Lemma point_between d k X Y X' Y' : 0 < d -> 0 <= k -> d <= norm (X, Y) -> d <= norm (X', Y') ->
  (X' * k / norm (X', Y') ^ 2 - X * k / norm (X, Y) ^ 2) * (X' - X) + (Y' * k / norm (X', Y') ^ 2 - Y * k / norm (X, Y) ^ 2) * (Y' - Y) <= k / d ^ 2 * ((X' - X) ^ 2 + (Y' - Y) ^ 2).
Proof.
  intros D HR N N'. assert (C := cauchy X Y (- X') (- Y')). assert (S := norm_sq (X, Y)). assert (S' := norm_sq (X', Y')). cbn [fst snd] in S, S'.
  assert (O : norm (- X', - Y') = norm (X', Y')) by (unfold norm; cbn [fst snd]; f_equal; ring). rewrite O in C. clear O.
  set (r := norm (X, Y)) in *. set (r' := norm (X', Y')) in *. clearbody r r'. set (c := X * X' + Y * Y').
  assert (E : 0 <= r * r' + c) by (unfold c; lra). assert (P : 0 < r * r') by (apply Rmult_lt_0_compat; lra).
  apply Rle_trans with (k * (2 - c * (/ r ^ 2 + / r' ^ 2))).
  - right. transitivity (k * ((X' ^ 2 + Y' ^ 2) / r' ^ 2 - c * (/ r ^ 2 + / r' ^ 2) + (X ^ 2 + Y ^ 2) / r ^ 2)); [unfold c; field; lra|]. rewrite <- S, <- S'. field. lra.
  - unfold Rdiv. rewrite Rmult_assoc. apply Rmult_le_compat_l; [exact HR|].
    assert (Q : (X' - X) ^ 2 + (Y' - Y) ^ 2 = r ^ 2 + r' ^ 2 - 2 * c) by (rewrite S, S'; unfold c; ring). assert (Q0 : 0 <= (X' - X) ^ 2 + (Y' - Y) ^ 2) by (apply Rplus_le_le_0_compat; apply pow2_ge_0). rewrite Q in *.
    apply Rle_trans with (/ (r * r') * (r ^ 2 + r' ^ 2 - 2 * c)).
    + apply (Rmult_le_reg_l ((r * r') ^ 2)); [apply pow_lt, P|]. 
      replace ((r * r') ^ 2 * (2 - c * (/ r ^ 2 + / r' ^ 2))) with (2 * (r * r') ^ 2 - c * (r ^ 2 + r' ^ 2)) by (field; lra). replace ((r * r') ^ 2 * (/ (r * r') * (r ^ 2 + r' ^ 2 - 2 * c))) with (r * r' * (r ^ 2 + r' ^ 2 - 2 * c)) by (field; lra).
      assert (0 <= (r * r' + c) * (r - r') ^ 2) by (apply Rmult_le_pos; [exact E|apply pow2_ge_0]). nra.
    + apply Rmult_le_compat_r; [exact Q0|]. apply Rinv_le_contravar; [apply pow_lt, D|]. nra.
Qed.
Section Sie.
Variables q Rein s : R.
Hypothesis Hq : 0 < q < 1.
Hypothesis HR : 0 < Rein.
Hypothesis Hs : 0 <= s.
Let f := sqrt (1 - q ^ 2).
Let K := Rein * sqrt q / f.
Let psi (x y : R) := sqrt (q ^ 2 * (x ^ 2 + s ^ 2) + y ^ 2).
Let D (x y : R) := (psi x y + s) ^ 2 + (1 - q ^ 2) * x ^ 2.
Let ax (x y : R) := K * atan (f * x / (psi x y + s)).
Let ay (x y : R) := K * atanh (f * y / (psi x y + q ^ 2 * s)).
Let c := Rein * sqrt q.
Lemma form_far d x y u v : 0 < d -> d ^ 2 <= x ^ 2 + y ^ 2 -> (K * f * (psi x y + s - q ^ 2 * x ^ 2 / psi x y) / D x y) * u ^ 2 + 2 * (- K * f * x * y / psi x y / D x y) * u * v
  + (K * f * (psi x y + q ^ 2 * s - y ^ 2 / psi x y) / (q ^ 2 * D x y)) * v ^ 2 <= c / (q * d) * (u ^ 2 + v ^ 2).
Proof.
  intros Hd Far. assert (H0 : x <> 0 \/ y <> 0 \/ 0 < s). { destruct (Req_dec x 0) as [->|N]; [|left; exact N]. right; left. intros ->. assert (0 < d ^ 2) by (apply pow_lt, Hd). lra. }
  assert (Hp := sie_psi_pos q s Hq x y H0). assert (HD := sie_D_pos q s Hq Hs x y H0). assert (Hpp := sie_psi_sq q s Hq x y H0). assert (Hf := sie_f_pos q Hq). cbv beta in Hp, HD, Hpp.
  change (sqrt (q ^ 2 * (x ^ 2 + s ^ 2) + y ^ 2)) with (psi x y) in *. change ((psi x y + s) ^ 2 + (1 - q ^ 2) * x ^ 2) with (D x y) in *. fold f in Hf.
  assert (HK : K * f = c) by (unfold K, c; field; lra). assert (C : 0 < c) by (apply Rmult_lt_0_compat; [exact HR|apply sqrt_lt_R0; lra]).
  assert (W : q * d <= psi x y). { apply Rsqr_incr_0_var; [|lra]. unfold Rsqr. replace (psi x y * psi x y) with (psi x y ^ 2) by ring. rewrite Hpp.
    assert (q ^ 2 * d ^ 2 <= q ^ 2 * (x ^ 2 + y ^ 2)) by (apply Rmult_le_compat_l; [apply pow2_ge_0|exact Far]). assert (0 <= q ^ 2 * s ^ 2) by (apply Rmult_le_pos; apply pow2_ge_0). assert (0 <= (1 - q ^ 2) * y ^ 2) by (apply Rmult_le_pos; [nra|apply pow2_ge_0]). nra. }
  assert (DT : D x y = (1 + q ^ 2) * s ^ 2 + x ^ 2 + y ^ 2 + 2 * s * psi x y) by (unfold D; replace ((psi x y + s) ^ 2) with (psi x y ^ 2 + 2 * s * psi x y + s ^ 2) by ring; rewrite Hpp; ring).
  set (w := psi x y) in *. set (e := D x y) in *. clearbody w e.
  assert (M : (K * f * (w + s - q ^ 2 * x ^ 2 / w) / e) * u ^ 2 + 2 * (- K * f * x * y / w / e) * u * v + (K * f * (w + q ^ 2 * s - y ^ 2 / w) / (q ^ 2 * e)) * v ^ 2
     = c / (w * e) * ((s * w + (q ^ 2 * s ^ 2 + y ^ 2)) * u ^ 2 - 2 * x * y * u * v + (s * w + (s ^ 2 + x ^ 2)) * v ^ 2)).
  { replace (- K * f) with (- c) by lra. rewrite HK.
    replace (w + s - q ^ 2 * x ^ 2 / w) with ((s * w + (q ^ 2 * s ^ 2 + y ^ 2)) / w) by (replace (q ^ 2 * s ^ 2 + y ^ 2) with (w ^ 2 - q ^ 2 * x ^ 2) by lra; field; lra).
    replace (w + q ^ 2 * s - y ^ 2 / w) with (q ^ 2 * (s * w + (s ^ 2 + x ^ 2)) / w) by (replace (y ^ 2) with (w ^ 2 - q ^ 2 * (x ^ 2 + s ^ 2)) by lra; field; lra).
    field. repeat split; lra. }
  rewrite M. clear M.
  assert (N : (s * w + (q ^ 2 * s ^ 2 + y ^ 2)) * u ^ 2 - 2 * x * y * u * v + (s * w + (s ^ 2 + x ^ 2)) * v ^ 2 <= e * (u ^ 2 + v ^ 2)).
  { rewrite DT. assert (Q1 : 0 <= (x * u + y * v) ^ 2) by apply pow2_ge_0. assert (Q2 : 0 <= q ^ 2 * s ^ 2 * v ^ 2) by (apply Rmult_le_pos; [apply Rmult_le_pos|]; apply pow2_ge_0). assert (Q3 : 0 <= s ^ 2 * u ^ 2) by (apply Rmult_le_pos; apply pow2_ge_0). assert (Q4 : 0 <= s * w * (u ^ 2 + v ^ 2)) by (apply Rmult_le_pos; [apply Rmult_le_pos; lra|nra]). nra. }
  assert (U : 0 <= u ^ 2 + v ^ 2) by nra. assert (PE : 0 < w * e) by (apply Rmult_lt_0_compat; lra).
  apply Rle_trans with (c / (w * e) * (e * (u ^ 2 + v ^ 2))); [apply Rmult_le_compat_l; [apply Rlt_le, Rdiv_lt_0_compat; lra|exact N]|].
  replace (c / (w * e) * (e * (u ^ 2 + v ^ 2))) with (c * / w * (u ^ 2 + v ^ 2)) by (field; lra). apply Rmult_le_compat_r; [exact U|]. apply Rmult_le_compat_l; [lra|]. apply Rinv_le_contravar; [apply Rmult_lt_0_compat; lra|exact W].
Qed.
Lemma centred_between d x y x' y' : 0 < d -> (forall t, 0 <= t <= 1 -> d ^ 2 <= (x + t * (x' - x)) ^ 2 + (y + t * (y' - y)) ^ 2) -> spreads_between (c / (q * d)) (fun x y => (ax x y, ay x y)) x y x' y'.
Proof.
  intros Hd Far. unfold spreads_between. cbn [fst snd]. set (u := x' - x) in *. set (v := y' - y) in *.
  assert (Der : forall t, 0 <= t <= 1 -> is_derive (fun t => ax (x + t * u) (y + t * v) * u + ay (x + t * u) (y + t * v) * v) t
    ((K * f * (psi (x + t * u) (y + t * v) + s - q ^ 2 * (x + t * u) ^ 2 / psi (x + t * u) (y + t * v)) / D (x + t * u) (y + t * v)) * u ^ 2 + 2 * (- K * f * (x + t * u) * (y + t * v) / psi (x + t * u) (y + t * v) / D (x + t * u) (y + t * v)) * u * v
     + (K * f * (psi (x + t * u) (y + t * v) + q ^ 2 * s - (y + t * v) ^ 2 / psi (x + t * u) (y + t * v)) / (q ^ 2 * D (x + t * u) (y + t * v))) * v ^ 2)).
  { intros t T. specialize (Far t T). set (X := x + t * u) in *. set (Y := y + t * v) in *.
    assert (H0 : X <> 0 \/ Y <> 0 \/ 0 < s). { destruct (Req_dec X 0) as [X0|N]; [|left; exact N]. right; left. intros Y0. rewrite X0, Y0 in Far. assert (0 < d ^ 2) by (apply pow_lt, Hd). lra. }
    assert (A : D2 ax X Y (K * f * (psi X Y + s - q ^ 2 * X ^ 2 / psi X Y) / D X Y) (- K * f * X * Y / psi X Y / D X Y)) by exact (sie_D2_ax q Rein s Hq Hs X Y H0).
    assert (B : D2 ay X Y (- K * f * X * Y / psi X Y / D X Y) (K * f * (psi X Y + q ^ 2 * s - Y ^ 2 / psi X Y) / (q ^ 2 * D X Y))) by exact (sie_D2_ay q Rein s Hq Hs X Y H0).
    set (m00 := K * f * (psi X Y + s - q ^ 2 * X ^ 2 / psi X Y) / D X Y) in *. set (m01 := - K * f * X * Y / psi X Y / D X Y) in *. set (m11 := K * f * (psi X Y + q ^ 2 * s - Y ^ 2 / psi X Y) / (q ^ 2 * D X Y)) in *.
    replace (m00 * u ^ 2 + 2 * m01 * u * v + m11 * v ^ 2) with ((m00 * u + m01 * v) * u + (m01 * u + m11 * v) * v) by ring.
    apply (is_derive_plus (fun t => ax (x + t * u) (y + t * v) * u) (fun t => ay (x + t * u) (y + t * v) * v)).
    - apply (is_derive_scal_l (fun t => ax (x + t * u) (y + t * v)) t _ u). apply (D2_curve ax (fun t => x + t * u) (fun t => y + t * v)); [exact A| |]; auto_derive; auto; ring.
    - apply (is_derive_scal_l (fun t => ay (x + t * u) (y + t * v)) t _ v). apply (D2_curve ay (fun t => x + t * u) (fun t => y + t * v)); [exact B| |]; auto_derive; auto; ring. }
  destruct (MVT_gen (fun t => ax (x + t * u) (y + t * v) * u + ay (x + t * u) (y + t * v) * v) 0 1 _ (fun t Ht => Der t ltac:(rewrite Rmin_left, Rmax_right in Ht by lra; lra))) as [t [Ht T]].
  { rewrite Rmin_left, Rmax_right by lra. intros t Ht. apply continuity_pt_filterlim. apply (ex_derive_continuous (fun t => ax (x + t * u) (y + t * v) * u + ay (x + t * u) (y + t * v) * v)). eexists. apply Der. exact Ht. }
  rewrite Rmin_left, Rmax_right in Ht by lra.
  replace (x + 1 * u) with x' in T by (unfold u; ring). replace (y + 1 * v) with y' in T by (unfold v; ring). replace (x + 0 * u) with x in T by ring. replace (y + 0 * v) with y in T by ring.
  replace ((ax x' y' - ax x y) * u + (ay x' y' - ay x y) * v) with (ax x' y' * u + ay x' y' * v - (ax x y * u + ay x y * v)) by ring. rewrite T. rewrite Rminus_0_r, Rmult_1_r. apply form_far; [exact Hd|apply Far, Ht].
Qed.
Lemma sie_between d x0 y0 phi x y x' y' : 0 < d -> (forall t, 0 <= t <= 1 -> d <= dist2 (x + t * (x' - x)) (y + t * (y' - y)) x0 y0) ->
  spreads_between (Rein / (sqrt q * d)) (reduced_deflection_angle_sie x0 y0 q phi Rein s) x y x' y'.
Proof.
  intros Hd Far. assert (SE : c / (q * d) = Rein / (sqrt q * d)). { assert (Q := sqrt_lt_R0 q ltac:(lra)). unfold c. rewrite <- (pow2_sqrt q) at 2 by lra. field. split; lra. }
  rewrite <- SE. clear SE. unfold spreads_between.
  set (X := (x - x0) * cos phi + (y - y0) * sin phi). set (Y := (y - y0) * cos phi - (x - x0) * sin phi).
  set (X' := (x' - x0) * cos phi + (y' - y0) * sin phi). set (Y' := (y' - y0) * cos phi - (x' - x0) * sin phi). assert (U := sin2_cos2 phi). unfold Rsqr in U.
  assert (H : spreads_between (c / (q * d)) (fun x y => (ax x y, ay x y)) X Y X' Y').
  { apply centred_between; [exact Hd|]. intros t T. specialize (Far t T). rewrite dist_norm in Far.
    assert (F2 : d ^ 2 <= norm (x + t * (x' - x) - x0, y + t * (y' - y) - y0) ^ 2) by (apply pow_incr; lra). rewrite norm_sq in F2. cbn [fst snd] in F2. eapply Rle_trans; [exact F2|]. right.
    transitivity (((x + t * (x' - x) - x0) ^ 2 + (y + t * (y' - y) - y0) ^ 2) * (sin phi * sin phi + cos phi * cos phi)); [rewrite U; ring|]. unfold X, Y, X', Y'. ring. }
  unfold spreads_between in H. cbn [fst snd] in H.
  assert (V : forall a b, reduced_deflection_angle_sie x0 y0 q phi Rein s a b = derotate (ax ((a - x0) * cos phi + (b - y0) * sin phi) ((b - y0) * cos phi - (a - x0) * sin phi)) (ay ((a - x0) * cos phi + (b - y0) * sin phi) ((b - y0) * cos phi - (a - x0) * sin phi)) (Some phi)).
  { intros a b. unfold reduced_deflection_angle_sie. destruct (Req_EM_T q 1) as [E|_]; [lra|]. reflexivity. }
  rewrite (V x y), (V x' y'). fold X Y X' Y'. cbn [derotate]. cbv zeta. cbn [fst snd].
  replace ((x' - x) ^ 2 + (y' - y) ^ 2) with ((X' - X) ^ 2 + (Y' - Y) ^ 2); [|unfold X, Y, X', Y'; transitivity (((x' - x) ^ 2 + (y' - y) ^ 2) * (sin phi * sin phi + cos phi * cos phi)); [ring|rewrite U; ring]].
  eapply Rle_trans; [|exact H]. right. set (A := ax X Y). set (B := ay X Y). set (A' := ax X' Y'). set (B' := ay X' Y'). clearbody A B A' B'. unfold X, Y, X', Y'. ring.
Qed.
End Sie.
Lemma norm_scale t a b : 0 <= t -> norm (t * a, t * b) = t * norm (a, b).
Proof.
  intros T. unfold norm. cbn [fst snd]. replace ((t * a) ^ 2 + (t * b) ^ 2) with (t ^ 2 * (a ^ 2 + b ^ 2)) by ring. rewrite sqrt_mult by (try apply pow2_ge_0; apply Rplus_le_le_0_compat; apply pow2_ge_0). rewrite sqrt_pow2 by exact T. reflexivity.
Qed.
Lemma ball_convex bx by_ r x y x' y' t : dist2 x y bx by_ <= r -> dist2 x' y' bx by_ <= r -> 0 <= t <= 1 -> dist2 (x + t * (x' - x)) (y + t * (y' - y)) bx by_ <= r.
Proof.
  rewrite !dist_norm. intros A B T. replace (x + t * (x' - x) - bx) with ((1 - t) * (x - bx) + t * (x' - bx)) by ring. replace (y + t * (y' - y) - by_) with ((1 - t) * (y - by_) + t * (y' - by_)) by ring.
  eapply Rle_trans; [apply norm_tri|]. rewrite !norm_scale by lra. nra.
Qed.
Lemma piece_between z bx by_ r d p x y x' y' : ordinary p -> 0 < d -> away bx by_ (r + d) p -> dist2 x y bx by_ <= r -> dist2 x' y' bx by_ <= r ->
  spreads_between (stretch d p) (reduced_deflection_angle (lens_of z p)) x y x' y'.
Proof.
  intros H Hd A B B'.
  assert (Far : forall x0 y0, r + d <= dist2 bx by_ x0 y0 -> forall u v, dist2 u v bx by_ <= r -> d <= dist2 u v x0 y0).
  { intros x0 y0 W u v V. assert (T := dist_tri bx by_ u v x0 y0). rewrite (dist_sym bx by_ u v) in T. lra. }
  destruct p as [x0 y0 k|x0 y0 a b|x0 y0 Rein|x0 y0 q phi Rein s|x0 y0 Rein]; cbn [ordinary away stretch lens_of reduced_deflection_angle] in *.
  - apply sheet_spreads.
  - apply shear_spreads.
  - assert (N := Far _ _ A _ _ B). assert (N' := Far _ _ A _ _ B'). rewrite dist_norm in N, N'. assert (S := sis_between d Rein _ _ _ _ Hd (Rlt_le _ _ H) N N').
    unfold spreads_between, reduced_deflection_angle_sis, translate_rotate. cbv zeta. cbn [fst snd]. rewrite !Rplus_0_r. replace (x' - x) with (x' - x0 - (x - x0)) by ring. replace (y' - y) with (y' - y0 - (y - y0)) by ring. exact S.
  - destruct H as (Hq & HR & Hs). apply sie_between; [exact Hq|exact HR|destruct Hs; lra|exact Hd|]. intros t T. apply (Far _ _ A). apply ball_convex; assumption.
  - assert (N := Far _ _ A _ _ B). assert (N' := Far _ _ A _ _ B'). rewrite dist_norm in N, N'. assert (S := point_between d (Rein ^ 2) _ _ _ _ Hd (pow2_ge_0 Rein) N N').
    unfold spreads_between, reduced_deflection_angle_point, translate_rotate. cbv zeta. cbn [fst snd]. rewrite !Rplus_0_r. replace (x' - x) with (x' - x0 - (x - x0)) by ring. replace (y' - y) with (y' - y0 - (y - y0)) by ring. exact S.
Qed.
Lemma scene_between z bx by_ r d l x y x' y' : (forall p, In p l -> ordinary p) -> 0 < d -> (forall p, In p l -> away bx by_ (r + d) p) -> dist2 x y bx by_ <= r -> dist2 x' y' bx by_ <= r ->
  spreads_between (total_stretch d l) (reduced_deflection_angle (singleplane z (map (lens_of z) l))) x y x' y'.
Proof.
  intros Ord Hd A B B'. induction l as [|p t IH].
  - unfold spreads_between, total_stretch. cbn. lra.
  - assert (H1 := piece_between z bx by_ r d p x y x' y' (Ord p (or_introl eq_refl)) Hd (A p (or_introl eq_refl)) B B').
    assert (H2 := IH (fun q I => Ord q (or_intror I)) (fun q I => A q (or_intror I))). cbn [map]. rewrite singleplane_cons. unfold spreads_between in *. cbn [fst snd]. unfold total_stretch in *. cbn [map fold_right lplus reduced_deflection_angle fst snd]. lra.
Qed.
Lemma far_one z bx by_ d l : (forall p, In p l -> ordinary p) -> total_focusing l < 1 -> 0 < d -> (forall p, In p l -> away bx by_ (radius bx by_ l + d) p) -> total_stretch d l < 1 ->
  let L := singleplane z (map (lens_of z) l) in forall x y x' y', image L l bx by_ x y -> image L l bx by_ x' y' -> ~ inside_a_ring l x y -> ~ inside_a_ring l x' y' -> x' = x /\ y' = y.
Proof.
  intros Ord Foc Hd A K L x y x' y' I I' N N'. destruct (image_near bx by_ x y z l Ord Foc I) as [B|B]; [|contradiction]. destruct (image_near bx by_ x' y' z l Ord Foc I') as [B'|B']; [|contradiction].
  assert (S := scene_between z bx by_ _ d l x y x' y' Ord Hd A B B'). fold L in S. destruct I as [_ I]. destruct I' as [_ I']. unfold spreads_between in S. unfold raytrace in I, I'.
  destruct (reduced_deflection_angle L x y) as [ax ay], (reduced_deflection_angle L x' y') as [cx cy]. cbn [fst snd] in S. injection I as I1 I2. injection I' as J1 J2.
  assert (E1 : cx - ax = x' - x) by lra. assert (E2 : cy - ay = y' - y) by lra. rewrite E1, E2 in S.
  assert (X := pow2_ge_0 (x' - x)). assert (Y := pow2_ge_0 (y' - y)). assert (Q : (x' - x) ^ 2 + (y' - y) ^ 2 <= 0) by nra.
  assert (X0 : (x' - x) ^ 2 = 0) by lra. assert (Y0 : (y' - y) ^ 2 = 0) by lra. rewrite <- Rsqr_pow2 in X0, Y0. apply Rsqr_0_uniq in X0. apply Rsqr_0_uniq in Y0. lra.
Qed.
Lemma far_exactly_one z bx by_ d l : (forall p, In p l -> ordinary p) -> no_point_mass l -> total_focusing l < 1 -> 0 < d -> (forall p, In p l -> away bx by_ (radius bx by_ l + d) p) -> total_stretch d l < 1 ->
  let L := singleplane z (map (lens_of z) l) in exists x y, image L l bx by_ x y /\ dist2 x y bx by_ <= radius bx by_ l /\ forall x' y', image L l bx by_ x' y' -> x' = x /\ y' = y.
Proof.
  intros Ord NP Foc Hd A K L. destruct (some_first z l bx by_ Ord Foc) as (E & x & y & _ & _ & I). fold L in I. exists x, y.
  assert (N : forall u v, ~ inside_a_ring l u v) by (intros u v (x0 & y0 & Rein & In0 & _); exact (NP _ _ _ In0)).
  split; [exact I|]. split; [destruct (image_near bx by_ x y z l Ord Foc I) as [B|B]; [exact B|destruct (N _ _ B)]|].
  intros x' y' I'. apply (far_one z bx by_ d l Ord Foc Hd A K x y x' y' I I'); apply N.
Qed.
Definition far_scene : list piece := [Sheet 0 0 (1 / 10); Shear 0 0 (6 / 100) (8 / 100); Isothermal 0 0 1; Elliptical 0 0 (1 / 4) 1 (1 / 10) 0].
Lemma far_scene_fits : (forall p, In p (PointMass 0 0 1 :: far_scene) -> ordinary p) /\ no_point_mass far_scene /\ total_focusing (PointMass 0 0 1 :: far_scene) < 1 /\
  (forall p, In p (PointMass 0 0 1 :: far_scene) -> away 100 0 (radius 100 0 (PointMass 0 0 1 :: far_scene) + 70) p) /\
  (forall p, In p far_scene -> away 100 0 (radius 100 0 far_scene + 70) p) /\ total_stretch 70 (PointMass 0 0 1 :: far_scene) < 1 /\ total_stretch 70 far_scene < 1.
Proof.
  assert (S1 : sqrt ((6 / 100) ^ 2 + (8 / 100) ^ 2) = 1 / 10) by (replace ((6 / 100) ^ 2 + (8 / 100) ^ 2) with ((1 / 10) ^ 2) by field; apply sqrt_pow2; lra).
  assert (S2 : dist2 100 0 0 0 = 100) by (unfold dist2; replace ((100 - 0) ^ 2 + (0 - 0) ^ 2) with (100 ^ 2) by ring; apply sqrt_pow2; lra).
  assert (S3 := sqrt_quarter).
  assert (S4 : reach 100 0 (Elliptical 0 0 (1 / 4) 1 (1 / 10) 0) <= 17 / 10).
  { cbn [reach]. rewrite S3. set (f := sqrt (1 - (1 / 4) ^ 2)). assert (F := f_range (1 / 4) ltac:(lra)). fold f in F. assert (F2 : f ^ 2 = 15 / 16) by (unfold f; rewrite pow2_sqrt; lra). assert (F3 : 1 / 2 <= f) by nra.
    assert (AH := atanh_le (1 / 4) ltac:(lra) f). fold f in AH. assert (AH2 := AH ltac:(rewrite Rabs_right; lra)). rewrite F2 in AH2. replace (/ (1 - 15 / 16)) with 16 in AH2 by field. apply abs_sq in AH2.
    assert (AT : Rabs (atan (f / (1 / 4))) <= 2). { assert (B := atan_bound (f / (1 / 4))). assert (P := PI_4). apply Rabs_le. lra. } apply abs_sq in AT.
    assert (R0 : sqrt (atan (f / (1 / 4)) ^ 2 + atanh f ^ 2) <= 17). { rewrite <- (sqrt_pow2 17) by lra. apply sqrt_le_1_alt. lra. }
    assert (K0 : 0 <= 1 / 10 * (1 / 2) / f <= 1 / 10). { split; [apply Rlt_le, Rdiv_lt_0_compat; lra|]. apply (Rmult_le_reg_r f); [lra|]. unfold Rdiv at 1. rewrite Rmult_assoc, Rinv_l by lra. lra. }
    assert (P := sqrt_pos (atan (f / (1 / 4)) ^ 2 + atanh f ^ 2)). nra. }
  assert (T1 : total_focusing far_scene = 1 / 5) by (unfold total_focusing, far_scene; cbn [map fold_right focusing]; rewrite S1; lra).
  assert (T2 : total_focusing (PointMass 0 0 1 :: far_scene) = 1 / 5) by (unfold total_focusing in *; cbn [map fold_right focusing] in *; rewrite T1; lra).
  assert (V1 : total_reach 100 0 far_scene <= 227 / 10). { unfold total_reach, far_scene. cbn [map fold_right]. cbn [reach] in S4 |- *. rewrite S1, S2. cbv zeta in S4 |- *. lra. }
  assert (V2 : total_reach 100 0 (PointMass 0 0 1 :: far_scene) <= 237 / 10) by (unfold total_reach in *; cbn [map fold_right]; change (reach 100 0 (PointMass 0 0 1)) with 1; lra).
  assert (W1 : radius 100 0 far_scene <= 30) by (unfold radius; rewrite T1; lra). assert (W2 : radius 100 0 (PointMass 0 0 1 :: far_scene) <= 30) by (unfold radius; rewrite T2; lra).
  split; [intros p I; repeat (destruct I as [<-|I]; [cbn; lra|]); destruct I|]. split; [intros x0 y0 Rein I; repeat (destruct I as [I|I]; [discriminate|]); destruct I|]. split; [lra|].
  split; [intros p I; repeat (destruct I as [<-|I]; [cbn [away]; try exact Logic.I; rewrite S2; lra|]); destruct I|].
  split; [intros p I; repeat (destruct I as [<-|I]; [cbn [away]; try exact Logic.I; rewrite S2; lra|]); destruct I|].
  unfold total_stretch, far_scene. cbn [map fold_right stretch]. rewrite S1, S3. split; lra.
Qed.
