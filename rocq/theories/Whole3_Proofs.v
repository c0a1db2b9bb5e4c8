(** * Proofs for C124: derivatives of a moved scene *)
From Coq Require Import Reals Lra List.
From Coquelicot Require Import Coquelicot.
From Verif Require Import Py Calc2 Const_Model Geo_Model Lens_Spec LensBase_Model Whole_Spec Whole_Proofs.
Local Open Scope R_scope.

Section Turn.
Variables (M : linear) (a b : R).
Hypothesis KL : keeps_lengths M.
Lemma columns : lxx M ^ 2 + lyx M ^ 2 = 1 /\ lxy M ^ 2 + lyy M ^ 2 = 1 /\ lxx M * lxy M + lyx M * lyy M = 0.
Proof.
  assert (H1 := KL (1, 0)). assert (H2 := KL (0, 1)). assert (H3 := KL (1, 1)). unfold apply in *. cbn [fst snd] in *. nra.
Qed.
Lemma determinant : (lxx M * lyy M - lxy M * lyx M) ^ 2 = 1.
Proof.
  destruct columns as (H1 & H2 & H3).
  replace ((lxx M * lyy M - lxy M * lyx M) ^ 2) with ((lxx M ^ 2 + lyx M ^ 2) * (lxy M ^ 2 + lyy M ^ 2) - (lxx M * lxy M + lyx M * lyy M) ^ 2) by ring. rewrite H1, H2, H3. ring.
Qed.
Lemma row_lengths : lxx M ^ 2 + lxy M ^ 2 = 1 /\ lyx M ^ 2 + lyy M ^ 2 = 1 /\ lxx M * lyx M + lxy M * lyy M = 0.
Proof.
  destruct columns as (H1 & H2 & H3). assert (D := determinant). set (p := lxx M) in *. set (q := lxy M) in *. set (r := lyx M) in *. set (s := lyy M) in *.
  set (d := p * s - q * r) in *.
  assert (E1 : d * p = s). { unfold d. replace ((p * s - q * r) * p) with (s * (p ^ 2 + r ^ 2) - r * (p * q + r * s)) by ring. rewrite H1, H3. ring. }
  assert (E2 : d * q = - r). { unfold d. replace ((p * s - q * r) * q) with (s * (p * q + r * s) - r * (q ^ 2 + s ^ 2)) by ring. rewrite H2, H3. ring. }
  assert (E3 : r = - (d * q)) by lra. rewrite <- E1, E3 in *. clearbody d. clear E1 E2 E3.
  split; [|split]; nra.
Qed.
Lemma carry_back u v : carry M a b (lxx M * (u - a) + lyx M * (v - b), lxy M * (u - a) + lyy M * (v - b)) = (u, v).
Proof.
  destruct row_lengths as (H1 & H2 & H3). unfold carry, apply. cbn [fst snd]. f_equal.
  - transitivity ((lxx M ^ 2 + lxy M ^ 2) * (u - a) + (lxx M * lyx M + lxy M * lyy M) * (v - b) + a); [ring|]. rewrite H1, H3. ring.
  - transitivity ((lxx M * lyx M + lxy M * lyy M) * (u - a) + (lyx M ^ 2 + lyy M ^ 2) * (v - b) + b); [ring|]. rewrite H2, H3. ring.
Qed.
Lemma back_carry x y : let p := carry M a b (x, y) in lxx M * (fst p - a) + lyx M * (snd p - b) = x /\ lxy M * (fst p - a) + lyy M * (snd p - b) = y.
Proof.
  destruct columns as (H1 & H2 & H3). unfold carry, apply. cbn [fst snd]. split.
  - transitivity ((lxx M ^ 2 + lyx M ^ 2) * x + (lxx M * lxy M + lyx M * lyy M) * y); [ring|]. rewrite H1, H3. ring.
  - transitivity ((lxx M * lxy M + lyx M * lyy M) * x + (lxy M ^ 2 + lyy M ^ 2) * y); [ring|]. rewrite H2, H3. ring.
Qed.
Variables (f f' : R -> R -> R * R) (c d : R).
Hypothesis MV : forall x y, let p := carry M a b (x, y) in f' (fst p) (snd p) = (fst (apply M (f x y)) + c, snd (apply M (f x y)) + d).
Let X u v := lxx M * (u - a) + lyx M * (v - b).
Let Y u v := lxy M * (u - a) + lyy M * (v - b).
Lemma moved_value u v : f' u v = (fst (apply M (f (X u v) (Y u v))) + c, snd (apply M (f (X u v) (Y u v))) + d).
Proof. assert (E := MV (X u v) (Y u v)). cbv zeta in E. replace (carry M a b (X u v, Y u v)) with (u, v) in E by (symmetry; apply carry_back). exact E. Qed.
Lemma X_D2 u v : D2 X u v (lxx M) (lyx M).
Proof. unfold X. eapply D2_eq; [apply D2_plus; apply D2_scal; apply D2_minus; [apply D2_fst|apply D2_const|apply D2_snd|apply D2_const]|ring|ring]. Qed.
Lemma Y_D2 u v : D2 Y u v (lxy M) (lyy M).
Proof. unfold Y. eapply D2_eq; [apply D2_plus; apply D2_scal; apply D2_minus; [apply D2_fst|apply D2_const|apply D2_snd|apply D2_const]|ring|ring]. Qed.
Lemma moved_D2 x y fxx fxy fyx fyy : D2 (fun u v => fst (f u v)) x y fxx fxy -> D2 (fun u v => snd (f u v)) x y fyx fyy -> let p := carry M a b (x, y) in
  D2 (fun u v => fst (f' u v)) (fst p) (snd p) (lxx M * (fxx * lxx M + fxy * lxy M) + lxy M * (fyx * lxx M + fyy * lxy M)) (lxx M * (fxx * lyx M + fxy * lyy M) + lxy M * (fyx * lyx M + fyy * lyy M)) /\
  D2 (fun u v => snd (f' u v)) (fst p) (snd p) (lyx M * (fxx * lxx M + fxy * lxy M) + lyy M * (fyx * lxx M + fyy * lxy M)) (lyx M * (fxx * lyx M + fxy * lyy M) + lyy M * (fyx * lyx M + fyy * lyy M)).
Proof.
  intros H1 H2 p. destruct (back_carry x y) as [BX BY]. fold p in BX, BY. fold (X (fst p) (snd p)) in BX. fold (Y (fst p) (snd p)) in BY.
  assert (C1 : D2 (fun u v => fst (f (X u v) (Y u v))) (fst p) (snd p) (fxx * lxx M + fxy * lxy M) (fxx * lyx M + fxy * lyy M)).
  { eapply D2_eq; [apply (D2_comp (fun u v => fst (f u v)) X Y); [rewrite BX, BY; exact H1|apply X_D2|apply Y_D2]|ring|ring]. }
  assert (C2 : D2 (fun u v => snd (f (X u v) (Y u v))) (fst p) (snd p) (fyx * lxx M + fyy * lxy M) (fyx * lyx M + fyy * lyy M)).
  { eapply D2_eq; [apply (D2_comp (fun u v => snd (f u v)) X Y); [rewrite BX, BY; exact H2|apply X_D2|apply Y_D2]|ring|ring]. }
  split.
  - apply (D2_ext (fun u v => lxx M * fst (f (X u v) (Y u v)) + lxy M * snd (f (X u v) (Y u v)) + c)); [intros; rewrite moved_value; reflexivity|].
    eapply D2_eq; [apply D2_plus; [apply D2_plus; apply D2_scal; [exact C1|exact C2]|apply D2_const]|ring|ring].
  - apply (D2_ext (fun u v => lyx M * fst (f (X u v) (Y u v)) + lyy M * snd (f (X u v) (Y u v)) + d)); [intros; rewrite moved_value; reflexivity|].
    eapply D2_eq; [apply D2_plus; [apply D2_plus; apply D2_scal; [exact C1|exact C2]|apply D2_const]|ring|ring].
Qed.
End Turn.

(** ** what follows for the Jacobian and what is computed from it *)
Lemma jacfwd_D2 f x y fxx fxy fyx fyy : D2 (fun u v => fst (f u v)) x y fxx fxy -> D2 (fun u v => snd (f u v)) x y fyx fyy -> jacfwd f x y = Mat2 fxx fxy fyx fyy.
Proof.
  intros H1 H2. unfold jacfwd. f_equal; apply is_derive_unique.
  - apply (D2_is_derive_x (fun u v => fst (f u v)) x y fxx fxy H1).
  - apply (D2_is_derive_y (fun u v => fst (f u v)) x y fxx fxy H1).
  - apply (D2_is_derive_x (fun u v => snd (f u v)) x y fyx fyy H2).
  - apply (D2_is_derive_y (fun u v => snd (f u v)) x y fyx fyy H2).
Qed.
Lemma moved_jacobian M a b f f' c d x y fxx fxy fyx fyy : keeps_lengths M ->
  (forall x y, let p := carry M a b (x, y) in f' (fst p) (snd p) = (fst (apply M (f x y)) + c, snd (apply M (f x y)) + d)) ->
  D2 (fun u v => fst (f u v)) x y fxx fxy -> D2 (fun u v => snd (f u v)) x y fyx fyy -> let p := carry M a b (x, y) in jacfwd f' (fst p) (snd p) = turn_matrix M (jacfwd f x y).
Proof.
  intros KL MV H1 H2. cbv zeta. rewrite (jacfwd_D2 f x y _ _ _ _ H1 H2). destruct (moved_D2 M a b KL f f' c d MV x y _ _ _ _ H1 H2) as [E1 E2].
  rewrite (jacfwd_D2 f' _ _ _ _ _ _ E1 E2). reflexivity.
Qed.
Lemma turn_det M J : keeps_lengths M -> m00 (turn_matrix M J) * m11 (turn_matrix M J) - m01 (turn_matrix M J) * m10 (turn_matrix M J) = m00 J * m11 J - m01 J * m10 J.
Proof.
  intros KL. assert (D := determinant M KL). unfold turn_matrix. cbn [m00 m01 m10 m11].
  transitivity ((lxx M * lyy M - lxy M * lyx M) ^ 2 * (m00 J * m11 J - m01 J * m10 J)); [ring|]. rewrite D. ring.
Qed.
Lemma turn_trace M J : keeps_lengths M -> m00 (turn_matrix M J) + m11 (turn_matrix M J) = m00 J + m11 J.
Proof.
  intros KL. destruct (columns M KL) as (H1 & H2 & H3). unfold turn_matrix. cbn [m00 m01 m10 m11].
  transitivity ((lxx M ^ 2 + lyx M ^ 2) * m00 J + (lxy M ^ 2 + lyy M ^ 2) * m11 J + (lxx M * lxy M + lyx M * lyy M) * (m01 J + m10 J)); [ring|]. rewrite H1, H2, H3. ring.
Qed.
Lemma turn_curl M J : (m10 (turn_matrix M J) - m01 (turn_matrix M J)) = (lxx M * lyy M - lxy M * lyx M) * (m10 J - m01 J).
Proof. unfold turn_matrix. cbn [m00 m01 m10 m11]. ring. Qed.
Lemma turn_magnification M a b ray ray' x y fxx fxy fyx fyy : keeps_lengths M -> moved_ray M a b ray ray' ->
  D2 (fun u v => fst (ray u v)) x y fxx fxy -> D2 (fun u v => snd (ray u v)) x y fyx fyy -> let p := carry M a b (x, y) in
  pixel_magnification ray' (fst p) (snd p) = pixel_magnification ray x y.
Proof.
  intros KL MV H1 H2. cbv zeta. unfold pixel_magnification. rewrite (moved_jacobian M a b ray ray' a b x y _ _ _ _ KL MV H1 H2). cbv zeta. rewrite turn_det by exact KL. reflexivity.
Qed.
(** the shear is turned by twice the angle: its length stays *)
Lemma turn_shear M J : keeps_lengths M -> m01 J = m10 J ->
  let g := shear_of_jacobian J in let g' := shear_of_jacobian (turn_matrix M J) in fst g' ^ 2 + snd g' ^ 2 = fst g ^ 2 + snd g ^ 2.
Proof.
  intros KL S. assert (T := turn_trace M J KL). assert (D := turn_det M J KL). assert (C := turn_curl M J).
  assert (L : forall A, m01 A = m10 A -> fst (shear_of_jacobian A) ^ 2 + snd (shear_of_jacobian A) ^ 2 = (m00 A + m11 A) ^ 2 / 4 - (m00 A * m11 A - m01 A * m10 A)).
  { intros A SA. unfold shear_of_jacobian. cbn [fst snd m00 m01 m10 m11]. rewrite <- SA. field. }
  cbv zeta. rewrite !L by (try exact S; rewrite S in C; lra). rewrite T, D. reflexivity.
Qed.
Lemma turn_eye M J : keeps_lengths M -> mat2_sub eye2 (turn_matrix M J) = turn_matrix M (mat2_sub eye2 J).
Proof.
  intros KL. destruct (row_lengths M KL) as (H1 & H2 & H3). unfold turn_matrix, mat2_sub, eye2. cbn [m00 m01 m10 m11]. f_equal.
  - transitivity ((lxx M ^ 2 + lxy M ^ 2) - (lxx M * (m00 J * lxx M + m01 J * lxy M) + lxy M * (m10 J * lxx M + m11 J * lxy M))); [rewrite H1; ring|ring].
  - transitivity ((lxx M * lyx M + lxy M * lyy M) - (lxx M * (m00 J * lyx M + m01 J * lyy M) + lxy M * (m10 J * lyx M + m11 J * lyy M))); [rewrite H3; ring|ring].
  - transitivity ((lxx M * lyx M + lxy M * lyy M) - (lyx M * (m00 J * lxx M + m01 J * lxy M) + lyy M * (m10 J * lxx M + m11 J * lxy M))); [rewrite H3; ring|ring].
  - transitivity ((lyx M ^ 2 + lyy M ^ 2) - (lyx M * (m00 J * lyx M + m01 J * lyy M) + lyy M * (m10 J * lyx M + m11 J * lyy M))); [rewrite H2; ring|ring].
Qed.
Lemma lens_derivatives M a b L L' x y : keeps_lengths M -> moved_lens M a b L L' -> convergence_is_half_divergence (reduced_deflection_angle L) (convergence L) x y ->
  let p := carry M a b (x, y) in let J := jacfwd (reduced_deflection_angle L) x y in let J' := jacfwd (reduced_deflection_angle L') (fst p) (snd p) in
  J' = turn_matrix M J /\ magnification (reduced_deflection_angle L') (fst p) (snd p) = magnification (reduced_deflection_angle L) x y /\
  effective_convergence_div J' = effective_convergence_div J /\
  let g := shear_of_jacobian (mat2_sub eye2 J) in let g' := shear_of_jacobian (mat2_sub eye2 J') in fst g' ^ 2 + snd g' ^ 2 = fst g ^ 2 + snd g ^ 2.
Proof.
  intros KL MV (axx & axy & ayx & ayy & H1 & H2 & S & _). cbv zeta.
  assert (MV' : forall x y, let p := carry M a b (x, y) in reduced_deflection_angle L' (fst p) (snd p) = (fst (apply M (reduced_deflection_angle L x y)) + 0, snd (apply M (reduced_deflection_angle L x y)) + 0)).
  { intros u v p. unfold p. rewrite (proj1 (proj2 MV u v)), !Rplus_0_r. apply surjective_pairing. }
  assert (E := moved_jacobian M a b _ _ 0 0 x y _ _ _ _ KL MV' H1 H2). cbv zeta in E. rewrite E. split; [reflexivity|]. split; [|split].
  - unfold magnification. destruct (thin_moved (fun z => z) M a b L L' 1 KL MV) as [MR _].
    apply (turn_magnification M a b _ _ x y (1 - axx) (0 - axy) (0 - ayx) (1 - ayy) KL MR).
    + apply (D2_ext (fun u v => u - fst (reduced_deflection_angle L u v))); [intros u v; unfold raytrace; destruct (reduced_deflection_angle L u v); reflexivity|]. apply D2_minus; [apply D2_fst|exact H1].
    + apply (D2_ext (fun u v => v - snd (reduced_deflection_angle L u v))); [intros u v; unfold raytrace; destruct (reduced_deflection_angle L u v); reflexivity|]. apply D2_minus; [apply D2_snd|exact H2].
  - unfold effective_convergence_div. rewrite turn_trace by exact KL. reflexivity.
  - rewrite turn_eye by exact KL. apply turn_shear; [exact KL|]. rewrite (jacfwd_D2 _ x y _ _ _ _ H1 H2). unfold mat2_sub, eye2. cbn [m01 m10]. lra.
Qed.
