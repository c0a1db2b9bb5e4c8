(** * Proofs for C141 *)
From Coq Require Import Reals Lra Lia List String.
From Coquelicot Require Import Coquelicot.
From Verif Require Import Py RealFun Calc2 Lens_Spec Lens_Lib LensBase_Model LensBasic_Model LensBasic_Proofs LensBasic2_Proofs LensBase_Proofs Shear_Spec Shear_Proofs First_Spec First4_Proofs Four_Spec Four_Proofs Area_Spec Area_Proofs Cosmo_Model Delay_Spec Delay_Proofs Cross_Spec.
Import ListNotations.
Local Open Scope R_scope.

(** ** the matrix *)
Lemma iso_matrix psi alpha kappa x0 y0 x y : lens_consistent psi alpha kappa x y -> scale_free alpha x0 y0 x y -> x <> x0 \/ y <> y0 ->
  exists a b d, D2 (fun u v => fst (alpha u v)) x y a b /\ D2 (fun u v => snd (alpha u v)) x y b d /\
   a * (x - x0) + b * (y - y0) = 0 /\ b * (x - x0) + d * (y - y0) = 0 /\ kappa x y = (a + d) / 2 /\ a * d - b * b = 0.
Proof.
  intros [_ (a & b & c & d & A & B & S & K)] F N. subst c. exists a, b, d.
  assert (E1 := flat_derivative (fun u v => fst (alpha u v)) x0 y0 x y a b A (fun k Hk => f_equal fst (F k Hk))).
  assert (E2 := flat_derivative (fun u v => snd (alpha u v)) x0 y0 x y b d B (fun k Hk => f_equal snd (F k Hk))).
  assert (P : 0 < (x - x0) ^ 2 + (y - y0) ^ 2) by (apply norm2_pos, LensBasic2_Proofs.off_centre, N).
  repeat (split; [assumption|]).
  set (X := x - x0) in *. set (Y := y - y0) in *. apply Rmult_eq_reg_r with (X ^ 2 + Y ^ 2); [|lra].
  transitivity (X * d * (a * X + b * Y) - X * b * (b * X + d * Y) + Y * a * (b * X + d * Y) - Y * b * (a * X + b * Y)); [ring|rewrite E1, E2; ring].
Qed.
Lemma sie_stretch x0 y0 q phi Rein x y shape X Y ps i j : 0 < q < 1 -> x <> x0 \/ y <> y0 -> X i j = x -> Y i j = y ->
  exists A, jacobian_lens_equation (reduced_deflection_angle_sie x0 y0 q phi Rein 0) shape X Y "autograd" ps = Ok A /\
  let k := convergence_sie x0 y0 q phi Rein 0 x y in
  (m00 (A i j) * (x - x0) + m01 (A i j) * (y - y0) = x - x0 /\ m10 (A i j) * (x - x0) + m11 (A i j) * (y - y0) = y - y0) /\
  (m00 (A i j) * - (y - y0) + m01 (A i j) * (x - x0) = (1 - 2 * k) * - (y - y0) /\ m10 (A i j) * - (y - y0) + m11 (A i j) * (x - x0) = (1 - 2 * k) * (x - x0)).
Proof.
  intros Hq N EX EY.
  destruct (iso_matrix _ _ _ x0 y0 x y (sie_consistent x0 y0 q phi Rein 0 x y Hq (or_introl eq_refl) ltac:(tauto)) (sie_scale_free x0 y0 q phi Rein x y ltac:(lra) N) N) as (a & b & d & A & B & E1 & E2 & K & _).
  eexists. split; [reflexivity|]. cbv zeta beta. unfold jacobian_autograd. rewrite EX, EY, (jacfwd_D2 _ _ _ _ _ _ _ A B), K. unfold mat2_sub, eye2. cbn [m00 m01 m10 m11].
  set (u := x - x0) in *. set (v := y - y0) in *. repeat split; lra.
Qed.
Lemma sie_sense x0 y0 q phi Rein x y : 0 < q < 1 -> x <> x0 \/ y <> y0 -> let k := convergence_sie x0 y0 q phi Rein 0 x y in
  (2 * k < 1 -> keeps_sense (reduced_deflection_angle_sie x0 y0 q phi Rein 0) x y) /\ (1 < 2 * k -> mirrored (reduced_deflection_angle_sie x0 y0 q phi Rein 0) x y).
Proof.
  intros Hq N k. assert (LC := sie_consistent x0 y0 q phi Rein 0 x y Hq (or_introl eq_refl) ltac:(tauto)).
  destruct (iso_matrix _ _ _ x0 y0 x y LC (sie_scale_free x0 y0 q phi Rein x y ltac:(lra) N) N) as (a & b & d & A & B & E1 & E2 & K & Det). fold k in K.
  assert (P : forall u v w, cross3 u v w <> 0 -> 1 - 2 * k <> 0 -> Rbar_locally' 0 (fun h => 0 < (1 - 2 * k) * orientation (raytrace (reduced_deflection_angle_sie x0 y0 q phi Rein 0)) x y u v w h)).
  { intros u v w C Nz. destruct (parity_area _ x y u v w (1, 1)%nat (fun _ _ => x) (fun _ _ => y) None 0%nat 0%nat (consistent_differentiable _ _ _ _ _ LC) C eq_refl eq_refl) as (M & EM & H).
    injection EM as EM. subst M. cbv zeta beta in H. unfold jacobian_autograd in H. rewrite (jacfwd_D2 _ _ _ _ _ _ _ A B) in H. unfold mat2_sub, eye2 in H. cbn [m00 m01 m10 m11] in H.
    replace ((1 - a) * (1 - d) - (0 - b) * (0 - b)) with (1 - 2 * k) in H by (rewrite K; lra). apply H, Nz. }
  split; intros L u v w C; (eapply filter_imp; [|apply (P u v w C); lra]); cbv beta; intros h Hh; nra.
Qed.
(** ** the numbers of the cross *)
Lemma atanh_zero : atanh 0 = 0.
Proof. unfold atanh. replace ((1 + 0) / (1 - 0)) with 1 by field. rewrite ln_1. ring. Qed.
Lemma atanh_gt t : 0 < t < 1 -> t < atanh t.
Proof.
  intros T. destruct (MVT_cor2 (fun s => atanh s - s) (fun s => / (1 - s ^ 2) - 1) 0 t) as (c & E & C); [lra| |].
  - intros s Hs. apply derivable_pt_lim_minus; [apply is_derive_Reals, is_derive_atanh; lra|apply derivable_pt_lim_id].
  - rewrite atanh_zero in E. assert (Q : 0 < 1 - c ^ 2 < 1) by (simpl; nra). assert (G : 1 < / (1 - c ^ 2)) by (rewrite <- Rinv_1; apply Rinv_lt_contravar; lra).
    assert (W := Rmult_lt_0_compat (/ (1 - c ^ 2) - 1) (t - 0) ltac:(lra) ltac:(lra)). lra.
Qed.
Lemma atan_arcsinh u : 0 < u -> atan u < arcsinh u.
Proof.
  intros U. destruct (MVT_cor2 (fun s => arcsinh s - atan s) (fun s => / sqrt (s ^ 2 + 1) - / (1 + s ^ 2)) 0 u) as (c & E & C); [lra| |].
  - intros s Hs. apply derivable_pt_lim_minus; [apply derivable_pt_lim_arcsinh|]. apply derivable_pt_lim_atan.
  - rewrite atan_0, arcsinh_0 in E. assert (Q : 1 < c ^ 2 + 1) by (assert (0 < c ^ 2) by (apply pow_lt; lra); lra).
    assert (G : / (1 + c ^ 2) < / sqrt (c ^ 2 + 1)).
    { assert (S1 : 1 < sqrt (c ^ 2 + 1)) by (rewrite <- sqrt_1 at 1; apply sqrt_lt_1_alt; lra). apply Rinv_lt_contravar; [apply Rmult_lt_0_compat; lra|].
      rewrite (Rplus_comm 1). rewrite <- (pow2_sqrt (c ^ 2 + 1)) at 2 by lra. nra. }
    assert (W := Rmult_lt_0_compat (/ sqrt (c ^ 2 + 1) - / (1 + c ^ 2)) (u - 0) ltac:(lra) ltac:(lra)). lra.
Qed.
Lemma atanh_arcsinh q f : 0 < q -> 0 < f < 1 -> f ^ 2 = 1 - q ^ 2 -> atanh f = arcsinh (f / q).
Proof.
  intros Hq F E. unfold atanh, arcsinh. replace (sqrt ((f / q) ^ 2 + 1)) with (/ q).
  - replace (f / q + / q) with ((1 + f) / q) by (field; lra). replace ((1 + f) / (1 - f)) with (((1 + f) / q) * ((1 + f) / q)).
    + assert (P : 0 < (1 + f) / q) by (apply Rdiv_lt_0_compat; lra). rewrite ln_mult by exact P. field.
    + assert (E' : q * q = (1 - f) * (1 + f)) by (cbn [pow] in E; lra). apply Rmult_eq_reg_r with (q * q * (1 - f)); [|apply Rgt_not_eq; repeat apply Rmult_lt_0_compat; lra].
      transitivity ((1 + f) * (1 + f) * (1 - f)); [field; lra|]. transitivity ((1 + f) * (q * q)); [rewrite E'; ring|field; lra].
  - replace ((f / q) ^ 2 + 1) with (Rsqr (/ q)); [rewrite sqrt_Rsqr; [reflexivity|left; apply Rinv_0_lt_compat; lra]|].
    unfold Rsqr. apply Rmult_eq_reg_r with (q * q); [|nra]. transitivity 1; [field; lra|]. transitivity (f ^ 2 + q ^ 2); [lra|field; lra].
Qed.
Section Cross.
Variables x0 y0 q phi Rein : R.
Hypothesis Hq : 0 < q < 1.
Hypothesis HR : 0 < Rein.
Let f := sqrt (1 - q ^ 2).
Let a := Rein * sqrt q / f * atan (f / q).
Let b := Rein * sqrt q / f * atanh f.
Lemma f_facts : 0 < f < 1 /\ f ^ 2 = 1 - q ^ 2.
Proof. split; [exact (f_range q Hq)|]. unfold f. rewrite pow2_sqrt; [reflexivity|nra]. Qed.
Lemma a_less_b : 0 < a < b.
Proof.
  destruct f_facts as [F E]. destruct (a_pos q Rein Hq HR) as [A _]. split; [exact A|]. unfold a, b. apply Rmult_lt_compat_l; [exact (K_pos q Rein Hq HR)|].
  rewrite (atanh_arcsinh q f) by (try assumption; lra). apply atan_arcsinh, Rdiv_lt_0_compat; lra.
Qed.
Lemma kappa_along u v : convergence_sie x0 y0 q phi Rein 0 (fst (along x0 y0 phi u v)) (snd (along x0 y0 phi u v)) = / 2 * sqrt q * Rein / sqrt (q ^ 2 * u ^ 2 + v ^ 2).
Proof.
  set (w := along x0 y0 phi u v). change (convergence_sie x0 y0 q phi Rein 0 (fst w) (snd w)) with (/ 2 * sqrt q * Rein / sqrt (q ^ 2 * (fst (frame x0 y0 phi w) ^ 2 + 0 ^ 2) + snd (frame x0 y0 phi w) ^ 2)).
  unfold w. rewrite along_frame. cbn [fst snd]. replace (u ^ 2 + 0 ^ 2) with (u ^ 2) by ring. reflexivity.
Qed.
Lemma major_kappa p : In p [along x0 y0 phi a 0; along x0 y0 phi (- a) 0] -> 2 * convergence_sie x0 y0 q phi Rein 0 (fst p) (snd p) = f / (q * atan (f / q)).
Proof.
  destruct f_facts as [F E]. destruct a_less_b as [A _]. assert (T : 0 < atan (f / q)) by (rewrite <- atan_0; apply atan_increasing, Rdiv_lt_0_compat; lra). assert (Q := sqrt_lt_R0 q ltac:(lra)).
  assert (G : forall u, u = a \/ u = - a -> 2 * (/ 2 * sqrt q * Rein / sqrt (q ^ 2 * u ^ 2 + 0 ^ 2)) = f / (q * atan (f / q))).
  { intros u U. replace (q ^ 2 * u ^ 2 + 0 ^ 2) with (Rsqr (q * a)) by (unfold Rsqr; destruct U as [->| ->]; ring). rewrite sqrt_Rsqr by (left; apply Rmult_lt_0_compat; lra).
    unfold a. field. repeat split; lra. }
  intros [<-|[<-|[]]]; rewrite kappa_along; apply G; [left|right]; reflexivity.
Qed.
Lemma minor_kappa p : In p [along x0 y0 phi 0 b; along x0 y0 phi 0 (- b)] -> 2 * convergence_sie x0 y0 q phi Rein 0 (fst p) (snd p) = f / atanh f.
Proof.
  destruct f_facts as [F E]. destruct a_less_b as [A B]. assert (T := atanh_gt f F). assert (Q := sqrt_lt_R0 q ltac:(lra)).
  assert (G : forall u, u = b \/ u = - b -> 2 * (/ 2 * sqrt q * Rein / sqrt (q ^ 2 * 0 ^ 2 + u ^ 2)) = f / atanh f).
  { intros u U. replace (q ^ 2 * 0 ^ 2 + u ^ 2) with (Rsqr b) by (unfold Rsqr; destruct U as [->| ->]; ring). rewrite sqrt_Rsqr by lra.
    unfold b. field. repeat split; lra. }
  intros [<-|[<-|[]]]; rewrite kappa_along; apply G; [left|right]; reflexivity.
Qed.
Lemma ranges : 1 < f / (q * atan (f / q)) /\ 0 < f / atanh f < 1.
Proof.
  destruct f_facts as [F E]. assert (U : 0 < f / q) by (apply Rdiv_lt_0_compat; lra). assert (T : 0 < atan (f / q)) by (rewrite <- atan_0; apply atan_increasing, U).
  assert (L := atan_gap 0 (f / q) ltac:(lra)). rewrite atan_0 in L. assert (H := atanh_gt f F). assert (P : 0 < q * atan (f / q)) by (apply Rmult_lt_0_compat; lra).
  assert (M : q * atan (f / q) < f). { apply Rlt_le_trans with (q * (f / q)); [apply Rmult_lt_compat_l; lra|right; field; lra]. }
  split; [|split].
  - apply (Rmult_lt_reg_r (q * atan (f / q))); [exact P|]. unfold Rdiv. rewrite Rmult_assoc, Rinv_l by lra. unfold Rdiv in M. lra.
  - apply Rdiv_lt_0_compat; lra.
  - apply (Rmult_lt_reg_r (atanh f)); [lra|]. unfold Rdiv. rewrite Rmult_assoc, Rinv_l by lra. lra.
Qed.
Lemma off u v : (u <> 0 \/ v <> 0) -> fst (along x0 y0 phi u v) <> x0 \/ snd (along x0 y0 phi u v) <> y0.
Proof. intros H. apply (frame_off x0 y0 phi). rewrite along_frame. exact H. Qed.
Lemma iso_mag x y : x <> x0 \/ y <> y0 -> magnification (reduced_deflection_angle_sie x0 y0 q phi Rein 0) x y =
  (let k := convergence_sie x0 y0 q phi Rein 0 x y in if Req_EM_T (1 - 2 * k) 0 then None else Some (1 / Rabs (1 - 2 * k))).
Proof. intros N. refine (proj2 (isothermal_flat _ _ _ x0 y0 x y (sie_consistent x0 y0 q phi Rein 0 x y Hq (or_introl eq_refl) _) (sie_scale_free x0 y0 q phi Rein x y _ N) N)); [tauto|lra]. Qed.
Lemma cross_images : let alpha := reduced_deflection_angle_sie x0 y0 q phi Rein 0 in
  a < b /\ 1 < f / (q * atan (f / q)) /\ 0 < f / atanh f < 1 /\
  (forall p, In p [along x0 y0 phi a 0; along x0 y0 phi (- a) 0] -> magnification alpha (fst p) (snd p) = Some (1 / (f / (q * atan (f / q)) - 1)) /\ mirrored alpha (fst p) (snd p)) /\
  (forall p, In p [along x0 y0 phi 0 b; along x0 y0 phi 0 (- b)] -> magnification alpha (fst p) (snd p) = Some (1 / (1 - f / atanh f)) /\ keeps_sense alpha (fst p) (snd p)).
Proof.
  intros alpha. destruct a_less_b as [A B]. destruct ranges as (R1 & R2). split; [exact B|]. split; [exact R1|]. split; [exact R2|]. split; intros p I.
  - assert (N : fst p <> x0 \/ snd p <> y0) by (destruct I as [<-|[<-|[]]]; apply off; left; lra). assert (K := major_kappa p I). split.
    + unfold alpha. rewrite (iso_mag _ _ N). cbv zeta. rewrite K. destruct (Req_EM_T _ _) as [Z|Z]; [lra|]. rewrite Rabs_left by lra. do 2 f_equal. ring.
    + apply (proj2 (sie_sense x0 y0 q phi Rein _ _ Hq N)). lra.
  - assert (N : fst p <> x0 \/ snd p <> y0) by (destruct I as [<-|[<-|[]]]; apply off; right; lra). assert (K := minor_kappa p I). split.
    + unfold alpha. rewrite (iso_mag _ _ N). cbv zeta. rewrite K. destruct (Req_EM_T _ _) as [Z|Z]; [lra|]. rewrite Rabs_right by lra. reflexivity.
    + apply (proj1 (sie_sense x0 y0 q phi Rein _ _ Hq N)). lra.
Qed.
Lemma along_norm u v : (fst (along x0 y0 phi u v) - x0) ^ 2 + (snd (along x0 y0 phi u v) - y0) ^ 2 = u ^ 2 + v ^ 2.
Proof. assert (U := sin2_cos2 phi). unfold Rsqr in U. unfold along. cbn [fst snd]. transitivity ((u ^ 2 + v ^ 2) * (sin phi * sin phi + cos phi * cos phi)); [ring|rewrite U; ring]. Qed.
Lemma cross_delay cd z zs p r : In p [along x0 y0 phi a 0; along x0 y0 phi (- a) 0; along x0 y0 phi 0 b; along x0 y0 phi 0 (- b)] -> In r [along x0 y0 phi a 0; along x0 y0 phi (- a) 0; along x0 y0 phi 0 b; along x0 y0 phi 0 (- b)] ->
  time_delay cd (sie_lens z x0 y0 q phi Rein) zs (fst p) (snd p) true true - time_delay cd (sie_lens z x0 y0 q phi Rein) zs (fst r) (snd r) true true =
  delay_unit cd z zs * (((fst r - x0) ^ 2 + (snd r - y0) ^ 2) - ((fst p - x0) ^ 2 + (snd p - y0) ^ 2)) / 2.
Proof.
  intros I J. apply sie_two. rewrite (proj2 (cross_seen x0 y0 q phi Rein Hq HR p I)). exact (proj2 (cross_seen x0 y0 q phi Rein Hq HR r J)).
Qed.
Lemma cross_delays cd z zs : let tau p := time_delay cd (sie_lens z x0 y0 q phi Rein) zs (fst p) (snd p) true true in
  tau (along x0 y0 phi a 0) = tau (along x0 y0 phi (- a) 0) /\ tau (along x0 y0 phi 0 b) = tau (along x0 y0 phi 0 (- b)) /\
  tau (along x0 y0 phi a 0) - tau (along x0 y0 phi 0 b) = delay_unit cd z zs * (b ^ 2 - a ^ 2) / 2.
Proof.
  intros tau. split; [|split].
  - apply Rminus_diag_uniq. unfold tau. rewrite cross_delay by (cbn [In]; tauto). rewrite !along_norm. unfold Rdiv. ring.
  - apply Rminus_diag_uniq. unfold tau. rewrite cross_delay by (cbn [In]; tauto). rewrite !along_norm. unfold Rdiv. ring.
  - unfold tau. rewrite cross_delay by (cbn [In]; tauto). rewrite !along_norm. unfold Rdiv. ring.
Qed.
Lemma cross_first cd z zs : 0 < delay_unit cd z zs -> let tau p := time_delay cd (sie_lens z x0 y0 q phi Rein) zs (fst p) (snd p) true true in
  tau (along x0 y0 phi 0 b) < tau (along x0 y0 phi a 0).
Proof.
  intros D tau. assert (E : tau (along x0 y0 phi a 0) - tau (along x0 y0 phi 0 b) = delay_unit cd z zs * (b ^ 2 - a ^ 2) / 2) by exact (proj2 (proj2 (cross_delays cd z zs))). destruct a_less_b as [A B]. assert (P : 0 < delay_unit cd z zs * (b ^ 2 - a ^ 2) / 2).
  { apply Rmult_lt_0_compat; [|lra]. apply Rmult_lt_0_compat; [exact D|]. replace (b ^ 2 - a ^ 2) with ((b - a) * (b + a)) by ring. apply Rmult_lt_0_compat; lra. }
  lra.
Qed.
End Cross.
Lemma cross_hyps : 0 < 1 / 4 < 1 /\ 0 < 4 /\ 2 * convergence_sie 0 0 (1 / 4) 0 4 0 0 3 < 1 /\ 1 < 2 * convergence_sie 0 0 (1 / 4) 0 4 0 2 0 /\ cross3 (0, 0) (1, 0) (0, 1) <> 0.
Proof.
  assert (Q : sqrt (1 / 4) = 1 / 2) by (replace (1 / 4) with (Rsqr (1 / 2)) by (unfold Rsqr; field); apply sqrt_Rsqr; lra).
  split; [lra|]. split; [lra|]. split; [|split].
  - replace (convergence_sie 0 0 (1 / 4) 0 4 0 0 3) with (/ 2 * sqrt (1 / 4) * 4 / 3); [rewrite Q; lra|].
    assert (K := kappa_along 0 0 (1 / 4) 0 4 0 3). unfold along in K. cbn [fst snd] in K. rewrite cos_0, sin_0 in K. replace (0 + 0 * 1 - 3 * 0) with 0 in K by ring. replace (0 + 0 * 0 + 3 * 1) with 3 in K by ring. rewrite K.
    f_equal. f_equal. replace ((1 / 4) ^ 2 * 0 ^ 2 + 3 ^ 2) with (Rsqr 3) by (unfold Rsqr; field). rewrite sqrt_Rsqr; lra.
  - replace (convergence_sie 0 0 (1 / 4) 0 4 0 2 0) with (/ 2 * sqrt (1 / 4) * 4 / (1 / 2)); [rewrite Q; lra|].
    assert (K := kappa_along 0 0 (1 / 4) 0 4 2 0). unfold along in K. cbn [fst snd] in K. rewrite cos_0, sin_0 in K. replace (0 + 2 * 1 - 0 * 0) with 2 in K by ring. replace (0 + 2 * 0 + 0 * 1) with 0 in K by ring. rewrite K.
    f_equal. f_equal. replace ((1 / 4) ^ 2 * 2 ^ 2 + 0 ^ 2) with (Rsqr (1 / 2)) by (unfold Rsqr; field). rewrite sqrt_Rsqr; lra.
  - unfold cross3. cbn [fst snd]. lra.
Qed.
