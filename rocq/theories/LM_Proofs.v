(** * Proofs about the Levenberg-Marquardt fitting *)
From Coq Require Import Reals List Arith Lia Lra.
From Coq Require Import FunctionalExtensionality.
From Coquelicot Require Import Coquelicot.
From Verif Require Import Py Fsum LM_Model LM_Spec.
Import ListNotations.
Local Open Scope R_scope.

(** ** quadratic forms *)
Lemma qform_ext m W u u' v v' : (forall i, (i < m)%nat -> u i = u' i) -> (forall i, (i < m)%nat -> v i = v' i) -> qform m W u v = qform m W u' v'.
Proof. intros Hu Hv. apply fsum_ext. intros i Hi. apply fsum_ext. intros j Hj. rewrite Hu, Hv by assumption. reflexivity. Qed.
Lemma qform_minus_l m W u u' v : qform m W (fun i => u i - u' i) v = qform m W u v - qform m W u' v.
Proof.
  unfold qform. rewrite <- fsum_minus. apply fsum_ext. intros i _. rewrite <- fsum_minus. apply fsum_ext. intros j _. ring.
Qed.
Lemma qform_minus_r m W u v v' : qform m W u (fun i => v i - v' i) = qform m W u v - qform m W u v'.
Proof.
  unfold qform. rewrite <- fsum_minus. apply fsum_ext. intros i _. rewrite <- fsum_minus. apply fsum_ext. intros j _. ring.
Qed.
Lemma qform_sym m W u v : sym_psd m W -> qform m W u v = qform m W v u.
Proof.
  intros [S _]. unfold qform. rewrite fsum_swap. apply fsum_ext. intros j Hj. apply fsum_ext. intros i Hi. rewrite (S i j Hi Hj). ring.
Qed.
Lemma qform_sum_l n m W (A : mat) h v :
  qform m W (fun i => fsum n (fun j => A i j * h j)) v = fsum n (fun j => h j * qform m W (fun i => A i j) v).
Proof.
  unfold qform.
  rewrite (fsum_ext n _ (fun j => fsum m (fun i => fsum m (fun k => h j * (A i j * wmat W i k * v k))))).
  2:{ intros j _. rewrite <- fsum_scal_l. apply fsum_ext. intros i _. rewrite <- fsum_scal_l. reflexivity. }
  symmetry. rewrite fsum_swap. apply fsum_ext. intros i _. rewrite fsum_swap. apply fsum_ext. intros k _.
  symmetry. rewrite <- fsum_scal_r, <- fsum_scal_r. apply fsum_ext. intros j _. ring.
Qed.
Lemma qform_sum_r n m W (A : mat) h v : 
  qform m W v (fun i => fsum n (fun j => A i j * h j)) = fsum n (fun j => h j * qform m W v (fun i => A i j)).
Proof.
  unfold qform.
  rewrite (fsum_ext n _ (fun j => fsum m (fun i => fsum m (fun k => h j * (v i * wmat W i k * A k j))))).
  2:{ intros j _. rewrite <- fsum_scal_l. apply fsum_ext. intros i _. rewrite <- fsum_scal_l. reflexivity. }
  symmetry. rewrite fsum_swap. apply fsum_ext. intros i _. rewrite fsum_swap. apply fsum_ext. intros k _.
  symmetry. rewrite <- fsum_scal_l. apply fsum_ext. intros j _. ring.
Qed.
Lemma diag_sum m (w : vec) i (g : vec) : (i < m)%nat -> fsum m (fun j => (if Nat.eqb i j then w i else 0) * g j) = w i * g i.
Proof.
  intros Hi. rewrite (fsum_single m _ i Hi).
  - rewrite Nat.eqb_refl. reflexivity.
  - intros j _ D. destruct (Nat.eqb_spec i j); [congruence|ring].
Qed.
Lemma chi2_chisq m W d : chi2_of m W d = chisq m W d.
Proof.
  unfold chi2_of, chisq, qform, wmat. destruct W as [w|M].
  - apply fsum_ext. intros i Hi.
    rewrite (fsum_ext m _ (fun j => (if Nat.eqb i j then w i else 0) * (d i * d j))) by (intros; ring).
    rewrite diag_sum by exact Hi. ring.
  - symmetry. rewrite fsum_swap. apply fsum_ext. intros j _. rewrite <- fsum_scal_r. reflexivity.
Qed.
Lemma grad_qform m W J d j : grad_of m W J d j = qform m W (fun i => J i j) d.
Proof.
  unfold grad_of, qform, wmat. destruct W as [w|M].
  - apply fsum_ext. intros i Hi.
    rewrite (fsum_ext m _ (fun k => (if Nat.eqb i k then w i else 0) * (J i j * d k))) by (intros; ring).
    rewrite diag_sum by exact Hi. ring.
  - symmetry. rewrite fsum_swap. apply fsum_ext. intros b _. rewrite <- fsum_scal_r. reflexivity.
Qed.
Lemma hess_qform m W J L j k :
  hess_of m W J L j k = qform m W (fun i => J i j) (fun i => J i k) + L * (if Nat.eqb j k then 1 else 0).
Proof.
  unfold hess_of, qform, wmat. f_equal. destruct W as [w|M].
  - apply fsum_ext. intros i Hi.
    rewrite (fsum_ext m _ (fun l => (if Nat.eqb i l then w i else 0) * (J i j * J l k))) by (intros; ring).
    rewrite diag_sum by exact Hi. ring.
  - symmetry. rewrite fsum_swap. apply fsum_ext. intros b _. rewrite <- fsum_scal_r. reflexivity.
Qed.
(** h . (H h) for the damped hessian *)
Lemma hess_quadratic n m W J L h :
  fsum n (fun i => h i * fsum n (fun k => hess_of m W J L i k * h k)) =
  chisq m W (fun i => fsum n (fun j => J i j * h j)) + L * fsum n (fun k => h k ^ 2).
Proof.
  unfold chisq. rewrite (qform_sum_l n m W J h).
  rewrite <- fsum_scal_l, <- fsum_plus. apply fsum_ext. intros i Hi.
  rewrite (qform_sum_r n m W J h).
  rewrite (fsum_ext n _ (fun k => h k * qform m W (fun a => J a i) (fun a => J a k) + (if Nat.eqb i k then L else 0) * h k)).
  2:{ intros k _. rewrite hess_qform. destruct (Nat.eqb i k); ring. }
  rewrite fsum_plus, (diag_sum n (fun _ => L) i h Hi). ring.
Qed.

(** ** one step never makes the fit worse *)
Section Step.
Variables (Din Dout : nat) (solve : mat -> vec -> vec) (f : vec -> vec) (Lup Ldn epsilon L_min L_max : R).
Notation step := (lm_step Din Dout solve f Lup Ldn epsilon L_min L_max).
Notation rho := (lm_rho Din Dout solve f).

Definition expected (X Y : vec) W L : R :=
  let J := jacobian f X in let h := lm_h Dout solve f X Y W L in
  fsum Din (fun i => h i * fsum Din (fun k => hess_of Dout W J L i k * h k)) +
  2 * fsum Din (fun i => h i * grad_of Dout W J (residual f X Y) i).
Lemma accepted_gain X Y W L : 0 <= epsilon -> qge (rho X Y W L) epsilon = true ->
  let h := lm_h Dout solve f X Y W L in
  chisq Dout W (residual f X Y) - chisq Dout W (residual f (moved X h) Y) >= epsilon * Rabs (expected X Y W L) /\
  chisq Dout W (residual f (moved X h) Y) <= chisq Dout W (residual f X Y) /\
  (0 < epsilon -> chisq Dout W (residual f (moved X h) Y) < chisq Dout W (residual f X Y)).
Proof.
  intros He H h. unfold lm_rho in H. rewrite !chi2_chisq in H. fold h in H.
  change (fun i => Y i - f X i) with (residual f X Y) in H.
  change (fun i => Y i - f (moved X h) i) with (residual f (moved X h) Y) in H.
  change (fsum Din (fun i => h i * fsum Din (fun k => hess_of Dout W (jacobian f X) L i k * h k)) +
          2 * fsum Din (fun i => h i * grad_of Dout W (jacobian f X) (residual f X Y) i)) with (expected X Y W L) in H.
  set (a := chisq Dout W (residual f X Y)) in *. set (b := chisq Dout W (residual f (moved X h) Y)) in *.
  unfold fdiv in H. destruct (Req_EM_T (Rabs (expected X Y W L)) 0) as [Z|NZ].
  - rewrite Z. destruct (Rlt_dec 0 (a - b)); [|destruct (Rlt_dec (a - b) 0); discriminate]. lra.
  - assert (P : 0 < Rabs (expected X Y W L)) by (assert (Q := Rabs_pos (expected X Y W L)); lra).
    cbn in H. destruct (Rle_dec epsilon ((a - b) / Rabs (expected X Y W L))) as [G|]; [|discriminate].
    set (e := Rabs (expected X Y W L)) in *.
    assert (G' : epsilon * e <= a - b).
    { apply Rmult_le_compat_r with (r := e) in G; [|lra]. unfold Rdiv in G. rewrite Rmult_assoc, Rinv_l in G by lra. lra. }
    assert (0 <= epsilon * e) by (apply Rmult_le_pos; lra). split; [lra|]. split; [lra|]. intros He'.
    assert (0 < epsilon * e) by (apply Rmult_lt_0_compat; lra). lra.
Qed.
Lemma rejected_gain X Y W L : qge (rho X Y W L) epsilon = false ->
  let h := lm_h Dout solve f X Y W L in
  let gain := chisq Dout W (residual f X Y) - chisq Dout W (residual f (moved X h) Y) in
  (expected X Y W L = 0 /\ gain <= 0) \/ gain < epsilon * Rabs (expected X Y W L).
Proof.
  intros H h gain. unfold lm_rho in H. rewrite !chi2_chisq in H. fold h in H.
  change (fun i => Y i - f X i) with (residual f X Y) in H.
  change (fun i => Y i - f (moved X h) i) with (residual f (moved X h) Y) in H.
  change (fsum Din (fun i => h i * fsum Din (fun k => hess_of Dout W (jacobian f X) L i k * h k)) +
          2 * fsum Din (fun i => h i * grad_of Dout W (jacobian f X) (residual f X Y) i)) with (expected X Y W L) in H.
  fold gain in H. clearbody gain.
  unfold fdiv in H. destruct (Req_EM_T (Rabs (expected X Y W L)) 0) as [Z|NZ].
  - left. split; [destruct (Req_dec (expected X Y W L) 0) as [|N]; [assumption|destruct (Rabs_no_R0 _ N Z)]|].
    destruct (Rlt_dec 0 gain); [discriminate|lra].
  - right. assert (P : 0 < Rabs (expected X Y W L)) by (assert (Q := Rabs_pos (expected X Y W L)); lra).
    cbn in H. destruct (Rle_dec epsilon (gain / Rabs (expected X Y W L))) as [|G]; [discriminate|]. apply Rnot_le_lt in G.
    set (e := Rabs (expected X Y W L)) in *. apply Rmult_lt_compat_r with (r := e) in G; [|lra]. unfold Rdiv in G. rewrite Rmult_assoc, Rinv_l in G by lra. lra.
Qed.
Lemma step_cases X Y W L : 0 <= epsilon ->
  let X' := fst (fst (step X Y W L)) in
  (X' = X /\ snd (fst (step X Y W L)) = clamp (L * Lup) L_min L_max /\
   (let gain := chisq Dout W (residual f X Y) - chisq Dout W (residual f (moved X (lm_h Dout solve f X Y W L)) Y) in
    (expected X Y W L = 0 /\ gain <= 0) \/ gain < epsilon * Rabs (expected X Y W L))) \/
  (exists h, h = lm_h Dout solve f X Y W L /\ X' = moved X h /\ snd (fst (step X Y W L)) = clamp (L / Ldn) L_min L_max /\
   chisq Dout W (residual f X Y) - chisq Dout W (residual f X' Y) >= epsilon * Rabs (expected X Y W L) /\
   chisq Dout W (residual f X' Y) <= chisq Dout W (residual f X Y) /\
   (0 < epsilon -> chisq Dout W (residual f X' Y) < chisq Dout W (residual f X Y))).
Proof.
  intros He X'. unfold X', lm_step. cbn [fst snd]. destruct (qge (rho X Y W L) epsilon) eqn:E; [right|left; split; [reflexivity|]; split; [reflexivity|apply rejected_gain; exact E]].
  exists (lm_h Dout solve f X Y W L). split; [reflexivity|]. split; [reflexivity|]. split; [reflexivity|].
  apply accepted_gain; assumption.
Qed.
Lemma step_chisq X Y W L : 0 <= epsilon -> chisq Dout W (residual f (fst (fst (step X Y W L))) Y) <= chisq Dout W (residual f X Y).
Proof.
  intros He. destruct (step_cases X Y W L He) as [[E _]|(h & _ & E & _ & _ & G & _)]; cbv zeta in *; [rewrite E; lra|exact G].
Qed.
Lemma clamp_range x : L_min <= L_max -> L_min <= clamp x L_min L_max <= L_max.
Proof.
  intros H. unfold clamp. split; [|apply Rmin_r]. apply Rmin_glb; [apply Rmax_r|exact H].
Qed.
Lemma step_L X Y W L : L_min <= L_max -> L_min <= snd (fst (step X Y W L)) <= L_max.
Proof. intros H. apply clamp_range, H. Qed.

(** ** the loop *)
Variables (B : nat) (Ys : nat -> vec) (Cinvs : nat -> weights) (stopping : R).
Notation loop := (lm_loop Din Dout solve f Lup Ldn epsilon L_min L_max B Ys Cinvs stopping).
Notation fit := (fun b X => chisq Dout (Cinvs b) (residual f X (Ys b))).
Lemma loop_mono n : 0 <= epsilon -> forall Xs Ls C b, fit b (fst (fst (loop n Xs Ls C)) b) <= fit b (Xs b).
Proof.
  intros He. induction n as [|n IH]; intros Xs Ls C b; cbn [lm_loop fst]; [lra|]. cbv zeta.
  destruct (converged _ _ _ _ _ _); cbn [fst]; [lra|]. destruct (all_stuck _ _ _); cbn [fst]; [lra|].
  eapply Rle_trans; [apply IH|]. cbv beta. apply step_chisq, He.
Qed.
Lemma loop_mono_iter n : 0 <= epsilon -> forall Xs Ls C b, fit b (fst (fst (loop (S n) Xs Ls C)) b) <= fit b (fst (fst (loop n Xs Ls C)) b).
Proof.
  intros He. induction n as [|n IH]; intros Xs Ls C b; [apply (loop_mono 1 He)|].
  set (out := fun b => step (Xs b) (Ys b) (Cinvs b) (Ls b)).
  assert (E : forall k, loop (S k) Xs Ls C =
    if converged Din B stopping Xs (fun b => fst (fst (out b))) (fun b => snd (fst (out b))) then (Xs, (fun b => snd (fst (out b))), Chi2 (fun b => snd (out b)))
    else if all_stuck L_max B (fun b => snd (fst (out b))) then (Xs, (fun b => snd (fst (out b))), Chi2 (fun b => snd (out b)))
    else loop k (fun b => fst (fst (out b))) (fun b => snd (fst (out b))) (Chi2 (fun b => snd (out b)))) by reflexivity.
  rewrite (E (S n)), (E n).
  destruct (converged _ _ _ _ _ _); [apply Rle_refl|]. destruct (all_stuck _ _ _); [apply Rle_refl|]. apply IH.
Qed.
Lemma loop_L n Xs Ls C b : L_min <= L_max -> (n <> 0%nat \/ L_min <= Ls b <= L_max) -> L_min <= snd (fst (loop n Xs Ls C)) b <= L_max.
Proof.
  intros HL. revert Xs Ls C. induction n as [|n IH]; intros Xs Ls C H; cbn [lm_loop fst snd].
  - destruct H as [H|H]; [congruence|exact H].
  - cbv zeta. destruct (converged _ _ _ _ _ _); cbn [fst snd]; [apply step_L, HL|].
    destruct (all_stuck _ _ _); cbn [fst snd]; [apply step_L, HL|]. apply IH. right. apply step_L, HL.
Qed.

(** ** the returned chi-squared *)
Lemma step_chi2 X Y W L : rho X Y W L <> Fin epsilon ->
  snd (step X Y W L) = chisq Dout W (residual f (fst (fst (step X Y W L))) Y).
Proof.
  intros H. unfold lm_step. cbn [fst snd]. rewrite !chi2_chisq.
  assert (E : qgt (rho X Y W L) epsilon = qge (rho X Y W L) epsilon).
  { destruct (rho X Y W L) as [r| | |]; try reflexivity. cbn. destruct (Rlt_dec epsilon r), (Rle_dec epsilon r); try reflexivity; try lra.
    exfalso. apply H. f_equal. lra. }
  rewrite E. destruct (qge _ _); reflexivity.
Qed.
Lemma stuck_same X Y W L : 0 < L_max -> L_min < L_max -> 1 < Ldn -> L <= L_max -> L_max <= snd (fst (step X Y W L)) -> fst (fst (step X Y W L)) = X.
Proof.
  intros H1 H2 H3 H4 H5. unfold lm_step in *. cbn [fst snd] in *. destruct (qge _ _); [|reflexivity]. exfalso.
  assert (Q : L / Ldn < L_max).
  { apply Rmult_lt_reg_r with Ldn; [lra|]. unfold Rdiv. rewrite Rmult_assoc, Rinv_l by lra. nra. }
  unfold clamp in H5. assert (M : Rmax (L / Ldn) L_min < L_max) by (apply Rmax_lub_lt; assumption).
  rewrite Rmin_left in H5 by lra. lra.
Qed.
Lemma loop_chi2 n : 0 < L_max -> L_min < L_max -> 1 < Ldn ->
  (forall b X L, (b < B)%nat -> L_min <= L <= L_max -> rho X (Ys b) (Cinvs b) L <> Fin epsilon) ->
  forall Xs Ls C, (forall b, (b < B)%nat -> L_min <= Ls b <= L_max) ->
  (n <> 0%nat \/ exists c, C = Chi2 c /\ forall b, (b < B)%nat -> c b = fit b (Xs b)) ->
  exists X' c, snd (loop n Xs Ls C) = Chi2 c /\
   (X' = fst (fst (loop n Xs Ls C)) \/ forall b k, (b < B)%nat -> (k < Din)%nat -> Rabs (X' b k - fst (fst (loop n Xs Ls C)) b k) < stopping) /\
   (forall b, (b < B)%nat -> c b = fit b (X' b)).
Proof.
  intros HM HLL HD NT. induction n as [|n IH]; intros Xs Ls C HL H; cbn [lm_loop].
  - destruct H as [H|(c & -> & Hc)]; [congruence|]. exists Xs, c. cbn [fst snd]. auto.
  - cbv zeta. set (out := fun b => step (Xs b) (Ys b) (Cinvs b) (Ls b)).
    assert (C2 : forall b, (b < B)%nat -> snd (out b) = fit b (fst (fst (out b)))).
    { intros b Hb. apply step_chi2, NT; [exact Hb|apply HL, Hb]. }
    destruct (converged _ _ _ _ _ _) eqn:E1; [|destruct (all_stuck _ _ _) eqn:E2].
    + exists (fun b => fst (fst (out b))), (fun b => snd (out b)). cbn [fst snd]. split; [reflexivity|]. split; [|exact C2].
      right. intros b k Hb Hk. unfold converged in E1. apply andb_prop in E1. destruct E1 as [E1 _].
      rewrite forallb_forall in E1. specialize (E1 b ltac:(apply in_seq; lia)). rewrite forallb_forall in E1.
      specialize (E1 k ltac:(apply in_seq; lia)). cbv beta in E1. fold (out b) in E1.
      destruct (Rlt_dec _ stopping) as [l|]; [exact l|discriminate].
    + exists Xs, (fun b => snd (out b)). cbn [fst snd]. split; [reflexivity|]. split; [left; reflexivity|].
      intros b Hb. rewrite (C2 b Hb). unfold all_stuck in E2. rewrite forallb_forall in E2. specialize (E2 b ltac:(apply in_seq; lia)).
      cbv beta in E2. fold (out b) in E2. destruct (Rle_dec L_max (snd (fst (out b)))) as [l|]; [|discriminate].
      unfold out in *. rewrite (stuck_same _ _ _ _ HM HLL HD (proj2 (HL b Hb)) l). reflexivity.
    + apply IH.
      * intros b Hb. apply step_L. lra.
      * right. exists (fun b => snd (out b)). split; [reflexivity|exact C2].
Qed.
End Step.

(** ** affine models *)
Section Affine.
Variables (n m : nat) (solve : mat -> vec -> vec) (f : vec -> vec) (c : vec) (A : mat).
Hypotheses (Hsolve : solver_ok n solve) (Haff : is_affine n m f c A).
Lemma jacobian_affine X i j : (i < m)%nat -> (j < n)%nat -> jacobian f X i j = A i j.
Proof.
  intros Hi Hj. unfold jacobian.
  rewrite (Derive_ext _ (fun t => c i + fsum n (fun k => A i k * upd X j t k))) by (intros t; apply Haff, Hi).
  apply is_derive_unique.
  assert (D : is_derive (fun t => fsum n (fun k => A i k * upd X j t k)) (X j) (fsum n (fun k => A i k * (if Nat.eqb k j then 1 else 0)))).
  { apply (is_derive_fsum n (fun k t => A i k * upd X j t k)). intros k _. unfold upd. destruct (Nat.eqb k j).
    - auto_derive; [exact I|ring].
    - auto_derive; [exact I|ring]. }
  rewrite (fsum_single n _ j Hj) in D.
  - rewrite Nat.eqb_refl, Rmult_1_r in D. 
    assert (D2 := is_derive_plus (fun _ : R => c i) _ (X j) _ _ (is_derive_const (K := R_AbsRing) (V := R_NormedModule) (c i) (X j)) D).
    replace (A i j) with (plus (zero : R) (A i j)) by (unfold plus, zero; cbn; ring). exact D2.
  - intros k _ D'. destruct (Nat.eqb_spec k j); [contradiction|ring].
Qed.
Definition Amul (h : vec) : vec := fun i => fsum n (fun j => A i j * h j).
Lemma hess_affine W X L j k : (j < n)%nat -> (k < n)%nat -> hess_of m W (jacobian f X) L j k = hess_of m W A L j k.
Proof.
  intros Hj Hk. rewrite !hess_qform. f_equal. apply qform_ext; intros i Hi; apply jacobian_affine; assumption.
Qed.
Lemma grad_affine W X d j : (j < n)%nat -> grad_of m W (jacobian f X) d j = qform m W (fun i => A i j) d.
Proof.
  intros Hj. rewrite grad_qform. apply qform_ext; [intros i Hi; apply jacobian_affine; assumption|reflexivity].
Qed.
Section OneStep.
Variables (X Y : vec) (W : weights) (L : R).
Hypotheses (HW : sym_psd m W) (HL : 0 < L).
Lemma sum_squares_zero (v : vec) : fsum n (fun k => v k ^ 2) <= 0 -> forall k, (k < n)%nat -> v k = 0.
Proof.
  intros H k Hk. assert (G := fsum_ge_one n (fun k => v k ^ 2) k Hk ltac:(intros; apply pow2_ge_0)). cbv beta in G.
  assert (P := pow2_ge_0 (v k)). assert (Z : v k ^ 2 = 0) by lra. apply Rsqr_0_uniq. unfold Rsqr. lra.
Qed.
Lemma step_solves i : (i < n)%nat ->
  fsum n (fun k => hess_of m W (jacobian f X) L i k * lm_h m solve f X Y W L k) = grad_of m W (jacobian f X) (residual f X Y) i.
Proof.
  apply Hsolve. intros v Hv. apply sum_squares_zero.
  assert (Q := hess_quadratic n m W (jacobian f X) L v).
  rewrite (fsum_zero n (fun i => v i * fsum n (fun k => hess_of m W (jacobian f X) L i k * v k))) in Q
    by (intros j Hj; rewrite Hv by exact Hj; ring).
  assert (P := proj2 HW (fun i => fsum n (fun j => jacobian f X i j * v j))). unfold chisq in Q.
  destruct (Rle_dec (fsum n (fun k => v k ^ 2)) 0) as [l|l]; [exact l|]. nra.
Qed.
Notation h := (lm_h m solve f X Y W L).
Lemma dot_grad : fsum n (fun i => h i * grad_of m W (jacobian f X) (residual f X Y) i) =
  chisq m W (Amul h) + L * fsum n (fun k => h k ^ 2).
Proof.
  rewrite (fsum_ext n _ (fun i => h i * fsum n (fun k => hess_of m W (jacobian f X) L i k * h k)))
    by (intros i Hi; rewrite step_solves by exact Hi; reflexivity).
  rewrite hess_quadratic. f_equal. unfold chisq. apply qform_ext; intros i Hi; apply fsum_ext; intros j Hj; rewrite jacobian_affine by assumption; reflexivity.
Qed.
Lemma affine_gain : chisq m W (residual f X Y) - chisq m W (residual f (moved X h) Y) = chisq m W (Amul h) + 2 * (L * fsum n (fun k => h k ^ 2)).
Proof.
  assert (E : chisq m W (residual f (moved X h) Y) =
    chisq m W (residual f X Y) - 2 * qform m W (Amul h) (residual f X Y) + chisq m W (Amul h)).
  { unfold chisq.
    rewrite (qform_ext m W _ (fun i => residual f X Y i - Amul h i) _ (fun i => residual f X Y i - Amul h i)).
    - rewrite qform_minus_l, !qform_minus_r. rewrite (qform_sym m W (residual f X Y) (Amul h) HW). ring.
    - intros i Hi. unfold residual. rewrite !Haff by exact Hi. unfold moved, Amul.
      rewrite (fsum_ext n (fun j => A i j * (X j + h j)) (fun j => A i j * X j + A i j * h j)) by (intros; ring). rewrite fsum_plus. ring.
    - intros i Hi. unfold residual. rewrite !Haff by exact Hi. unfold moved, Amul.
      rewrite (fsum_ext n (fun j => A i j * (X j + h j)) (fun j => A i j * X j + A i j * h j)) by (intros; ring). rewrite fsum_plus. ring. }
  rewrite E. assert (D := dot_grad).
  rewrite (fsum_ext n _ (fun i => h i * qform m W (fun a => A a i) (residual f X Y))) in D
    by (intros i Hi; rewrite grad_affine by exact Hi; reflexivity).
  rewrite <- qform_sum_l in D. fold (Amul h) in D. rewrite D. ring.
Qed.
Lemma nonstationary j : (j < n)%nat -> qform m W (fun i => A i j) (residual f X Y) <> 0 -> 0 < fsum n (fun k => h k ^ 2).
Proof.
  intros Hj H. assert (P : 0 <= fsum n (fun k => h k ^ 2)) by (apply fsum_nonneg; intros; apply pow2_ge_0).
  destruct (Rle_dec (fsum n (fun k => h k ^ 2)) 0) as [l|l]; [|lra]. exfalso. apply H.
  rewrite <- (grad_affine W X _ j Hj), <- step_solves by exact Hj. apply fsum_zero. intros k Hk.
  rewrite (sum_squares_zero h l k Hk). ring.
Qed.
Lemma affine_rho j : (j < n)%nat -> qform m W (fun i => A i j) (residual f X Y) <> 0 ->
  exists r, lm_rho n m solve f X Y W L = Fin r /\ 1 / 3 <= r.
Proof.
  intros Hj H. assert (N := nonstationary j Hj H).
  unfold lm_rho. cbv zeta. rewrite !chi2_chisq.
  change (fun i => Y i - f X i) with (residual f X Y). change (fun i => Y i - f (moved X h) i) with (residual f (moved X h) Y).
  rewrite affine_gain.
  rewrite (fsum_ext n (fun i => h i * fsum n (fun k => hess_of m W (jacobian f X) L i k * h k))
     (fun i => h i * grad_of m W (jacobian f X) (residual f X Y) i)) by (intros i Hi; rewrite step_solves by exact Hi; reflexivity).
  rewrite dot_grad. set (q := chisq m W (Amul h)). set (s := fsum n (fun k => h k ^ 2)) in *.
  assert (Q : 0 <= q) by apply (proj2 HW). assert (LS : 0 < L * s) by (apply Rmult_lt_0_compat; assumption).
  rewrite Rabs_right by lra. unfold fdiv. destruct (Req_EM_T (q + L * s + 2 * (q + L * s)) 0) as [Z|_]; [lra|].
  eexists. split; [reflexivity|]. apply Rmult_le_reg_r with (q + L * s + 2 * (q + L * s)); [lra|].
  unfold Rdiv at 2. rewrite Rmult_assoc, Rinv_l by lra. lra.
Qed.
Lemma affine_step Lup Ldn epsilon L_min L_max j : epsilon < 1 / 3 -> (j < n)%nat -> qform m W (fun i => A i j) (residual f X Y) <> 0 ->
  exists h, (exists k, (k < n)%nat /\ h k <> 0) /\
  lm_step n m solve f Lup Ldn epsilon L_min L_max X Y W L =
    (moved X h, clamp (L / Ldn) L_min L_max, chisq m W (residual f (moved X h) Y)) /\
  chisq m W (residual f (moved X h) Y) < chisq m W (residual f X Y).
Proof.
  intros He Hj H. exists h. destruct (affine_rho j Hj H) as (r & Er & Hr). assert (N := nonstationary j Hj H). split; [|split].
  - destruct (Classical_Prop.classic (exists k, (k < n)%nat /\ h k <> 0)) as [Y1|N1]; [exact Y1|exfalso].
    rewrite (fsum_zero n) in N; [lra|]. intros i Hi. destruct (Req_dec (h i) 0) as [->|D]; [ring|]. exfalso. apply N1. exists i. auto.
  - unfold lm_step. rewrite Er. cbn [qge qgt]. destruct (Rle_dec epsilon r); [|lra]. destruct (Rlt_dec epsilon r); [|lra].
    rewrite chi2_chisq. reflexivity.
  - assert (G := affine_gain). assert (0 <= chisq m W (Amul h)) by apply (proj2 HW). assert (LS : 0 < L * fsum n (fun k => h k ^ 2)) by (apply Rmult_lt_0_compat; assumption). lra.
Qed.
End OneStep.
End Affine.

Lemma lm_loop_S Din Dout solve f Lup Ldn epsilon L_min L_max B Ys Cinvs stopping n Xs Ls C :
  lm_loop Din Dout solve f Lup Ldn epsilon L_min L_max B Ys Cinvs stopping (S n) Xs Ls C =
    let out := fun b => lm_step Din Dout solve f Lup Ldn epsilon L_min L_max (Xs b) (Ys b) (Cinvs b) (Ls b) in
    let Xnew := fun b => fst (fst (out b)) in
    let Lnew := fun b => snd (fst (out b)) in
    let Cnew := Chi2 (fun b => snd (out b)) in
    if converged Din B stopping Xs Xnew Lnew then (Xs, Lnew, Cnew)
    else if all_stuck L_max B Lnew then (Xs, Lnew, Cnew)
    else lm_loop Din Dout solve f Lup Ldn epsilon L_min L_max B Ys Cinvs stopping n Xnew Lnew Cnew.
Proof. reflexivity. Qed.

(** ** fitting the identity to zero with the default settings *)
Section Witness.
Variable solve : mat -> vec -> vec.
Hypothesis Hsolve : solver_ok 1 solve.
Definition ident : vec -> vec := fun X => X.
Definition Y0 : vec := fun _ => 0.
Definition W1 : weights := Diag (fun _ => 1).
Lemma ident_affine : is_affine 1 1 ident (fun _ => 0) (fun _ _ => 1).
Proof. intros X i Hi. assert (i = 0)%nat by lia. subst. unfold ident. cbn. ring. Qed.
Lemma W1_psd : sym_psd 1 W1.
Proof.
  split; [intros i j Hi Hj; assert (i = 0)%nat by lia; assert (j = 0)%nat by lia; subst; reflexivity|].
  intros u. unfold qform. cbn. nra.
Qed.
Lemma ident_chisq X : chisq 1 W1 (residual ident X Y0) = X 0%nat ^ 2.
Proof. unfold chisq, qform, residual, ident, Y0. cbn. ring. Qed.
Lemma ident_step X L : X 0%nat <> 0 -> 0 < L ->
  exists h, h 0%nat = - X 0%nat / (1 + L) /\
  lm_step 1 1 solve ident 9 11 (1 / 10) (1 / 10 ^ 9) (10 ^ 9) X Y0 W1 L =
    (moved X h, clamp (L / 11) (1 / 10 ^ 9) (10 ^ 9), (X 0%nat + h 0%nat) ^ 2).
Proof.
  intros HX HL.
  assert (G : qform 1 W1 (fun _ => 1) (residual ident X Y0) <> 0).
  { unfold qform, residual, ident, Y0. cbn. lra. }
  assert (S := step_solves 1 1 solve ident Hsolve X Y0 W1 L W1_psd HL 0%nat ltac:(lia)).
  exists (lm_h 1 solve ident X Y0 W1 L). set (h := lm_h 1 solve ident X Y0 W1 L) in *. split.
  - cbn [fsum] in S. rewrite (hess_affine 1 1 ident (fun _ => 0) (fun _ _ => 1) ident_affine) in S by lia.
    rewrite (grad_affine 1 1 ident (fun _ => 0) (fun _ _ => 1) ident_affine) in S by lia.
    unfold qform, residual, ident, Y0, hess_of in S. cbn in S.
    assert (E : (1 + L) * h 0%nat = - X 0%nat) by lra. rewrite <- E. field. lra.
  - destruct (affine_rho 1 1 solve ident (fun _ => 0) (fun _ _ => 1) Hsolve ident_affine X Y0 W1 L W1_psd HL 0%nat ltac:(lia) G) as (r & Er & Hr).
    unfold lm_step. rewrite Er. cbn [qge qgt]. destruct (Rle_dec (1 / 10) r); [|lra]. destruct (Rlt_dec (1 / 10) r); [|lra].
    rewrite chi2_chisq. fold h. change (fun i => Y0 i - ident (moved X h) i) with (residual ident (moved X h) Y0). rewrite ident_chisq. reflexivity.
Qed.
Definition X0 : nat -> vec := fun _ _ => 1 / 100000.
Lemma clamp_id x : 1 / 10 ^ 9 <= x <= 10 ^ 9 -> clamp x (1 / 10 ^ 9) (10 ^ 9) = x.
Proof. intros [H1 H2]. unfold clamp. rewrite Rmax_left by lra. apply Rmin_left. lra. Qed.
Lemma inconsistent : exists X L c,
  batch_lm 1 1 solve ident 9 11 (1 / 10) (1 / 10 ^ 9) (10 ^ 9) (1 / 10 ^ 4) 1 1 X0 (fun _ => Y0) (fun _ => W1) 1 50 = Ok (X, L, Chi2 c) /\
  c 0%nat <> chisq 1 W1 (residual ident (X 0%nat) Y0).
Proof.
  unfold batch_lm. cbn [Nat.eqb negb].
  destruct (ident_step (X0 0%nat) (1 * 1) ltac:(unfold X0; lra) ltac:(lra)) as (h1 & H1 & S1).
  set (X1 := moved (X0 0%nat) h1) in *.
  assert (V1 : X1 0%nat = 1 / 200000) by (unfold X1, moved; rewrite H1; unfold X0; field).
  rewrite clamp_id in S1 by lra.
  destruct (ident_step X1 (1 * 1 / 11) ltac:(lra) ltac:(lra)) as (h2 & H2 & S2).
  rewrite clamp_id in S2 by lra.
  set (X2 := moved X1 h2) in *.
  assert (V2 : h2 0%nat = - (11 / 2400000)) by (rewrite H2, V1; field).
  set (C2 := fun b : nat => (X1 0%nat + h2 0%nat) ^ 2).
  exists (fun _ => X1), (fun _ => 1 * 1 / 11 / 11), (fun _ => (X1 0%nat + h2 0%nat) ^ 2). split.
  2: { rewrite ident_chisq, V2, V1. lra. }
  - apply (f_equal Ok). change 50%nat with (S (S 48)). generalize 48%nat. intros n48. rewrite lm_loop_S. cbv zeta. change (X0 : nat -> vec) with (fun b : nat => X0 0%nat). cbv beta. rewrite S1. cbn [fst snd].
    assert (N1 : converged 1 1 (1 / 10 ^ 4) (fun _ => X0 0%nat) (fun _ => X1) (fun _ => 1 * 1 / 11) = false).
    { unfold converged. cbn [seq filter length]. destruct (Rlt_dec (1 * 1 / 11) (1 / 100)); [lra|]. cbn [length INR].
      destruct (Rlt_dec (1 / 3) 0); [lra|]. apply Bool.andb_false_r. }
    rewrite N1. unfold all_stuck at 1. cbn [seq forallb]. destruct (Rle_dec (10 ^ 9) (1 * 1 / 11)); [lra|]. cbn [andb].
    rewrite lm_loop_S. cbv zeta. rewrite S2. cbn [fst snd].
    assert (N2 : converged 1 1 (1 / 10 ^ 4) (fun _ => X1) (fun _ => X2) (fun _ => 1 * 1 / 11 / 11) = true).
    { unfold converged. cbn [seq filter length forallb]. destruct (Rlt_dec (1 * 1 / 11 / 11) (1 / 100)); [|lra]. cbn [length INR].
      destruct (Rlt_dec (1 / 3) 1); [|lra].
      assert (E : X2 0%nat - X1 0%nat = - (11 / 2400000)) by (unfold X2, moved; rewrite V2; ring). rewrite E.
      rewrite Rabs_left by lra. destruct (Rlt_dec (- - (11 / 2400000)) (1 / 10 ^ 4)) as [_|N]; [reflexivity|]. exfalso. apply N. lra. }
    rewrite N2. reflexivity.
Qed.
Lemma ident_no_tie X L : 0 < L -> lm_rho 1 1 solve ident X Y0 W1 L <> Fin (1 / 10).
Proof.
  intros HL. destruct (Req_dec (X 0%nat) 0) as [Z|NZ].
  - assert (S := step_solves 1 1 solve ident Hsolve X Y0 W1 L W1_psd HL 0%nat ltac:(lia)).
    assert (D := dot_grad 1 1 solve ident (fun _ => 0) (fun _ _ => 1) Hsolve ident_affine X Y0 W1 L W1_psd HL).
    set (h := lm_h 1 solve ident X Y0 W1 L) in *.
    assert (G0 : grad_of 1 W1 (jacobian ident X) (residual ident X Y0) 0%nat = 0).
    { rewrite (grad_affine 1 1 ident (fun _ => 0) (fun _ _ => 1) ident_affine) by lia. unfold qform, residual, ident, Y0. cbn. rewrite Z. ring. }
    assert (H0 : h 0%nat = 0).
    { cbn [fsum] in S. rewrite G0 in S. rewrite (hess_affine 1 1 ident (fun _ => 0) (fun _ _ => 1) ident_affine) in S by lia.
      unfold hess_of in S. cbn in S. nra. }
    unfold lm_rho. cbv zeta. fold h. cbn [fsum]. rewrite H0.
    match goal with |- fdiv _ (Rabs ?e) <> _ => replace e with 0 by ring end. rewrite Rabs_R0.
    unfold fdiv. destruct (Req_EM_T 0 0) as [_|N]; [|congruence]. destruct (Rlt_dec _ _); [discriminate|]. destruct (Rlt_dec _ _); discriminate.
  - assert (G : qform 1 W1 (fun _ => 1) (residual ident X Y0) <> 0) by (unfold qform, residual, ident, Y0; cbn; lra).
    destruct (affine_rho 1 1 solve ident (fun _ => 0) (fun _ _ => 1) Hsolve ident_affine X Y0 W1 L W1_psd HL 0%nat ltac:(lia) G) as (r & -> & Hr).
    intros E. injection E. lra.
Qed.
End Witness.

(** Cramer's rule solves two equations, division solves one *)
Definition cramer2 (H : mat) (g : vec) : vec := fun k =>
  let det := H 0%nat 0%nat * H 1%nat 1%nat - H 0%nat 1%nat * H 1%nat 0%nat in
  match k with
  | O => (g 0%nat * H 1%nat 1%nat - H 0%nat 1%nat * g 1%nat) / det
  | _ => (H 0%nat 0%nat * g 1%nat - g 0%nat * H 1%nat 0%nat) / det
  end.
Lemma cramer2_ok : solver_ok 2 cramer2.
Proof.
  intros H g K. set (a := H 0%nat 0%nat). set (b := H 0%nat 1%nat). set (c := H 1%nat 0%nat). set (d := H 1%nat 1%nat).
  assert (K' : forall x y, a * x + b * y = 0 -> c * x + d * y = 0 -> x = 0 /\ y = 0).
  { intros x y E1 E2. set (v := fun k : nat => match k with O => x | _ => y end).
    assert (Kv : forall k, (k < 2)%nat -> v k = 0).
    { apply K. intros i Hi. destruct i as [|[|i]]; [| |lia]; cbn; [fold a b|fold c d]; lra. }
    split; [apply (Kv 0%nat); lia|apply (Kv 1%nat); lia]. }
  assert (ND : a * d - b * c <> 0).
  { intros Z. destruct (K' (- b) a ltac:(ring) ltac:(lra)) as [B0 A0]. destruct (K' (- d) c ltac:(nra) ltac:(ring)) as [D0 C0].
    destruct (K' 1 0) as [X _]; [nra|nra|lra]. }
  intros i Hi. destruct i as [|[|i]]; [| |lia]; cbn [fsum]; unfold cramer2; fold a b c d; field; exact ND.
Qed.
Definition divide1 (H : mat) (g : vec) : vec := fun _ => g 0%nat / H 0%nat 0%nat.
Lemma divide1_ok : solver_ok 1 divide1.
Proof.
  intros H g K i Hi. assert (i = 0)%nat by lia. subst. cbn. unfold divide1.
  assert (N : H 0%nat 0%nat <> 0).
  { intros Z. assert (X := K (fun _ => 1) ltac:(intros j Hj; assert (j = 0)%nat by lia; subst; cbn; rewrite Z; ring) 0%nat ltac:(lia)). cbv beta in X. lra. }
  field. exact N.
Qed.

(** ** batch_lm *)
Lemma normal_equations n m solve f : solver_ok n solve -> forall X Y W L, sym_psd m W -> 0 < L -> forall i, (i < n)%nat ->
  fsum n (fun k => (qform m W (fun a => jacobian f X a i) (fun a => jacobian f X a k) + L * (if Nat.eqb i k then 1 else 0)) * lm_h m solve f X Y W L k)
  = qform m W (fun a => jacobian f X a i) (residual f X Y).
Proof.
  intros Hs X Y W L HW HL i Hi. rewrite <- grad_qform, <- (step_solves n m solve f Hs X Y W L HW HL i Hi).
  apply fsum_ext. intros k _. rewrite hess_qform. reflexivity.
Qed.
Lemma batch_mismatch Din Dout solve f Lup Ldn epsilon L_min L_max stopping lenX lenY Xs Ys Ws L n : lenX <> lenY ->
  batch_lm Din Dout solve f Lup Ldn epsilon L_min L_max stopping lenX lenY Xs Ys Ws L n = Raise ValueError.
Proof. intros H. unfold batch_lm. destruct (Nat.eqb_spec lenX lenY); [contradiction|reflexivity]. Qed.
Lemma batch_monotone Din Dout solve f Lup Ldn epsilon L_min L_max stopping lenX lenY Xs Ys Ws L n m X1 L1 C1 X2 L2 C2 :
  0 <= epsilon -> (n <= m)%nat ->
  batch_lm Din Dout solve f Lup Ldn epsilon L_min L_max stopping lenX lenY Xs Ys Ws L n = Ok (X1, L1, C1) ->
  batch_lm Din Dout solve f Lup Ldn epsilon L_min L_max stopping lenX lenY Xs Ys Ws L m = Ok (X2, L2, C2) ->
  forall b, chisq Dout (Ws b) (residual f (X2 b) (Ys b)) <= chisq Dout (Ws b) (residual f (X1 b) (Ys b)) <= chisq Dout (Ws b) (residual f (Xs b) (Ys b)).
Proof.
  intros He Hnm E1 E2 b. unfold batch_lm in E1, E2. destruct (negb (Nat.eqb lenX lenY)); [discriminate|].
  injection E1 as E1. injection E2 as E2.
  set (lp := fun k => lm_loop Din Dout solve f Lup Ldn epsilon L_min L_max lenY Ys Ws stopping k Xs (fun _ => L * 1) Covariance) in *.
  change (lp n = (X1, L1, C1)) in E1. change (lp m = (X2, L2, C2)) in E2.
  assert (M : forall k, chisq Dout (Ws b) (residual f (fst (fst (lp (S k))) b) (Ys b)) <= chisq Dout (Ws b) (residual f (fst (fst (lp k)) b) (Ys b)))
    by (intros k; apply (loop_mono_iter Din Dout solve f Lup Ldn epsilon L_min L_max lenY Ys Ws stopping k He)).
  assert (Z := loop_mono Din Dout solve f Lup Ldn epsilon L_min L_max lenY Ys Ws stopping n He Xs (fun _ => L * 1) Covariance b).
  change (chisq Dout (Ws b) (residual f (fst (fst (lp n)) b) (Ys b)) <= chisq Dout (Ws b) (residual f (Xs b) (Ys b))) in Z.
  assert (G : chisq Dout (Ws b) (residual f (fst (fst (lp m)) b) (Ys b)) <= chisq Dout (Ws b) (residual f (fst (fst (lp n)) b) (Ys b))).
  { induction Hnm as [|m' Hm IH]; [lra|]. eapply Rle_trans; [apply M|].
    clear - M Hm. induction Hm as [|m' Hm IH]; [lra|]. eapply Rle_trans; [apply M|exact IH]. }
  rewrite E1 in Z, G. rewrite E2 in G. cbn [fst] in Z, G. split; assumption.
Qed.
Lemma batch_damping Din Dout solve f Lup Ldn epsilon L_min L_max stopping lenX lenY Xs Ys Ws L n X1 L1 C1 :
  L_min <= L_max -> (1 <= n)%nat \/ L_min <= L <= L_max ->
  batch_lm Din Dout solve f Lup Ldn epsilon L_min L_max stopping lenX lenY Xs Ys Ws L n = Ok (X1, L1, C1) ->
  forall b, L_min <= L1 b <= L_max.
Proof.
  intros HL Hn E b. unfold batch_lm in E. destruct (negb (Nat.eqb lenX lenY)); [discriminate|]. injection E as E.
  assert (Z := loop_L Din Dout solve f Lup Ldn epsilon L_min L_max lenY Ys Ws stopping n Xs (fun _ => L * 1) Covariance b HL ltac:(cbv beta; rewrite Rmult_1_r; destruct Hn; [left; lia|right; assumption])).
  rewrite E in Z. exact Z.
Qed.
Lemma batch_nearby Din Dout solve f Lup Ldn epsilon L_min L_max stopping len Xs Ys Ws L n X1 L1 C1 :
  (1 <= n)%nat -> 0 < L_max -> L_min < L_max -> 1 < Ldn -> L_min <= L <= L_max ->
  (forall b X L, (b < len)%nat -> L_min <= L <= L_max -> lm_rho Din Dout solve f X (Ys b) (Ws b) L <> Fin epsilon) ->
  batch_lm Din Dout solve f Lup Ldn epsilon L_min L_max stopping len len Xs Ys Ws L n = Ok (X1, L1, C1) ->
  exists X' c, C1 = Chi2 c /\
    (X' = X1 \/ forall b k, (b < len)%nat -> (k < Din)%nat -> Rabs (X' b k - X1 b k) < stopping) /\
    forall b, (b < len)%nat -> c b = chisq Dout (Ws b) (residual f (X' b) (Ys b)).
Proof.
  intros Hn HM HLL HD HL NT E. unfold batch_lm in E. rewrite Nat.eqb_refl in E. cbn [negb] in E. injection E as E.
  assert (Z := loop_chi2 Din Dout solve f Lup Ldn epsilon L_min L_max len Ys Ws stopping n HM HLL HD NT Xs (fun _ => L * 1) Covariance
    ltac:(intros b _; cbv beta; lra) ltac:(left; lia)).
  rewrite E in Z. cbn [fst snd] in Z. exact Z.
Qed.
Lemma batch_consistent Din Dout solve f Lup Ldn epsilon L_min L_max stopping len Xs Ys Ws L n X1 L1 C1 :
  (1 <= Din)%nat -> (1 <= n)%nat -> 0 < L_max -> L_min < L_max -> 1 < Ldn -> L_min <= L <= L_max -> stopping <= 0 ->
  (forall b X L, (b < len)%nat -> L_min <= L <= L_max -> lm_rho Din Dout solve f X (Ys b) (Ws b) L <> Fin epsilon) ->
  batch_lm Din Dout solve f Lup Ldn epsilon L_min L_max stopping len len Xs Ys Ws L n = Ok (X1, L1, C1) ->
  exists c, C1 = Chi2 c /\ forall b, (b < len)%nat -> c b = chisq Dout (Ws b) (residual f (X1 b) (Ys b)).
Proof.
  intros HDin Hn HM HLL HD HL HS NT E. destruct (batch_nearby _ _ _ _ _ _ _ _ _ _ _ _ _ _ _ _ _ _ _ Hn HM HLL HD HL NT E) as (X' & c & -> & H & Hc).
  exists c. split; [reflexivity|]. destruct H as [->|H]; [exact Hc|]. intros b Hb. exfalso.
  specialize (H b 0%nat Hb ltac:(lia)). assert (P := Rabs_pos (X' b 0%nat - X1 b 0%nat)). lra.
Qed.
(** and the Jacobian is the matrix of partial derivatives *)
Lemma jacobian_partials n m f X J i j : partials n m f X J -> (i < m)%nat -> (j < n)%nat -> jacobian f X i j = J i j.
Proof.
  intros H Hi Hj. unfold jacobian. apply is_derive_unique.
  apply (is_derive_ext (fun t => (fun u => f (fun k => X k + (if Nat.eqb k j then u else 0)) i) (t - X j))).
  - intros t. cbv beta. apply (f_equal (fun v : vec => f v i)). apply functional_extensionality. intros k. unfold upd. destruct (Nat.eqb_spec k j) as [->|]; ring.
  - replace (J i j) with (scal 1 (J i j)) by (unfold scal; cbn; unfold mult; cbn; ring). apply (is_derive_comp (fun u => f (fun k => X k + (if Nat.eqb k j then u else 0)) i) (fun t => t - X j)).
    + rewrite Rminus_eq_0. apply H; assumption.
    + auto_derive; [exact I|ring].
Qed.
Lemma normal_partials n m solve f : solver_ok n solve -> forall X Y W L J, sym_psd m W -> 0 < L -> partials n m f X J -> forall i, (i < n)%nat ->
  fsum n (fun k => (qform m W (fun a => J a i) (fun a => J a k) + L * (if Nat.eqb i k then 1 else 0)) * lm_h m solve f X Y W L k)
  = qform m W (fun a => J a i) (residual f X Y).
Proof.
  intros Hs X Y W L J HW HL HJ i Hi. rewrite (qform_ext m W (fun a => J a i) (fun a => jacobian f X a i) (residual f X Y) (residual f X Y)) by (intros; try reflexivity; symmetry; apply (jacobian_partials n m); assumption).
  rewrite <- (normal_equations n m solve f Hs X Y W L HW HL i Hi). apply fsum_ext. intros k Hk. f_equal. f_equal.
  apply qform_ext; intros a Ha; symmetry; apply (jacobian_partials n m); assumption.
Qed.
