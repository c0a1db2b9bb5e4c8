(** * The root finder of the image search *)
From Coq Require Import Reals List Arith Lia Lra Psatz.
From Coquelicot Require Import Coquelicot.
From Verif Require Import Py Fsum LM_Model LM_Spec LM_Proofs Tri_Model Tri_Spec Root_Spec.
Import ListNotations.
Local Open Scope R_scope.

(** ** the loop of batch_lm, fit by fit *)
Section Loop.
Variables (Din Dout : nat) (solve : mat -> vec -> vec) (f : vec -> vec) (Lup Ldn epsilon L_min L_max : R).
Variables (B : nat) (Ys : nat -> vec) (Cinvs : nat -> weights) (stopping : R).
Notation step := (lm_step Din Dout solve f Lup Ldn epsilon L_min L_max).
Notation loop := (lm_loop Din Dout solve f Lup Ldn epsilon L_min L_max B Ys Cinvs stopping).
Variable P : nat -> nat -> vec -> R -> Prop.
Hypothesis keeps : forall k b X L, (b < B)%nat -> P k b X L -> P (S k) b (fst (fst (step X (Ys b) (Cinvs b) L))) (snd (fst (step X (Ys b) (Cinvs b) L))).
Lemma loop_inv n : forall k Xs Ls C, (forall b, (b < B)%nat -> P k b (Xs b) (Ls b)) -> forall b, (b < B)%nat ->
  (exists L, P (k + n) b (fst (fst (loop n Xs Ls C)) b) L) \/
  exists j L, (k <= j)%nat /\ P j b (fst (fst (loop n Xs Ls C)) b) L /\
    let s := step (fst (fst (loop n Xs Ls C)) b) (Ys b) (Cinvs b) L in
    (forall i, (i < Din)%nat -> Rabs (fst (fst s) i - fst (fst (loop n Xs Ls C)) b i) < stopping) \/ L_max <= snd (fst s).
Proof.
  induction n as [|n IH]; intros k Xs Ls C H b Hb; cbn [lm_loop].
  - left. exists (Ls b). rewrite Nat.add_0_r. apply H, Hb.
  - cbv zeta. destruct (converged _ _ _ _ _ _) eqn:E1; [|destruct (all_stuck _ _ _) eqn:E2].
    + right. exists k, (Ls b). cbn [fst snd]. split; [lia|]. split; [apply H, Hb|]. left. intros i Hi. apply andb_prop in E1. destruct E1 as [E1 _].
      rewrite forallb_forall in E1. specialize (E1 b ltac:(apply in_seq; lia)). rewrite forallb_forall in E1. specialize (E1 i ltac:(apply in_seq; lia)). cbv beta in E1.
      destruct (Rlt_dec _ stopping) as [l|]; [exact l|discriminate].
    + right. exists k, (Ls b). cbn [fst snd]. split; [lia|]. split; [apply H, Hb|]. right. unfold all_stuck in E2. rewrite forallb_forall in E2. specialize (E2 b ltac:(apply in_seq; lia)).
      cbv beta in E2. destruct (Rle_dec L_max _) as [l|]; [exact l|discriminate].
    + destruct (IH (S k) (fun b => fst (fst (step (Xs b) (Ys b) (Cinvs b) (Ls b)))) (fun b => snd (fst (step (Xs b) (Ys b) (Cinvs b) (Ls b))))
        (Chi2 (fun b => snd (step (Xs b) (Ys b) (Cinvs b) (Ls b)))) ltac:(intros b' Hb'; apply keeps; [exact Hb'|apply H, Hb']) b Hb) as [(L & HL)|(j & L & Hj & HP & Q)].
      * left. exists L. replace (k + S n)%nat with (S k + n)%nat by lia. exact HL.
      * right. exists j, L. split; [lia|]. split; assumption.
Qed.
End Loop.

(** ** points *)
Definition W2 : weights := Diag (fun _ => / 1).
Lemma W2_psd : sym_psd 2 W2.
Proof.
  split.
  - intros i j _ _. cbn [wmat W2]. destruct (Nat.eqb_spec i j) as [->|D]; [rewrite Nat.eqb_refl; reflexivity|]. destruct (Nat.eqb_spec j i); [congruence|reflexivity].
  - intros u. unfold qform. cbn. assert (A := pow2_ge_0 (u 0%nat)). assert (A' := pow2_ge_0 (u 1%nat)). rewrite Rinv_1. nra.
Qed.
Lemma dist_sq p q : distance p q ^ 2 = (fst p - fst q) ^ 2 + (snd p - snd q) ^ 2.
Proof. unfold distance. rewrite pow2_sqrt; [reflexivity|]. assert (A := pow2_ge_0 (fst p - fst q)). assert (A' := pow2_ge_0 (snd p - snd q)). lra. Qed.
Lemma dist_nonneg p q : 0 <= distance p q. Proof. apply sqrt_pos. Qed.
Lemma dist_sym p q : distance p q = distance q p.
Proof. unfold distance. f_equal. ring. Qed.
Lemma dist_self p : distance p p = 0.
Proof. unfold distance. replace (_ + _) with 0 by ring. apply sqrt_0. Qed.
Lemma dist_zero p q : distance p q = 0 -> p = q.
Proof.
  intros H. assert (E := dist_sq p q). rewrite H in E. assert (A := pow2_ge_0 (fst p - fst q)). assert (A' := pow2_ge_0 (snd p - snd q)).
  destruct p as [a b], q as [c d]. cbn [fst snd] in *. f_equal; apply Rminus_diag_uniq, Rsqr_0_uniq; unfold Rsqr; lra.
Qed.
Lemma dist_cmod p q : distance p q = Cmod (psub p q). Proof. reflexivity. Qed.
Lemma dist_triangle p q r : distance p r <= distance p q + distance q r.
Proof.
  rewrite !dist_cmod. replace (psub p r) with (Cplus (psub p q) (psub q r)); [apply Cmod_triangle|]. destruct p, q, r. unfold psub, Cplus. cbn. f_equal; ring.
Qed.
Lemma dist_le p q r : 0 <= r -> (fst p - fst q) ^ 2 + (snd p - snd q) ^ 2 <= r ^ 2 -> distance p q <= r.
Proof. intros R0 H. rewrite <- dist_sq in H. assert (D := dist_nonneg p q). apply Rsqr_incr_0_var; [unfold Rsqr; lra|exact R0]. Qed.

Definition starts (guesses : list pt) : nat -> vec := fun k => vec_of (@nth pt k guesses (0, 0)).
Section Lens.
Variables (solve : mat -> vec -> vec) (raytrace : pt -> pt) (b : pt).
Hypothesis Hsolve : solver_ok 2 solve.
Definition lens_f : vec -> vec := fun X => vec_of (raytrace (pt_of X)).
Notation f := lens_f.
Notation Y := (vec_of b).
Notation step := (lm_step 2 2 solve f 9 11 (1 / 10) (1 / 10 ^ 9) (10 ^ 9)).
Lemma chisq_dist X : chisq 2 W2 (residual f X Y) = distance (raytrace (pt_of X)) b ^ 2.
Proof. rewrite dist_sq. unfold chisq, qform, residual, lens_f. cbn. field. Qed.
Lemma rootfind_is (guesses : list pt) : exists out, lm_loop 2 2 solve f 9 11 (1 / 10) (1 / 10 ^ 9) (10 ^ 9) (length guesses) (fun _ => Y) (fun _ => W2) (1 / 10 ^ 4) 50 (starts guesses) (fun _ => 1 * 1) Covariance = out /\
  forward_raytrace_rootfind solve raytrace b guesses = Ok (map (fun k => pt_of (fst (fst out) k)) (seq 0 (length guesses))).
Proof.
  eexists. split; [reflexivity|]. unfold forward_raytrace_rootfind, batch_lm. cbv zeta. rewrite Nat.eqb_refl. cbn [negb bind]. reflexivity.
Qed.
Lemma pt_vec p : pt_of (vec_of p) = p. Proof. destruct p. reflexivity. Qed.
(** one result per guess, none further from the source than the guess *)
Lemma root_closer (guesses : list pt) : exists l, forward_raytrace_rootfind solve raytrace b guesses = Ok l /\ length l = length guesses /\
  forall k, (k < length guesses)%nat -> distance (raytrace (nth k l (0, 0))) b <= distance (raytrace (nth k guesses (0, 0))) b.
Proof.
  destruct (rootfind_is guesses) as (out & E & ->). eexists. split; [reflexivity|]. split; [rewrite map_length, seq_length; reflexivity|]. intros k Hk.
  rewrite (nth_indep _ (0, 0) (pt_of (fst (fst out) 0%nat))) by (rewrite map_length, seq_length; exact Hk).
  rewrite (map_nth (fun k => pt_of (fst (fst out) k))), seq_nth by exact Hk. cbn [Nat.add].
  assert (M := loop_mono 2 2 solve f 9 11 (1 / 10) (1 / 10 ^ 9) (10 ^ 9) (length guesses) (fun _ => Y) (fun _ => W2) (1 / 10 ^ 4) 50 ltac:(lra)
    (starts guesses) (fun _ => 1 * 1) Covariance k). cbv beta in M. rewrite E, !chisq_dist in M. unfold starts in M. rewrite pt_vec in M.
  apply Rsqr_incr_0_var; [unfold Rsqr; lra|apply dist_nonneg].
Qed.
(** a position that is already an image does not move *)
Lemma zero_step X L : 0 < L -> raytrace (pt_of X) = b -> forall i, (i < 2)%nat -> lm_h 2 solve f X Y W2 L i = 0.
Proof.
  intros HL E. apply (sum_squares_zero 2). set (h := lm_h 2 solve f X Y W2 L).
  assert (Q := hess_quadratic 2 2 W2 (jacobian f X) L h).
  rewrite (fsum_zero 2 (fun i => h i * fsum 2 (fun k => hess_of 2 W2 (jacobian f X) L i k * h k))) in Q.
  2: { intros i Hi. assert (SS := step_solves 2 2 solve f Hsolve X Y W2 L W2_psd HL i Hi). fold h in SS. rewrite SS, grad_qform.
       assert (Z : forall j, residual f X Y j = 0) by (intros j; unfold residual, lens_f; rewrite E; ring).
       unfold qform. rewrite (fsum_zero 2); [ring|]. intros i' _. apply fsum_zero. intros j _. rewrite Z. ring. }
  assert (PP := proj2 W2_psd (fun i => fsum 2 (fun j => jacobian f X i j * h j))). unfold chisq in Q.
  destruct (Rle_dec (fsum 2 (fun k => h k ^ 2)) 0) as [l|l]; [exact l|]. exfalso. assert (LP : 0 < L * fsum 2 (fun k => h k ^ 2)) by (apply Rmult_lt_0_compat; lra). lra.
Qed.
Lemma zero_moves X L : 0 < L -> raytrace (pt_of X) = b -> pt_of (fst (fst (step X Y W2 L))) = pt_of X.
Proof.
  intros HL E. unfold lm_step. cbn [fst]. destruct (qge _ _); [|reflexivity]. unfold pt_of, moved. rewrite !(zero_step X L HL E) by lia. f_equal; ring.
Qed.
Lemma step_L_pos X L : 0 < snd (fst (step X Y W2 L)).
Proof. assert (H := step_L 2 2 solve f 9 11 (1 / 10) (1 / 10 ^ 9) (10 ^ 9) X Y W2 L ltac:(lra)). lra. Qed.
Lemma root_fixed (guesses : list pt) k : (k < length guesses)%nat -> raytrace (nth k guesses (0, 0)) = b ->
  exists l, forward_raytrace_rootfind solve raytrace b guesses = Ok l /\ nth k l (0, 0) = nth k guesses (0, 0).
Proof.
  intros Hk Eb. destruct (rootfind_is guesses) as (out & E & ->). eexists. split; [reflexivity|].
  rewrite (nth_indep _ (0, 0) (pt_of (fst (fst out) 0%nat))) by (rewrite map_length, seq_length; exact Hk).
  rewrite (map_nth (fun k => pt_of (fst (fst out) k))), seq_nth by exact Hk. cbn [Nat.add].
  set (xi := nth k guesses (0, 0)) in *.
  set (P := fun (_ j : nat) (X : vec) (L : R) => 0 < L /\ (j = k -> pt_of X = xi)).
  assert (I := loop_inv 2 2 solve f 9 11 (1 / 10) (1 / 10 ^ 9) (10 ^ 9) (length guesses) (fun _ => Y) (fun _ => W2) (1 / 10 ^ 4) P).
  assert (K : forall k0 j X L, (j < length guesses)%nat -> P k0 j X L -> P (S k0) j (fst (fst (step X Y W2 L))) (snd (fst (step X Y W2 L)))).
  { intros k0 j X L _ [L0 H]. split; [apply step_L_pos|]. intros ->. specialize (H eq_refl). rewrite zero_moves; [exact H|exact L0|rewrite H; exact Eb]. }
  specialize (I K 50%nat 0%nat (starts guesses) (fun _ => 1 * 1) Covariance ltac:(intros j Hj; split; [lra|intros ->; apply pt_vec]) k Hk).
  rewrite E in I. destruct I as [(L & _ & H)|(j & L & _ & (_ & H) & _)]; apply H; reflexivity.
Qed.
End Lens.

(** ** affine lenses *)
Section Affine.
Variables (m11 m12 m21 m22 c1 c2 : R).
Notation raytrace := (affine_map m11 m12 m21 m22 c1 c2).
Variables (solve : mat -> vec -> vec) (xi : pt) (a bb : R).
Hypothesis Hsolve : solver_ok 2 solve.
Hypothesis Ha : 0 < a.
Hypothesis Hst : stretches raytrace a bb.
Notation b := (raytrace xi).
Notation f := (lens_f raytrace).
Notation Y := (vec_of b).
Notation step := (lm_step 2 2 solve f 9 11 (1 / 10) (1 / 10 ^ 9) (10 ^ 9)).
Definition mA : mat := fun i j => match i, j with O, O => m11 | O, _ => m12 | _, O => m21 | _, _ => m22 end.
Definition mc : vec := fun i => match i with O => c1 | _ => c2 end.
Lemma f_affine : is_affine 2 2 f mc mA.
Proof. intros X i Hi. destruct i as [|[|i]]; [| |lia]; unfold lens_f, affine_map, pt_of, mc, mA; cbn; ring. Qed.
Lemma stretch_form x y : a ^ 2 * (x ^ 2 + y ^ 2) <= (m11 * x + m12 * y) ^ 2 + (m21 * x + m22 * y) ^ 2.
Proof.
  destruct (Hst (x, y) (0, 0)) as [H _]. assert (D := dist_nonneg (x, y) (0, 0)).
  assert (G : (a * distance (x, y) (0, 0)) ^ 2 <= distance (raytrace (x, y)) (raytrace (0, 0)) ^ 2) by (apply pow_incr; split; [apply Rmult_le_pos; lra|exact H]).
  rewrite Rpow_mult_distr, !dist_sq in G. unfold affine_map in G. cbn [fst snd] in G.
  replace ((m11 * x + m12 * y) ^ 2 + (m21 * x + m22 * y) ^ 2) with ((m11 * x + m12 * y + c1 - (m11 * 0 + m12 * 0 + c1)) ^ 2 + (m21 * x + m22 * y + c2 - (m21 * 0 + m22 * 0 + c2)) ^ 2) by ring.
  eapply Rle_trans; [|exact G]. apply Req_le. ring.
Qed.
(** (H + L) h = H e with H = A^T A and e the error, so that (H + L) (e - h) = L e *)
Lemma new_error X L : 0 < L -> let h := lm_h 2 solve f X Y W2 L in let e0 := fst xi - X 0%nat in let e1 := snd xi - X 1%nat in let u := e0 - h 0%nat in let v := e1 - h 1%nat in
  m11 * (m11 * u + m12 * v) + m21 * (m21 * u + m22 * v) + L * u = L * e0 /\ m12 * (m11 * u + m12 * v) + m22 * (m21 * u + m22 * v) + L * v = L * e1.
Proof.
  intros HL h e0 e1 u v.
  assert (S0 := step_solves 2 2 solve f Hsolve X Y W2 L W2_psd HL 0%nat ltac:(lia)). assert (S1 := step_solves 2 2 solve f Hsolve X Y W2 L W2_psd HL 1%nat ltac:(lia)). fold h in S0, S1.
  cbn [fsum] in S0, S1. rewrite !(hess_affine 2 2 f mc mA f_affine) in S0, S1 by lia. rewrite !(grad_affine 2 2 f mc mA f_affine) in S0, S1 by lia.
  unfold qform, residual, lens_f, hess_of, W2, affine_map, pt_of in S0, S1. cbn in S0, S1. rewrite ?Rinv_1 in S0, S1. unfold u, v, e0, e1. clearbody h.
  set (h0 := h 0%nat) in *. set (h1 := h 1%nat) in *. set (x := X 0%nat) in *. set (y := X 1%nat) in *. clearbody h0 h1 x y. split; lra.
Qed.
Lemma contraction X L : 0 < L -> let X' := moved X (lm_h 2 solve f X Y W2 L) in distance (pt_of X') xi <= L / (a ^ 2 + L) * distance (pt_of X) xi.
Proof.
  intros HL X'. destruct (new_error X L HL) as [N0 N1]. set (h := lm_h 2 solve f X Y W2 L) in *. cbv zeta in N0, N1.
  set (e0 := fst xi - X 0%nat) in *. set (e1 := snd xi - X 1%nat) in *. set (u := e0 - h 0%nat) in *. set (v := e1 - h 1%nat) in *.
  assert (A2 : 0 < a ^ 2) by (apply pow_lt, Ha). assert (SF := stretch_form u v).
  assert (Q : (m11 * u + m12 * v) ^ 2 + (m21 * u + m22 * v) ^ 2 + L * (u ^ 2 + v ^ 2) = L * (e0 * u + e1 * v)).
  { transitivity (u * (m11 * (m11 * u + m12 * v) + m21 * (m21 * u + m22 * v) + L * u) + v * (m12 * (m11 * u + m12 * v) + m22 * (m21 * u + m22 * v) + L * v)); [ring|rewrite N0, N1; ring]. }
  assert (CS : (e0 * u + e1 * v) ^ 2 <= (e0 ^ 2 + e1 ^ 2) * (u ^ 2 + v ^ 2)) by (assert (Z := pow2_ge_0 (e0 * v - e1 * u)); nra).
  set (n' := u ^ 2 + v ^ 2) in *. set (n := e0 ^ 2 + e1 ^ 2) in *. set (t := e0 * u + e1 * v) in *.
  assert (T1 : (a ^ 2 + L) * n' <= L * t) by lra.
  assert (P1 : 0 <= n') by (unfold n'; assert (Z1 := pow2_ge_0 u); assert (Z2 := pow2_ge_0 v); lra). assert (P2 : 0 <= n) by (unfold n; assert (Z1 := pow2_ge_0 e0); assert (Z2 := pow2_ge_0 e1); lra).
  assert (T2 : (a ^ 2 + L) ^ 2 * n' <= L ^ 2 * n).
  { destruct (Rle_lt_or_eq_dec 0 n' P1) as [P|P]; [|rewrite <- P; assert (Z := pow2_ge_0 L); nra].
    apply Rmult_le_reg_r with n'; [exact P|]. apply Rle_trans with ((L * t) ^ 2).
    - replace ((a ^ 2 + L) ^ 2 * n' * n') with (((a ^ 2 + L) * n') ^ 2) by ring. apply pow_incr. split; [apply Rmult_le_pos; lra|exact T1].
    - rewrite Rpow_mult_distr, Rmult_assoc. apply Rmult_le_compat_l; [apply pow2_ge_0|exact CS]. }
  assert (AL : 0 < a ^ 2 + L) by lra.
  apply dist_le; [apply Rmult_le_pos; [apply Rlt_le, Rdiv_lt_0_compat; lra|apply dist_nonneg]|].
  rewrite Rpow_mult_distr, dist_sq. unfold X', pt_of, moved. cbn [fst snd].
  replace ((X 0%nat + h 0%nat - fst xi) ^ 2 + (X 1%nat + h 1%nat - snd xi) ^ 2) with n' by (unfold n', u, v, e0, e1; ring).
  replace ((X 0%nat - fst xi) ^ 2 + (X 1%nat - snd xi) ^ 2) with n by (unfold n, e0, e1; ring). clearbody n' n t.
  apply Rmult_le_reg_l with ((a ^ 2 + L) ^ 2); [apply pow_lt, AL|]. replace ((a ^ 2 + L) ^ 2 * ((L / (a ^ 2 + L)) ^ 2 * n)) with (L ^ 2 * n) by (field; lra). exact T2.
Qed.
(** away from the image the step is taken *)
Lemma accepted X L : 0 < L -> pt_of X <> xi -> step X Y W2 L =
  (moved X (lm_h 2 solve f X Y W2 L), clamp (L / 11) (1 / 10 ^ 9) (10 ^ 9), chisq 2 W2 (residual f (moved X (lm_h 2 solve f X Y W2 L)) Y)).
Proof.
  intros HL NX.
  assert (G : exists j, (j < 2)%nat /\ qform 2 W2 (fun i => mA i j) (residual f X Y) <> 0).
  { destruct (Req_dec (qform 2 W2 (fun i => mA i 0%nat) (residual f X Y)) 0) as [Z0|]; [|exists 0%nat; split; [lia|assumption]].
    destruct (Req_dec (qform 2 W2 (fun i => mA i 1%nat) (residual f X Y)) 0) as [Z1|]; [|exists 1%nat; split; [lia|assumption]]. exfalso. apply NX.
    set (e0 := fst xi - X 0%nat). set (e1 := snd xi - X 1%nat). assert (SF := stretch_form e0 e1).
    assert (Q : (m11 * e0 + m12 * e1) ^ 2 + (m21 * e0 + m22 * e1) ^ 2 = 0).
    { transitivity (e0 * qform 2 W2 (fun i => mA i 0%nat) (residual f X Y) + e1 * qform 2 W2 (fun i => mA i 1%nat) (residual f X Y)); [|rewrite Z0, Z1; ring].
      unfold qform, residual, lens_f, W2, affine_map, pt_of, e0, e1. cbn. rewrite ?Rinv_1. ring. }
    rewrite Q in SF. assert (A2 : 0 < a ^ 2) by (apply pow_lt, Ha). assert (N : e0 ^ 2 + e1 ^ 2 <= 0) by (apply Rmult_le_reg_l with (a ^ 2); [exact A2|lra]).
    assert (D : distance (pt_of X) xi = 0). { apply Rle_antisym; [|apply dist_nonneg]. apply dist_le; [lra|]. unfold pt_of. cbn [fst snd]. replace (0 ^ 2) with 0 by ring. unfold e0, e1 in N. lra. }
    apply dist_zero, D. }
  destruct G as (j & Hj & G). destruct (affine_rho 2 2 solve f mc mA Hsolve f_affine X Y W2 L W2_psd HL j Hj G) as (r & Er & Hr).
  unfold lm_step. rewrite Er. cbn [qge qgt]. destruct (Rle_dec (1 / 10) r); [|lra]. destruct (Rlt_dec (1 / 10) r); [|lra]. rewrite chi2_chisq. reflexivity.
Qed.
(** damping parameter after k accepted steps *)
Lemma eleventh k : 0 <= (1 / 11) ^ k <= 1.
Proof. induction k as [|k IH]; cbn [pow]; lra. Qed.
Definition Lk (k : nat) : R := Rmax ((1 / 11) ^ k) (1 / 10 ^ 9).
Lemma Lk_pos k : 0 < Lk k. Proof. unfold Lk. eapply Rlt_le_trans; [|apply Rmax_r]. lra. Qed.
Lemma Lk_le k : Lk k <= 1.
Proof. unfold Lk. apply Rmax_lub; [|lra]. apply eleventh. Qed.
Lemma Lk_1 k : (1 <= k)%nat -> Lk k <= 1 / 11.
Proof.
  intros H. unfold Lk. apply Rmax_lub; [|lra]. destruct k as [|k]; [lia|]. cbn [pow]. assert (Z := eleventh k). lra.
Qed.
Lemma Lk_9 k : (9 <= k)%nat -> Lk k = 1 / 10 ^ 9.
Proof.
  intros H. unfold Lk. apply Rmax_right. replace k with (9 + (k - 9))%nat by lia. rewrite pow_add. assert (Z := eleventh (k - 9)). lra.
Qed.
Lemma Lk_S k : clamp (Lk k / 11) (1 / 10 ^ 9) (10 ^ 9) = Lk (S k).
Proof.
  unfold clamp. rewrite Rmin_left.
  2: { assert (Z := Lk_le k). apply Rmax_lub; lra. }
  unfold Lk. destruct (Rle_dec ((1 / 11) ^ k) (1 / 10 ^ 9)) as [l|l].
  - rewrite (Rmax_right _ _ l). assert (0 <= (1 / 11) ^ k) by (apply pow_le; lra). rewrite !Rmax_right; [reflexivity| |lra]. cbn [pow]. lra.
  - rewrite (Rmax_left ((1 / 11) ^ k)) by lra. f_equal. cbn [pow]. field.
Qed.
Notation q := (/ (1 + 10 ^ 9 * a ^ 2)).
Lemma q_range : 0 < q < 1.
Proof.
  assert (A2 : 0 < a ^ 2) by (apply pow_lt, Ha). assert (Z : 0 < 10 ^ 9 * a ^ 2) by (apply Rmult_lt_0_compat; lra). split; [apply Rinv_0_lt_compat; lra|]. rewrite <- Rinv_1. apply Rinv_lt_contravar; lra.
Qed.
Lemma q_other : q = 1 / 10 ^ 9 / (a ^ 2 + 1 / 10 ^ 9).
Proof.
  assert (A2 : 0 < a ^ 2) by (apply pow_lt, Ha). assert (K0 : 0 < 10 ^ 9) by lra. set (A := a ^ 2) in *. set (K := 10 ^ 9) in *. clearbody A K.
  assert (KA : 0 < K * A) by (apply Rmult_lt_0_compat; assumption). assert (IK : 0 < 1 / K) by (apply Rdiv_lt_0_compat; lra). field. repeat split; lra.
Qed.
Definition Pk (r : nat -> R) (k j : nat) (X : vec) (L : R) : Prop :=
  0 < L /\ (pt_of X = xi \/ (L = Lk k /\ distance (pt_of X) xi <= q ^ (k - 9) * r j)).
Lemma Pk_keeps r k j X L : Pk r k j X L -> Pk r (S k) j (fst (fst (step X Y W2 L))) (snd (fst (step X Y W2 L))).
Proof.
  intros [L0 H]. split; [apply step_L_pos|]. destruct (Req_dec (distance (pt_of X) xi) 0) as [Z|NZ].
  { left. apply dist_zero in Z. rewrite zero_moves; [exact Z|exact Hsolve|exact L0|rewrite Z; reflexivity]. }
  assert (NX : pt_of X <> xi) by (intros E; apply NZ; rewrite E; apply dist_self). destruct H as [H|[EL H]]; [contradiction|]. right. rewrite (accepted X L L0 NX). cbn [fst snd].
  split; [rewrite EL; apply Lk_S|]. assert (C := contraction X L L0). cbv zeta in C. assert (A2 : 0 < a ^ 2) by (apply pow_lt, Ha). assert (D := dist_nonneg (pt_of X) xi).
  destruct (Nat.le_gt_cases 9 k) as [K|K].
  - rewrite (Lk_9 k K) in EL. subst L. replace (1 / 10 ^ 9 / (a ^ 2 + 1 / 10 ^ 9)) with q in C by (apply q_other).
    replace (S k - 9)%nat with (S (k - 9)) by lia. change (q ^ S (k - 9)) with (q * q ^ (k - 9)). rewrite (Rmult_assoc q). eapply Rle_trans; [exact C|]. apply Rmult_le_compat_l; [assert (Z := q_range); lra|exact H].
  - replace (S k - 9)%nat with 0%nat by lia. replace (k - 9)%nat with 0%nat in H by lia. eapply Rle_trans; [exact C|]. eapply Rle_trans; [|exact H].
    rewrite <- (Rmult_1_l (distance (pt_of X) xi)) at 2. apply Rmult_le_compat_r; [exact D|]. apply Rmult_le_reg_r with (a ^ 2 + L); [lra|]. replace (L / (a ^ 2 + L) * (a ^ 2 + L)) with L by (field; lra). lra.
Qed.
(** if a step is short the point is near the image *)
Lemma short_step X L : 0 < L <= 1 / 11 -> (forall i, (i < 2)%nat -> Rabs (moved X (lm_h 2 solve f X Y W2 L) i - X i) < 1 / 10 ^ 4) ->
  distance (pt_of X) xi <= sqrt 2 / 10 ^ 4 * (1 + 1 / (11 * a ^ 2)).
Proof.
  intros [L0 L1] H. set (X' := moved X (lm_h 2 solve f X Y W2 L)) in *. assert (A2 : 0 < a ^ 2) by (apply pow_lt, Ha).
  assert (S : distance (pt_of X) (pt_of X') <= sqrt 2 / 10 ^ 4).
  { assert (S2 := sqrt_pos 2). apply dist_le; [lra|]. unfold pt_of. cbn [fst snd]. assert (H0 := H 0%nat ltac:(lia)). assert (H1 := H 1%nat ltac:(lia)).
    replace ((sqrt 2 / 10 ^ 4) ^ 2) with (2 * (1 / 10 ^ 4) ^ 2) by (replace ((sqrt 2 / 10 ^ 4) ^ 2) with (sqrt 2 ^ 2 * (/ 10 ^ 4) ^ 2) by (unfold Rdiv; ring); rewrite pow2_sqrt by lra; unfold Rdiv; ring).
    assert (Q : forall x y, Rabs (x - y) < 1 / 10 ^ 4 -> (y - x) ^ 2 <= (1 / 10 ^ 4) ^ 2).
    { intros x y Hxy. replace ((y - x) ^ 2) with (Rabs (x - y) ^ 2) by (rewrite pow2_abs; ring). apply pow_incr. split; [apply Rabs_pos|lra]. }
    apply Q in H0. apply Q in H1. lra. }
  assert (C := contraction X L L0). cbv zeta in C. fold X' in C. assert (T := dist_triangle (pt_of X) (pt_of X') xi). set (d := distance (pt_of X) xi) in *. set (d' := distance (pt_of X') xi) in *. set (s := distance (pt_of X) (pt_of X')) in *.
  assert (D : 0 <= d) by apply dist_nonneg. clearbody d d' s.
  assert (E : d * a ^ 2 <= sqrt 2 / 10 ^ 4 * (a ^ 2 + L)).
  { apply Rle_trans with (s * (a ^ 2 + L)); [|apply Rmult_le_compat_r; lra].
    assert (F : d * (a ^ 2 + L) <= s * (a ^ 2 + L) + L * d). { replace (L * d) with (L / (a ^ 2 + L) * d * (a ^ 2 + L)) by (field; lra). rewrite <- Rmult_plus_distr_r. apply Rmult_le_compat_r; lra. }
    lra. }
  assert (S2 := sqrt_pos 2). apply Rmult_le_reg_r with (a ^ 2); [exact A2|]. eapply Rle_trans; [exact E|].
  replace (sqrt 2 / 10 ^ 4 * (1 + 1 / (11 * a ^ 2)) * a ^ 2) with (sqrt 2 / 10 ^ 4 * (a ^ 2 + 1 / 11)) by (field; lra). apply Rmult_le_compat_l; lra.
Qed.
Lemma reach_pos r : 0 < reach a r.
Proof.
  unfold reach. eapply Rlt_le_trans; [|apply Rmax_l]. assert (A2 : 0 < a ^ 2) by (apply pow_lt, Ha). assert (S2 : 0 < sqrt 2) by (apply sqrt_lt_R0; lra).
  assert (Z : 0 < 1 / (11 * a ^ 2)) by (apply Rdiv_lt_0_compat; lra). apply Rmult_lt_0_compat; [apply Rdiv_lt_0_compat; lra|lra].
Qed.
(** what the loop returns, from the second iteration on *)
Lemma near_image (guesses : list pt) : exists l, forward_raytrace_rootfind solve raytrace b guesses = Ok l /\ length l = length guesses /\
  forall k, (k < length guesses)%nat -> distance (nth k l (0, 0)) xi <= reach a (distance (nth k guesses (0, 0)) xi).
Proof.
  destruct (rootfind_is solve raytrace b guesses) as (out & E & ->). eexists. split; [reflexivity|]. split; [rewrite map_length, seq_length; reflexivity|]. intros k Hk.
  rewrite (nth_indep _ (0, 0) (pt_of (fst (fst out) 0%nat))) by (rewrite map_length, seq_length; exact Hk).
  rewrite (map_nth (fun k => pt_of (fst (fst out) k))), seq_nth by exact Hk. cbn [Nat.add].
  set (N := length guesses) in *. set (r := fun k => distance (nth k guesses (0, 0)) xi). fold (r k).
  set (X0 := starts guesses) in *.
  assert (P0 : forall j, Pk r 0 j (X0 j) (1 * 1)).
  { intros j. split; [lra|]. right. split; [unfold Lk; cbn [pow]; rewrite Rmax_left; lra|]. unfold X0, starts. rewrite pt_vec. cbn [pow Nat.sub]. unfold r. lra. }
  assert (L1 : forall j, 1 / 11 <= snd (fst (step (X0 j) Y W2 (1 * 1)))).
  { intros j. unfold lm_step. cbn [fst snd]. unfold clamp. apply Rmin_glb; [|lra]. eapply Rle_trans; [|apply Rmax_l]. destruct (qge _ _); lra. }
  assert (NC : converged 2 N (1 / 10 ^ 4) X0 (fun j => fst (fst (step (X0 j) Y W2 (1 * 1)))) (fun j => snd (fst (step (X0 j) Y W2 (1 * 1)))) = false).
  { unfold converged. apply Bool.andb_false_intro2.
    assert (FN : forall l, filter (fun j => if Rlt_dec (snd (fst (step (X0 j) Y W2 (1 * 1)))) (1 / 100) then true else false) l = []).
    { intros l. induction l as [|j l IH]; [reflexivity|]. cbn [filter]. specialize (L1 j). destruct (Rlt_dec _ (1 / 100)) as [Z|_]; [lra|exact IH]. }
    rewrite FN. cbn [length]. destruct (Rlt_dec (INR N / 3) (INR 0)) as [Z|_]; [|reflexivity]. cbn [INR] in Z. assert (Q := pos_INR N). lra. }
  assert (NS : all_stuck (10 ^ 9) N (fun j => snd (fst (step (X0 j) Y W2 (1 * 1)))) = false).
  { unfold all_stuck. destruct (forallb _ _) eqn:F; [|reflexivity]. rewrite forallb_forall in F. specialize (F k ltac:(apply in_seq; lia)). cbv beta in F.
    destruct (Rle_dec (10 ^ 9) (snd (fst (step (X0 k) Y W2 (1 * 1))))) as [Z|]; [|discriminate]. exfalso. unfold lm_step in Z. cbn [fst snd] in Z.
    match type of Z with _ <= clamp ?x _ _ => assert (Q : clamp x (1 / 10 ^ 9) (10 ^ 9) <= Rmax x (1 / 10 ^ 9)) by apply Rmin_l; assert (Q' : Rmax x (1 / 10 ^ 9) <= 9) by (apply Rmax_lub; [destruct (qge _ _); lra|lra]) end. lra. }
  assert (I := loop_inv 2 2 solve f 9 11 (1 / 10) (1 / 10 ^ 9) (10 ^ 9) N (fun _ => Y) (fun _ => W2) (1 / 10 ^ 4) (Pk r) ltac:(intros; apply Pk_keeps; assumption)
    49%nat 1%nat (fun j => fst (fst (step (X0 j) Y W2 (1 * 1)))) (fun j => snd (fst (step (X0 j) Y W2 (1 * 1)))) (Chi2 (fun j => snd (step (X0 j) Y W2 (1 * 1)))) ltac:(intros j _; apply Pk_keeps, P0) k Hk).
  change 50%nat with (S 49) in E. rewrite lm_loop_S in E. cbv zeta beta in E. rewrite NC, NS in E. rewrite E in I. clear E NC NS L1 P0.
  set (X := fst (fst out) k) in *. assert (RP := reach_pos (r k)). assert (A2 : 0 < a ^ 2) by (apply pow_lt, Ha).
  assert (EX : pt_of X = xi -> distance (pt_of X) xi <= reach a (r k)) by (intros ->; rewrite dist_self; lra).
  destruct I as [(L & _ & [H|[_ H]])|(j & L & Hj & (L0 & [H|[EL H]]) & Q)].
  - apply EX, H.
  - eapply Rle_trans; [exact H|]. change (1 + 49 - 9)%nat with 41%nat. unfold reach. eapply Rle_trans; [|apply Rmax_r]. rewrite pow_inv. unfold Rdiv. rewrite Rmult_comm. apply Rle_refl.
  - apply EX, H.
  - destruct (Req_dec (distance (pt_of X) xi) 0) as [Z|NZ]; [rewrite Z; lra|].
    assert (NX : pt_of X <> xi) by (intros E; apply NZ; rewrite E; apply dist_self). cbv zeta in Q. rewrite (accepted X L L0 NX) in Q. cbn [fst snd] in Q. destruct Q as [Q|Q].
    + unfold reach. eapply Rle_trans; [|apply Rmax_l]. apply (short_step X L); [|exact Q]. split; [exact L0|]. rewrite EL. apply Lk_1, Hj.
    + exfalso. rewrite EL, Lk_S in Q. assert (Z := Lk_le (S j)). lra.
Qed.
End Affine.
