(** * C16, C17: Levenberg-Marquardt fitting *)
From Coq Require Import Reals List Lra Lia.
From Coquelicot Require Import Coquelicot.
From Verif Require Import Py Fsum LM_Model LM_Spec LM_Proofs.
Local Open Scope R_scope.

(** a step leaves the point where it is or moves it by the solution h of the damped normal equations, the gain in chi-squared
    being at least epsilon times the expected improvement |h.(H h) + 2 h.g|; it stays only if the gain would have been less (or
    both gain and expected improvement vanish) *)
Theorem C16_step : forall Din Dout solve f Lup Ldn epsilon L_min L_max X Y W L, 0 <= epsilon ->
  let out := lm_step Din Dout solve f Lup Ldn epsilon L_min L_max X Y W L in
  let X' := fst (fst out) in
  (X' = X /\ snd (fst out) = clamp (L * Lup) L_min L_max /\
   (let gain := chisq Dout W (residual f X Y) - chisq Dout W (residual f (moved X (lm_h Dout solve f X Y W L)) Y) in
    (expected Din Dout solve f X Y W L = 0 /\ gain <= 0) \/ gain < epsilon * Rabs (expected Din Dout solve f X Y W L))) \/
  (exists h, h = lm_h Dout solve f X Y W L /\ X' = moved X h /\ snd (fst out) = clamp (L / Ldn) L_min L_max /\
   chisq Dout W (residual f X Y) - chisq Dout W (residual f X' Y) >= epsilon * Rabs (expected Din Dout solve f X Y W L) /\
   chisq Dout W (residual f X' Y) <= chisq Dout W (residual f X Y) /\
   (0 < epsilon -> chisq Dout W (residual f X' Y) < chisq Dout W (residual f X Y))).
Proof. exact step_cases. Qed.
Print Assumptions C16_step.
(** for a nonsingular system h is the solution: H h = g with H = J^T W J + L, g = J^T W (Y - f X) and J the partial derivatives of f, and then the expected improvement is 3 h.g *)
Theorem C16_normal_equations : forall n m solve f, solver_ok n solve -> forall X Y W L J, sym_psd m W -> 0 < L -> partials n m f X J -> forall i, (i < n)%nat ->
  fsum n (fun k => (qform m W (fun a => J a i) (fun a => J a k) + L * (if Nat.eqb i k then 1 else 0)) * lm_h m solve f X Y W L k)
  = qform m W (fun a => J a i) (residual f X Y).
Proof. exact normal_partials. Qed.
Print Assumptions C16_normal_equations.
(** however many iterations are made, the fit never gets worse, not even from one iteration to the next *)
Theorem C16_monotone : forall Din Dout solve f Lup Ldn epsilon L_min L_max stopping lenX lenY Xs Ys Ws L n m X1 L1 C1 X2 L2 C2,
  0 <= epsilon -> (n <= m)%nat ->
  batch_lm Din Dout solve f Lup Ldn epsilon L_min L_max stopping lenX lenY Xs Ys Ws L n = Ok (X1, L1, C1) ->
  batch_lm Din Dout solve f Lup Ldn epsilon L_min L_max stopping lenX lenY Xs Ys Ws L m = Ok (X2, L2, C2) ->
  forall b, chisq Dout (Ws b) (residual f (X2 b) (Ys b)) <= chisq Dout (Ws b) (residual f (X1 b) (Ys b)) <= chisq Dout (Ws b) (residual f (Xs b) (Ys b)).
Proof. exact batch_monotone. Qed.
Print Assumptions C16_monotone.
Theorem C16_damping : forall Din Dout solve f Lup Ldn epsilon L_min L_max stopping lenX lenY Xs Ys Ws L n X1 L1 C1,
  L_min <= L_max -> (1 <= n)%nat \/ L_min <= L <= L_max ->
  batch_lm Din Dout solve f Lup Ldn epsilon L_min L_max stopping lenX lenY Xs Ys Ws L n = Ok (X1, L1, C1) ->
  forall b, L_min <= L1 b <= L_max.
Proof. exact batch_damping. Qed.
Print Assumptions C16_damping.
(** for an affine model every step from a point where the gradient of chi-squared does not vanish is accepted and strictly improves the fit *)
Theorem C16_affine : forall n m solve f c A, solver_ok n solve -> is_affine n m f c A ->
  forall X Y W L, sym_psd m W -> 0 < L -> forall Lup Ldn epsilon L_min L_max j, epsilon < 1 / 3 -> (j < n)%nat ->
  qform m W (fun i => A i j) (residual f X Y) <> 0 ->
  exists h, (exists k, (k < n)%nat /\ h k <> 0) /\
  lm_step n m solve f Lup Ldn epsilon L_min L_max X Y W L =
    (moved X h, clamp (L / Ldn) L_min L_max, chisq m W (residual f (moved X h) Y)) /\
  chisq m W (residual f (moved X h) Y) < chisq m W (residual f X Y).
Proof. exact affine_step. Qed.
Print Assumptions C16_affine.
Theorem C16_mismatch : forall Din Dout solve f Lup Ldn epsilon L_min L_max stopping lenX lenY Xs Ys Ws L n, lenX <> lenY ->
  batch_lm Din Dout solve f Lup Ldn epsilon L_min L_max stopping lenX lenY Xs Ys Ws L n = Raise ValueError.
Proof. exact batch_mismatch. Qed.
Print Assumptions C16_mismatch.
(** a line fitted to three points with different weights *)
Example C16_hyps : let W := Diag (fun i => 1 + INR i) in let A : mat := fun i j => if Nat.eqb j 0 then 1 else INR i in
  let f : vec -> vec := fun X i => 5 + fsum 2 (fun j => A i j * X j) in
  solver_ok 2 cramer2 /\ is_affine 2 3 f (fun _ => 5) A /\ partials 2 3 f (fun _ => 0) A /\ sym_psd 3 W /\
  qform 3 W (fun i => A i 1%nat) (residual f (fun _ => 0) (fun i => 7)) <> 0.
Proof.
  cbv zeta. split; [exact cramer2_ok|]. split; [intros X i _; reflexivity|]. split.
  { intros i j Hi Hj. cbn [fsum]. destruct j as [|[|j]]; [| |lia]; cbn; auto_derive; try exact I; ring. }
  split; [split|].
  - intros i j _ _. cbn [wmat]. destruct (Nat.eqb_spec i j) as [->|D]; [rewrite Nat.eqb_refl; reflexivity|].
    destruct (Nat.eqb_spec j i); [congruence|reflexivity].
  - intros u. unfold qform. cbn. assert (A0 := pow2_ge_0 (u 0%nat)). assert (A1 := pow2_ge_0 (u 1%nat)). assert (A2 := pow2_ge_0 (u 2%nat)). nra.
  - unfold qform, residual. cbn. lra.
Qed.

(** REFUTED: with the default settings, the identity fitted to zero from 1e-5 stops in the second iteration and returns the point
    before and the chi-squared after the last step (whatever correct solver is used) *)
Theorem C17_refuted : forall solve, solver_ok 1 solve -> exists X L c,
  batch_lm 1 1 solve ident 9 11 (1 / 10) (1 / 10 ^ 9) (10 ^ 9) (1 / 10 ^ 4) 1 1 X0 (fun _ => Y0) (fun _ => W1) 1 50 = Ok (X, L, Chi2 c) /\
  c 0%nat <> chisq 1 W1 (residual ident (X 0%nat) Y0).
Proof. exact inconsistent. Qed.
Print Assumptions C17_refuted.
(** what holds, provided no gain ratio is exactly epsilon: the returned values are the chi-squared of a point X' which is the
    returned point or, if the convergence test ended the loop, closer to it than the stopping tolerance in every component *)
Theorem C17_nearby_partial : forall Din Dout solve f Lup Ldn epsilon L_min L_max stopping len Xs Ys Ws L n X1 L1 C1,
  (1 <= n)%nat -> 0 < L_max -> L_min < L_max -> 1 < Ldn -> L_min <= L <= L_max ->
  (forall b X L, (b < len)%nat -> L_min <= L <= L_max -> lm_rho Din Dout solve f X (Ys b) (Ws b) L <> Fin epsilon) ->
  batch_lm Din Dout solve f Lup Ldn epsilon L_min L_max stopping len len Xs Ys Ws L n = Ok (X1, L1, C1) ->
  exists X' c, C1 = Chi2 c /\
    (X' = X1 \/ forall b k, (b < len)%nat -> (k < Din)%nat -> Rabs (X' b k - X1 b k) < stopping) /\
    forall b, (b < len)%nat -> c b = chisq Dout (Ws b) (residual f (X' b) (Ys b)).
Proof. exact batch_nearby. Qed.
Print Assumptions C17_nearby_partial.
(** with a tolerance of zero the returned triple is consistent *)
Theorem C17_consistent_partial : forall Din Dout solve f Lup Ldn epsilon L_min L_max stopping len Xs Ys Ws L n X1 L1 C1,
  (1 <= Din)%nat -> (1 <= n)%nat -> 0 < L_max -> L_min < L_max -> 1 < Ldn -> L_min <= L <= L_max -> stopping <= 0 ->
  (forall b X L, (b < len)%nat -> L_min <= L <= L_max -> lm_rho Din Dout solve f X (Ys b) (Ws b) L <> Fin epsilon) ->
  batch_lm Din Dout solve f Lup Ldn epsilon L_min L_max stopping len len Xs Ys Ws L n = Ok (X1, L1, C1) ->
  exists c, C1 = Chi2 c /\ forall b, (b < len)%nat -> c b = chisq Dout (Ws b) (residual f (X1 b) (Ys b)).
Proof. exact batch_consistent. Qed.
Print Assumptions C17_consistent_partial.
(** no ties: the identity fitted to zero *)
Example C17_hyps : solver_ok 1 divide1 /\
  (forall b X L, (b < 1)%nat -> 1 / 10 ^ 9 <= L <= 10 ^ 9 -> lm_rho 1 1 divide1 ident X Y0 W1 L <> Fin (1 / 10)).
Proof.
  split; [exact divide1_ok|]. intros b X L _ H. apply ident_no_tie; [exact divide1_ok|]. lra.
Qed.
