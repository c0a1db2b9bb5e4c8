(** * Proofs about the gaussian kernel *)
From Coq Require Import Reals Arith Lia Lra.
From Verif Require Import Fsum Gauss_Model.
Local Open Scope R_scope.

Lemma linspace_sym n s i : (i < n)%nat -> linspace (- (INR n - 1) * s / 2) ((INR n - 1) * s / 2) n i = (INR i - (INR n - 1) / 2) * s.
Proof.
  intros Hi. unfold linspace. destruct (Nat.leb_spec n 1) as [H|H].
  - assert (n = 1)%nat by lia. assert (i = 0)%nat by lia. subst. cbn. field.
  - rewrite minus_INR by lia. change (INR 1) with 1. assert (1 < INR n) by (change 1 with (INR 1); apply lt_INR, H). field. lra.
Qed.
Lemma reshape_entry nx up Z r j b : (b < up)%nat -> (j < nx)%nat -> flat_entry (nx * up) Z ((r * nx + j) * up + b) = Z r (j * up + b)%nat.
Proof.
  intros Hb Hj. unfold flat_entry. assert (L : (j * up + b < nx * up)%nat) by nia.
  replace ((r * nx + j) * up + b)%nat with ((nx * up) * r + (j * up + b))%nat by ring.
  rewrite <- (Nat.div_unique ((nx * up) * r + (j * up + b)) (nx * up) r (j * up + b) L eq_refl).
  rewrite <- (Nat.mod_unique ((nx * up) * r + (j * up + b)) (nx * up) r (j * up + b) L eq_refl). reflexivity.
Qed.
Definition bump (s sigma : R) (n i : nat) : R := exp (- (1 / 2) * ((INR i - (INR n - 1) / 2) * s) ^ 2 / sigma ^ 2).
(** mass of pixel i out of n along one axis *)
Definition axis_sum (s sigma : R) (n up i : nat) : R := fsum up (fun a => bump s sigma (n * up) (i * up + a)).
Lemma sums_separable s nx ny sigma up i j : sigma <> 0 -> (i < ny)%nat -> (j < nx)%nat ->
  gaussian_sums s nx ny sigma up i j = axis_sum s sigma ny up i * axis_sum s sigma nx up j.
Proof.
  intros Hs Hi Hj. unfold gaussian_sums, axis_sum. cbv zeta. rewrite fsum_prod. apply fsum_ext. intros a Ha. apply fsum_ext. intros b Hb.
  rewrite reshape_entry by assumption. rewrite !linspace_sym by nia. unfold bump. rewrite <- exp_plus. f_equal. field. exact Hs.
Qed.
Lemma axis_pos s sigma n up i : (1 <= up)%nat -> 0 < axis_sum s sigma n up i.
Proof.
  intros H. unfold axis_sum. apply (fsum_pos up _ 0%nat); [lia| |apply exp_pos]. intros a _. left. apply exp_pos.
Qed.
Lemma sums_pos s nx ny sigma up i j : sigma <> 0 -> (1 <= up)%nat -> (i < ny)%nat -> (j < nx)%nat -> 0 < gaussian_sums s nx ny sigma up i j.
Proof. intros. rewrite sums_separable by assumption. apply Rmult_lt_0_compat; apply axis_pos; assumption. Qed.
Lemma total_pos s nx ny sigma up : sigma <> 0 -> (1 <= up)%nat -> (1 <= nx)%nat -> (1 <= ny)%nat ->
  0 < fsum ny (fun r => fsum nx (fun c => gaussian_sums s nx ny sigma up r c)).
Proof.
  intros Hs Hu Hx Hy. apply (fsum_pos ny _ 0%nat); [lia| |].
  - intros r Hr. apply fsum_nonneg. intros c Hc. left. apply sums_pos; assumption.
  - apply (fsum_pos nx _ 0%nat); [lia| |apply sums_pos; assumption || lia]. intros c Hc. left. apply sums_pos; assumption || lia.
Qed.
Lemma gaussian_positive s nx ny sigma up i j : sigma <> 0 -> (1 <= up)%nat -> (i < ny)%nat -> (j < nx)%nat -> 0 < gaussian s nx ny sigma up i j.
Proof.
  intros. unfold gaussian. apply Rdiv_lt_0_compat; [apply sums_pos; assumption|apply total_pos; assumption || lia].
Qed.
Lemma gaussian_sum_one s nx ny sigma up : sigma <> 0 -> (1 <= up)%nat -> (1 <= nx)%nat -> (1 <= ny)%nat ->
  fsum ny (fun i => fsum nx (fun j => gaussian s nx ny sigma up i j)) = 1.
Proof.
  intros Hs Hu Hx Hy. unfold gaussian. assert (P := total_pos s nx ny sigma up Hs Hu Hx Hy).
  rewrite (fsum_ext ny _ (fun i => fsum nx (fun j => gaussian_sums s nx ny sigma up i j) / fsum ny (fun r => fsum nx (fun c => gaussian_sums s nx ny sigma up r c))))
    by (intros i _; apply fsum_div).
  rewrite fsum_div. field. lra.
Qed.
Lemma bump_rev s sigma n i : (i < n)%nat -> bump s sigma n (n - 1 - i) = bump s sigma n i.
Proof.
  intros Hi. unfold bump. rewrite !minus_INR by lia. change (INR 1) with 1. f_equal. unfold Rdiv. f_equal. field.
Qed.
Lemma axis_rev s sigma n up i : (i < n)%nat -> axis_sum s sigma n up (n - 1 - i) = axis_sum s sigma n up i.
Proof.
  intros Hi. unfold axis_sum. rewrite fsum_rev. apply fsum_ext. intros a Ha. rewrite <- bump_rev by nia. f_equal. nia.
Qed.
Lemma gaussian_rev s nx ny sigma up i j : sigma <> 0 -> (i < ny)%nat -> (j < nx)%nat ->
  gaussian s nx ny sigma up (ny - 1 - i) j = gaussian s nx ny sigma up i j /\
  gaussian s nx ny sigma up i (nx - 1 - j) = gaussian s nx ny sigma up i j.
Proof.
  intros Hs Hi Hj. unfold gaussian. rewrite !sums_separable by (assumption || lia). rewrite !axis_rev by assumption. split; reflexivity.
Qed.
(** the entries are proportional to the integral (by the midpoint rule) of the gaussian over the pixels *)
Lemma gaussian_value s nx ny sigma up i j : sigma <> 0 -> (1 <= up)%nat -> (i < ny)%nat -> (j < nx)%nat ->
  let g n k := exp (- (1 / 2) * ((INR k - (INR n - 1) / 2) * s) ^ 2 / sigma ^ 2) in
  gaussian s nx ny sigma up i j * (fsum (ny * up) (g (ny * up)%nat) * fsum (nx * up) (g (nx * up)%nat)) =
  fsum up (fun a => g (ny * up)%nat (i * up + a)%nat) * fsum up (fun b => g (nx * up)%nat (j * up + b)%nat).
Proof.
  intros Hs Hu Hi Hj g. unfold gaussian. rewrite sums_separable by assumption.
  assert (P := total_pos s nx ny sigma up Hs Hu ltac:(lia) ltac:(lia)).
  assert (E : fsum ny (fun r => fsum nx (fun c => gaussian_sums s nx ny sigma up r c)) = fsum (ny * up) (g (ny * up)%nat) * fsum (nx * up) (g (nx * up)%nat)).
  { rewrite (fsum_ext ny _ (fun r => fsum nx (fun c => axis_sum s sigma ny up r * axis_sum s sigma nx up c))).
    - rewrite <- fsum_prod, !fsum_blocks. reflexivity.
    - intros r Hr. apply fsum_ext. intros c Hc. apply sums_separable; assumption. }
  rewrite E in *. change (axis_sum s sigma ny up i) with (fsum up (fun a => g (ny * up)%nat (i * up + a)%nat)).
  change (axis_sum s sigma nx up j) with (fsum up (fun a => g (nx * up)%nat (j * up + a)%nat)).
  assert (Q : fsum (ny * up) (g (ny * up)%nat) <> 0 /\ fsum (nx * up) (g (nx * up)%nat) <> 0).
  { split; intros Z; rewrite Z in P; lra. }
  field. exact (conj (proj2 Q) (proj1 Q)).
Qed.
