(** * Microlens: proofs *)
From Coq Require Import Reals Lra Lia Psatz Arith String.
From Coquelicot Require Import Coquelicot.
From Verif Require Import Py Fsum Gauss_Model Gauss_Proofs Micro_Model.
Local Open Scope R_scope.

Lemma mean_bounds n m x lo hi : (1 <= n)%nat -> (1 <= m)%nat -> (forall i j, (i < n)%nat -> (j < m)%nat -> lo <= x i j <= hi) ->
  exists mu, mean n m x = Some mu /\ lo <= mu <= hi.
Proof.
  intros N M H. unfold mean. assert (0 < n * m)%nat by (apply Nat.mul_pos_pos; lia). rewrite (proj2 (Nat.eqb_neq (n * m) 0)) by lia. eexists. split; [reflexivity|].
  assert (P : 0 < INR (n * m)) by (apply lt_0_INR; assumption).
  assert (L : fsum n (fun i => fsum m (fun _ => lo)) <= fsum n (fun i => fsum m (x i))) by (apply fsum_le; intros i Hi; apply fsum_le; intros j Hj; apply H; assumption).
  assert (U : fsum n (fun i => fsum m (x i)) <= fsum n (fun i => fsum m (fun _ => hi))) by (apply fsum_le; intros i Hi; apply fsum_le; intros j Hj; apply H; assumption).
  rewrite (fsum_ext n (fun i => fsum m (fun _ => lo)) (fun _ => INR m * lo)), fsum_const in L by (intros; apply fsum_const).
  rewrite (fsum_ext n (fun i => fsum m (fun _ => hi)) (fun _ => INR m * hi)), fsum_const in U by (intros; apply fsum_const).
  rewrite mult_INR in *. split; [apply Rmult_le_reg_r with (INR n * INR m)|apply Rmult_le_reg_r with (INR n * INR m)]; try assumption; unfold Rdiv; rewrite Rmult_assoc, Rinv_l by lra; lra.
Qed.
(** Popoviciu: the standard deviation is at most half the range *)
Lemma std_bounds n m x lo hi : (1 <= n)%nat -> (1 <= m)%nat -> (forall i j, (i < n)%nat -> (j < m)%nat -> lo <= x i j <= hi) ->
  exists s, std n m x = Some s /\ 0 <= s <= (hi - lo) / 2.
Proof.
  intros N M H. unfold std. assert (0 < n * m)%nat by (apply Nat.mul_pos_pos; lia). destruct (mean_bounds n m x lo hi N M H) as (mu & E & B). rewrite E.
  assert (LH : lo <= hi) by (assert (Q := H 0%nat 0%nat ltac:(lia) ltac:(lia)); lra).
  unfold mean in *. rewrite (proj2 (Nat.eqb_neq (n * m) 0)) in * by lia. injection E as E. cbn [option_map]. eexists. split; [reflexivity|]. split; [apply sqrt_pos|].
  assert (P : 0 < INR (n * m)) by (apply lt_0_INR; assumption).
  assert (V : fsum n (fun i => fsum m (fun j => (x i j - mu) ^ 2)) / INR (n * m) <= ((hi - lo) / 2) ^ 2).
  { apply Rle_trans with ((hi - mu) * (mu - lo)); [|assert (Q := pow2_ge_0 ((hi + lo) / 2 - mu)); lra].
    assert (S : fsum n (fun i => fsum m (fun j => (x i j - mu) ^ 2)) <= fsum n (fun i => fsum m (fun j => (hi + lo - 2 * mu) * x i j + (mu ^ 2 - hi * lo)))).
    { apply fsum_le. intros i Hi. apply fsum_le. intros j Hj. assert (Q := H i j Hi Hj). nra. }
    rewrite (fsum_ext n (fun i => fsum m (fun j => (hi + lo - 2 * mu) * x i j + _)) (fun i => (hi + lo - 2 * mu) * fsum m (x i) + INR m * (mu ^ 2 - hi * lo))) in S.
    2:{ intros i _. rewrite fsum_plus, fsum_const, fsum_scal_l. reflexivity. }
    rewrite fsum_plus, fsum_const, fsum_scal_l in S.
    assert (T : fsum n (fun i => fsum m (x i)) = mu * INR (n * m)) by (rewrite <- E; field; lra). rewrite T in S.
    apply Rmult_le_reg_r with (INR (n * m)); [exact P|]. unfold Rdiv. rewrite Rmult_assoc, Rinv_l by lra. rewrite mult_INR in *. lra. }
  rewrite <- (sqrt_pow2 ((hi - lo) / 2)) by lra. apply sqrt_le_1_alt, V.
Qed.
Lemma linspace_in a b n i : a <= b -> (i < n)%nat -> a <= linspace a b n i <= b.
Proof.
  intros H I. unfold linspace. destruct (Nat.leb_spec n 1) as [L|L]; [lra|].
  assert (D : 0 < INR (n - 1)) by (apply lt_0_INR; lia). assert (LI : INR i <= INR (n - 1)) by (apply le_INR; lia). assert (Z := pos_INR i).
  assert (Q : 0 <= INR i / INR (n - 1) <= 1).
  { split; [apply Rmult_le_pos; [exact Z|left; apply Rinv_0_lt_compat, D]|]. apply Rmult_le_reg_r with (INR (n - 1)); [exact D|]. unfold Rdiv. rewrite Rmult_assoc, Rinv_l by lra. lra. }
  replace (INR i * ((b - a) / INR (n - 1))) with (INR i / INR (n - 1) * (b - a)) by (field; lra). nra.
Qed.
Definition in_fov (fov : R * R * R * R) (x y : R) : Prop := let '(f0, f1, f2, f3) := fov in f0 <= x <= f1 /\ f2 <= y <= f3.
Definition area (fov : R * R * R * R) : R := let '(f0, f1, f2, f3) := fov in (f1 - f0) * (f3 - f2).
Definition ordered (fov : R * R * R * R) : Prop := let '(f0, f1, f2, f3) := fov in f0 <= f1 /\ f2 <= f3.
Definition samples (method : string) (N_mcmc N_grid : nat) : Prop := (method = "mcmc"%string /\ (1 <= N_mcmc)%nat) \/ (method = "grid"%string /\ (1 <= N_grid)%nat).
Definition count (method : string) (N_mcmc N_grid : nat) : nat := if String.eqb method "mcmc" then N_mcmc else (N_grid * N_grid)%nat.
Lemma bounds ray f rx ry fov method Nm Ng lo hi : ordered fov -> samples method Nm Ng -> (forall i, 0 <= rx i <= 1) -> (forall i, 0 <= ry i <= 1) ->
  (forall x y, in_fov fov x y -> lo <= f (fst (ray x y)) (snd (ray x y)) <= hi) ->
  exists flux err, microlens ray f rx ry fov method Nm Ng = Ok (Some flux, Some err) /\ lo * area fov <= flux <= hi * area fov /\
  0 <= err <= (hi - lo) / 2 * area fov / sqrt (INR (count method Nm Ng)).
Proof.
  destruct fov as [[[f0 f1] f2] f3]. intros [O1 O2] SA RX RY H. unfold area. assert (AP : 0 <= (f1 - f0) * (f3 - f2)) by (apply Rmult_le_pos; lra).
  destruct SA as [[-> N]|[-> N]]; unfold microlens, count; cbn [String.eqb Ascii.eqb Bool.eqb].
  - assert (B : forall i j, (i < Nm)%nat -> (j < 1)%nat -> lo <= (fun i _ : nat => let '(bx, by_) := ray (rx i * (f1 - f0) + f0) (ry i * (f3 - f2) + f2) in f bx by_) i j <= hi).
    { intros i j _ _. cbv beta. assert (Q := H (rx i * (f1 - f0) + f0) (ry i * (f3 - f2) + f2)). destruct (ray _ _) as [bx by_]. apply Q. assert (X := RX i). assert (Y := RY i). cbn. nra. }
    destruct (mean_bounds Nm 1 _ lo hi N ltac:(lia) B) as (mu & E1 & B1). destruct (std_bounds Nm 1 _ lo hi N ltac:(lia) B) as (s & E2 & B2). cbv beta in E1, E2. rewrite E1, E2. cbn [option_map].
    assert (SP : 0 < sqrt (INR Nm)) by (apply sqrt_lt_R0, lt_0_INR; lia). assert (IP := Rinv_0_lt_compat _ SP).
    do 2 eexists. split; [reflexivity|]. split; [nra|]. unfold Rdiv. split; [apply Rmult_le_pos; [apply Rmult_le_pos; lra|lra]|]. apply Rmult_le_compat_r; [lra|]. apply Rmult_le_compat_r; lra.
  - assert (B : forall i j, (i < Ng)%nat -> (j < Ng)%nat -> lo <= (fun i j : nat => let '(bx, by_) := ray (linspace f0 f1 Ng i) (linspace f2 f3 Ng j) in f bx by_) i j <= hi).
    { intros i j Hi Hj. cbv beta. assert (Q := H (linspace f0 f1 Ng i) (linspace f2 f3 Ng j)). destruct (ray _ _) as [bx by_]. apply Q. split; apply linspace_in; assumption. }
    destruct (mean_bounds Ng Ng _ lo hi N N B) as (mu & E1 & B1). destruct (std_bounds Ng Ng _ lo hi N N B) as (s & E2 & B2). cbv beta in E1, E2. rewrite E1, E2. cbn [option_map].
    assert (SP : 0 < INR Ng) by (apply lt_0_INR; lia). assert (IP := Rinv_0_lt_compat _ SP).
    do 2 eexists. split; [reflexivity|]. split; [nra|]. rewrite mult_INR, sqrt_square by lra. unfold Rdiv. split; [apply Rmult_le_pos; [apply Rmult_le_pos; lra|lra]|]. apply Rmult_le_compat_r; [lra|]. apply Rmult_le_compat_r; lra.
Qed.
Lemma uniform ray f rx ry fov method Nm Ng k : ordered fov -> samples method Nm Ng -> (forall i, 0 <= rx i <= 1) -> (forall i, 0 <= ry i <= 1) ->
  (forall x y, in_fov fov x y -> f (fst (ray x y)) (snd (ray x y)) = k) -> microlens ray f rx ry fov method Nm Ng = Ok (Some (k * area fov), Some 0).
Proof.
  intros O SA RX RY H. destruct (bounds ray f rx ry fov method Nm Ng k k O SA RX RY) as (flux & err & E & B1 & B2).
  - intros x y I. rewrite H by exact I. lra.
  - rewrite E. replace ((k - k) / 2 * area fov / sqrt (INR (count method Nm Ng))) with 0 in B2 by (unfold Rdiv; ring). do 2 f_equal; f_equal; lra.
Qed.
Lemma unknown ray f rx ry fov method Nm Ng : method <> "mcmc"%string -> method <> "grid"%string -> microlens ray f rx ry fov method Nm Ng = Raise ValueError.
Proof. intros A B. destruct fov as [[[f0 f1] f2] f3]. unfold microlens. rewrite (proj2 (String.eqb_neq _ _) A), (proj2 (String.eqb_neq _ _) B). reflexivity. Qed.
(** the grid is exact for affine brightness *)
Lemma linspace_mean a b n : (2 <= n)%nat -> fsum n (linspace a b n) = INR n * ((a + b) / 2).
Proof.
  intros N. assert (E : fsum n (linspace a b n) + fsum n (linspace a b n) = INR n * (a + b)); [|lra].
  rewrite fsum_rev at 2. rewrite <- fsum_plus, <- fsum_const. apply fsum_ext. intros i Hi. unfold linspace. destruct (Nat.leb_spec n 1) as [L|L]; [lia|].
  rewrite (minus_INR (n - 1) i) by lia. field. apply not_0_INR. lia.
Qed.
Lemma affine ray f rx ry fov Nm Ng c0 c1 c2 : (2 <= Ng)%nat -> ordered fov -> (forall x y, in_fov fov x y -> f (fst (ray x y)) (snd (ray x y)) = c0 + c1 * x + c2 * y) ->
  let '(f0, f1, f2, f3) := fov in
  exists err, microlens ray f rx ry fov "grid" Nm Ng = Ok (Some (RInt (fun x => RInt (fun y => c0 + c1 * x + c2 * y) f2 f3) f0 f1), Some err).
Proof.
  destruct fov as [[[f0 f1] f2] f3]. intros N [O1 O2] H. unfold microlens. cbn [String.eqb Ascii.eqb Bool.eqb]. unfold mean, std. assert (0 < Ng * Ng)%nat by (apply Nat.mul_pos_pos; lia).
  unfold mean. rewrite (proj2 (Nat.eqb_neq (Ng * Ng) 0)) by lia. cbn [option_map].
  match goal with |- exists err, Ok (Some ?a, Some ?b) = Ok (Some ?c, _) => exists b; enough (V : a = c) by (rewrite V; reflexivity) end.
  assert (I1 : forall x, RInt (fun y => c0 + c1 * x + c2 * y) f2 f3 = (c0 + c1 * x) * (f3 - f2) + c2 * (f3 ^ 2 - f2 ^ 2) / 2).
  { intros x. apply is_RInt_unique. replace ((c0 + c1 * x) * (f3 - f2) + c2 * (f3 ^ 2 - f2 ^ 2) / 2) with (minus ((c0 + c1 * x) * f3 + c2 * f3 ^ 2 / 2) ((c0 + c1 * x) * f2 + c2 * f2 ^ 2 / 2)) by (unfold minus, plus, opp; cbn; field).
    apply (is_RInt_derive (fun y => (c0 + c1 * x) * y + c2 * y ^ 2 / 2)); intros y _; [auto_derive; [exact I|field]|].
    apply (ex_derive_continuous (fun y => c0 + c1 * x + c2 * y)). auto_derive. exact I. }
  rewrite (RInt_ext _ (fun x => (c0 + c1 * x) * (f3 - f2) + c2 * (f3 ^ 2 - f2 ^ 2) / 2)) by (intros; apply I1).
  assert (I2 : RInt (fun x => (c0 + c1 * x) * (f3 - f2) + c2 * (f3 ^ 2 - f2 ^ 2) / 2) f0 f1 = (c0 * (f1 - f0) + c1 * (f1 ^ 2 - f0 ^ 2) / 2) * (f3 - f2) + c2 * (f3 ^ 2 - f2 ^ 2) / 2 * (f1 - f0)).
  { apply is_RInt_unique. set (F := fun x => (c0 * x + c1 * x ^ 2 / 2) * (f3 - f2) + c2 * (f3 ^ 2 - f2 ^ 2) / 2 * x).
    replace ((c0 * (f1 - f0) + c1 * (f1 ^ 2 - f0 ^ 2) / 2) * (f3 - f2) + c2 * (f3 ^ 2 - f2 ^ 2) / 2 * (f1 - f0)) with (minus (F f1) (F f0)) by (unfold F, minus, plus, opp; cbn; field).
    apply (is_RInt_derive F); intros y _; [unfold F; auto_derive; [exact I|field]|].
    apply (ex_derive_continuous (fun x => (c0 + c1 * x) * (f3 - f2) + c2 * (f3 ^ 2 - f2 ^ 2) / 2)). auto_derive. exact I. }
  rewrite I2.
  assert (S : fsum Ng (fun i => fsum Ng (fun j => let '(bx, by_) := ray (linspace f0 f1 Ng i) (linspace f2 f3 Ng j) in f bx by_)) = INR Ng * INR Ng * (c0 + c1 * ((f0 + f1) / 2) + c2 * ((f2 + f3) / 2))).
  { rewrite (fsum_ext Ng _ (fun i => INR Ng * (c0 + c2 * ((f2 + f3) / 2)) + INR Ng * c1 * linspace f0 f1 Ng i)).
    - rewrite fsum_plus, fsum_const, fsum_scal_l, linspace_mean by lia. ring.
    - intros i Hi. rewrite (fsum_ext Ng _ (fun j => (c0 + c1 * linspace f0 f1 Ng i) + c2 * linspace f2 f3 Ng j)).
      + rewrite fsum_plus, fsum_const, fsum_scal_l, linspace_mean by lia. ring.
      + intros j Hj. rewrite <- (H (linspace f0 f1 Ng i) (linspace f2 f3 Ng j)); [destruct (ray _ _); reflexivity|]. split; apply linspace_in; assumption. }
  rewrite S, mult_INR. field. apply not_0_INR. lia.
Qed.
