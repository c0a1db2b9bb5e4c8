(** * Real functions used by the library and missing from the standard library.
    [atan2 y x] models backend.arctan2(y, x); [acosh], [atanh] model arccosh and arctanh
    on their domains; [rfloor]/[rround] model floor and round-half-even. *)
From Coq Require Import Reals Lra Lia ZArith.
From Coquelicot Require Import Coquelicot.
From Verif Require Import Calc2.
Open Scope R_scope.

(** IEEE arctan2 on reals (signed zeros identified). *)
Definition atan2 (y x : R) : R :=
  if Rlt_dec 0 x then atan (y / x)
  else if Rlt_dec x 0 then
    if Rle_dec 0 y then atan (y / x) + PI else atan (y / x) - PI
  else if Rlt_dec 0 y then PI / 2
  else if Rlt_dec y 0 then - (PI / 2) else 0.

Definition acosh (x : R) : R := ln (x + sqrt (x ^ 2 - 1)).
Definition atanh (x : R) : R := / 2 * ln ((1 + x) / (1 - x)).

(** floor; [Int_part] of the standard library *)
Definition rfloor (x : R) : Z := Int_part x.

Lemma rfloor_spec x : IZR (rfloor x) <= x < IZR (rfloor x) + 1.
Proof. unfold rfloor; destruct (base_Int_part x) as [A B]; lra. Qed.

Lemma rfloor_unique x n : IZR n <= x < IZR n + 1 -> rfloor x = n.
Proof.
  intros [H1 H2]; destruct (rfloor_spec x) as [H3 H4].
  assert (IZR (rfloor x) < IZR (n + 1)) by (rewrite plus_IZR; lra).
  assert (IZR n < IZR (rfloor x + 1)) by (rewrite plus_IZR; lra).
  apply lt_IZR in H; apply lt_IZR in H0; lia.
Qed.

Lemma rfloor_IZR n : rfloor (IZR n) = n.
Proof. apply rfloor_unique; lra. Qed.

Lemma rfloor_le x y : x <= y -> (rfloor x <= rfloor y)%Z.
Proof.
  intros H; destruct (rfloor_spec x), (rfloor_spec y).
  assert (IZR (rfloor x) < IZR (rfloor y + 1)) by (rewrite plus_IZR; lra).
  apply lt_IZR in H4; lia.
Qed.

(** round to nearest, ties to even (torch.round, jnp.round) *)
Definition rround (x : R) : Z :=
  let f := rfloor x in
  if Rlt_dec (x - IZR f) (1 / 2) then f
  else if Rlt_dec (1 / 2) (x - IZR f) then (f + 1)%Z
  else if Z.even f then f else (f + 1)%Z.

Lemma rround_near x : Rabs (x - IZR (rround x)) <= 1 / 2.
Proof.
  unfold rround; destruct (rfloor_spec x).
  destruct (Rlt_dec (x - IZR (rfloor x)) (1 / 2)); [apply Rabs_le; lra|].
  destruct (Rlt_dec (1 / 2) (x - IZR (rfloor x)));
    [rewrite plus_IZR; apply Rabs_le; lra|].
  destruct (Z.even (rfloor x)); rewrite ?plus_IZR; apply Rabs_le; lra.
Qed.

Lemma rround_IZR n : rround (IZR n) = n.
Proof.
  unfold rround; rewrite rfloor_IZR.
  destruct (Rlt_dec (IZR n - IZR n) (1 / 2)); [reflexivity|lra].
Qed.

(** ** Square roots of sums of squares *)
Lemma sq_ge0 x : 0 <= x ^ 2.
Proof. rewrite <- Rsqr_pow2; apply Rle_0_sqr. Qed.

Lemma norm2_pos x y : (x <> 0 \/ y <> 0) -> 0 < x ^ 2 + y ^ 2.
Proof.
  intros H; destruct H as [H|H].
  - assert (0 < x ^ 2) by (rewrite <- Rsqr_pow2; apply Rsqr_pos_lt, H).
    pose proof (sq_ge0 y); lra.
  - assert (0 < y ^ 2) by (rewrite <- Rsqr_pow2; apply Rsqr_pos_lt, H).
    pose proof (sq_ge0 x); lra.
Qed.

Lemma norm_pos x y : (x <> 0 \/ y <> 0) -> 0 < sqrt (x ^ 2 + y ^ 2).
Proof. intros H; apply sqrt_lt_R0, norm2_pos, H. Qed.

Lemma sqrt_sq2 x : 0 <= x -> sqrt x ^ 2 = x.
Proof. intros H; rewrite <- Rsqr_pow2; apply Rsqr_sqrt, H. Qed.

Lemma cos_atan x : cos (atan x) = / sqrt (1 + x ^ 2).
Proof.
  assert (Hc : 0 < cos (atan x)) by (apply cos_gt_0; destruct (atan_bound x); lra).
  assert (Ht : tan (atan x) = x) by apply atan_right_inv.
  unfold tan in Ht.
  assert (Hs : sin (atan x) = x * cos (atan x)) by (rewrite <- Ht at 2; field; lra).
  assert (H1 := sin2_cos2 (atan x)); unfold Rsqr in H1; rewrite Hs in H1.
  assert (H2 : 0 < sqrt (1 + x ^ 2)) by (apply sqrt_lt_R0; pose proof (sq_ge0 x); lra).
  assert (H3 : sqrt (1 + x ^ 2) ^ 2 = 1 + x ^ 2) by (apply sqrt_sq2; pose proof (sq_ge0 x); lra).
  apply Rmult_eq_reg_r with (sqrt (1 + x ^ 2)); [|lra].
  rewrite Rinv_l by lra.
  assert (H4 : (cos (atan x) * sqrt (1 + x ^ 2)) ^ 2 = 1).
  { rewrite Rpow_mult_distr, H3; nra. }
  assert (0 < cos (atan x) * sqrt (1 + x ^ 2)) by (apply Rmult_lt_0_compat; assumption).
  nra.
Qed.

Lemma sin_atan x : sin (atan x) = x / sqrt (1 + x ^ 2).
Proof.
  assert (Hc : 0 < cos (atan x)) by (apply cos_gt_0; destruct (atan_bound x); lra).
  assert (Ht : tan (atan x) = x) by apply atan_right_inv.
  unfold tan in Ht. unfold Rdiv. rewrite <- cos_atan. rewrite <- Ht at 2; field; lra.
Qed.

(** ** The polar form of arctan2 *)
Lemma atan2_polar x y :
  x = sqrt (x ^ 2 + y ^ 2) * cos (atan2 y x) /\ y = sqrt (x ^ 2 + y ^ 2) * sin (atan2 y x).
Proof.
  unfold atan2.
  assert (Hmain : x <> 0 -> sqrt (x ^ 2 + y ^ 2) = Rabs x * sqrt (1 + (y / x) ^ 2)).
  { intros Hx. rewrite <- sqrt_Rsqr_abs. rewrite <- sqrt_mult_alt by apply Rle_0_sqr.
    f_equal; unfold Rsqr; field; exact Hx. }
  assert (Hs : 0 < sqrt (1 + (y / x) ^ 2)).
  { apply sqrt_lt_R0; pose proof (sq_ge0 (y / x)); lra. }
  destruct (Rlt_dec 0 x) as [Hx|Hx].
  { rewrite Hmain by lra. rewrite Rabs_right by lra. rewrite cos_atan, sin_atan.
    split; field; lra. }
  destruct (Rlt_dec x 0) as [Hx'|Hx'].
  { rewrite Hmain by lra. rewrite Rabs_left by lra.
    destruct (Rle_dec 0 y).
    - rewrite neg_cos, neg_sin, cos_atan, sin_atan. split; field; lra.
    - replace (atan (y / x) - PI) with (- (PI - atan (y / x))) by ring.
      rewrite cos_neg, sin_neg. rewrite sin_PI_x.
      replace (PI - atan (y / x)) with (- atan (y / x) + PI) by ring.
      rewrite neg_cos, cos_neg, cos_atan, sin_atan. split; field; lra. }
  assert (x = 0) by lra; subst x.
  replace (sqrt (0 ^ 2 + y ^ 2)) with (Rabs y).
  2:{ rewrite <- sqrt_Rsqr_abs; f_equal; unfold Rsqr; ring. }
  destruct (Rlt_dec 0 y).
  { rewrite cos_PI2, sin_PI2, Rabs_right by lra; split; ring. }
  destruct (Rlt_dec y 0).
  { rewrite cos_neg, sin_neg, cos_PI2, sin_PI2, Rabs_left by lra; split; ring. }
  assert (y = 0) by lra; subst. rewrite Rabs_R0; split; ring.
Qed.

Lemma atan2_cos x y : (x <> 0 \/ y <> 0) -> cos (atan2 y x) = x / sqrt (x ^ 2 + y ^ 2).
Proof.
  intros H; assert (Hp := norm_pos x y H); destruct (atan2_polar x y) as [A _].
  rewrite A at 2. field; lra.
Qed.

Lemma atan2_sin x y : (x <> 0 \/ y <> 0) -> sin (atan2 y x) = y / sqrt (x ^ 2 + y ^ 2).
Proof.
  intros H; assert (Hp := norm_pos x y H); destruct (atan2_polar x y) as [_ A].
  rewrite A at 2. field; lra.
Qed.

Lemma atan2_range x y : - PI < atan2 y x <= PI.
Proof.
  assert (P := PI_RGT_0). unfold atan2. destruct (atan_bound (y / x)).
  destruct (Rlt_dec 0 x); [lra|].
  destruct (Rlt_dec x 0) as [Hx|Hx].
  - destruct (Rle_dec 0 y) as [Hy|Hy].
    + split; [lra|].
      assert (atan (y / x) <= 0); [|lra].
      assert (Hq : y / x <= 0).
      { unfold Rdiv. assert (/ x < 0) by (apply Rinv_lt_0_compat, Hx). nra. }
      destruct (Req_dec (y / x) 0) as [E|E].
      * rewrite E, atan_0; lra.
      * rewrite <- atan_0; left; apply atan_increasing; lra.
    + split; [|lra].
      assert (0 < atan (y / x)); [|lra].
      rewrite <- atan_0; apply atan_increasing.
      unfold Rdiv. assert (/ x < 0) by (apply Rinv_lt_0_compat, Hx). nra.
  - destruct (Rlt_dec 0 y); [lra|]. destruct (Rlt_dec y 0); lra.
Qed.

(** Angles in (-PI, PI] are determined by cosine and sine. *)
Lemma angle_unique a b :
  - PI < a <= PI -> - PI < b <= PI -> cos a = cos b -> sin a = sin b -> a = b.
Proof.
  intros Ha Hb Hc Hs. assert (P := PI_RGT_0).
  assert (Hd : cos (a - b) = 1).
  { rewrite cos_minus, Hc, Hs. assert (H := sin2_cos2 b). unfold Rsqr in H; lra. }
  destruct (Req_dec a b) as [E|E]; [exact E|exfalso].
  assert (Hs2 : sin ((a - b) / 2) = 0).
  { assert (H : cos (2 * ((a - b) / 2)) = 1) by (rewrite <- Hd; f_equal; field).
    rewrite cos_2a_sin in H. nra. }
  assert (Hr : - PI < (a - b) / 2 < PI) by lra.
  destruct (Rlt_dec 0 ((a - b) / 2)).
  - assert (0 < sin ((a - b) / 2)) by (apply sin_gt_0; lra). lra.
  - assert (0 < sin (- ((a - b) / 2))) by (apply sin_gt_0; lra).
    rewrite sin_neg in H; lra.
Qed.

Lemma atan2_unique r t : 0 < r -> - PI < t <= PI -> atan2 (r * sin t) (r * cos t) = t.
Proof.
  intros Hr Ht.
  assert (Hn : sqrt ((r * cos t) ^ 2 + (r * sin t) ^ 2) = r).
  { replace ((r * cos t) ^ 2 + (r * sin t) ^ 2) with (r ^ 2 * ((sin t)² + (cos t)²))
      by (unfold Rsqr; ring). rewrite sin2_cos2, Rmult_1_r. apply sqrt_pow2; lra. }
  destruct (atan2_polar (r * cos t) (r * sin t)) as [A B]; rewrite Hn in A, B.
  apply angle_unique; [apply atan2_range|exact Ht| |];
    apply Rmult_eq_reg_l with r; lra.
Qed.

Lemma cos_sin_period_Z t k : cos (t + 2 * IZR k * PI) = cos t /\ sin (t + 2 * IZR k * PI) = sin t.
Proof.
  destruct (Z_le_gt_dec 0 k) as [Hk|Hk].
  - rewrite <- (Z2Nat.id k) by lia. rewrite <- INR_IZR_INZ.
    split; [apply cos_period|apply sin_period].
  - replace t with ((t + 2 * IZR k * PI) + 2 * INR (Z.to_nat (- k)) * PI) at 2 4.
    2:{ rewrite INR_IZR_INZ, Z2Nat.id by lia. rewrite opp_IZR; ring. }
    split; symmetry; [apply cos_period|apply sin_period].
Qed.

(** Every angle is congruent to one in (-PI, PI]. *)
Lemma angle_reduce t : exists k : Z, - PI < t + 2 * IZR k * PI <= PI.
Proof.
  assert (P := PI_RGT_0).
  destruct (rfloor_spec ((PI - t) / (2 * PI))) as [A B].
  set (n := rfloor ((PI - t) / (2 * PI))) in *.
  assert (A' : IZR n * (2 * PI) <= PI - t).
  { replace (PI - t) with ((PI - t) / (2 * PI) * (2 * PI)) by (field; lra).
    apply Rmult_le_compat_r; lra. }
  assert (B' : PI - t < (IZR n + 1) * (2 * PI)).
  { replace (PI - t) with ((PI - t) / (2 * PI) * (2 * PI)) by (field; lra).
    apply Rmult_lt_compat_r; lra. }
  exists n; lra.
Qed.

Lemma atan2_mod r t : 0 < r -> exists k : Z, atan2 (r * sin t) (r * cos t) = t + 2 * IZR k * PI.
Proof.
  intros Hr; destruct (angle_reduce t) as [k Hk]; exists k.
  destruct (cos_sin_period_Z t k) as [Hc Hs].
  rewrite <- Hc, <- Hs; apply atan2_unique; assumption.
Qed.

(** ** arctan2 has a smooth local branch everywhere off the origin *)
Lemma D2_atan2_right x y : 0 < x ->
  D2 (fun u v => atan (v / u)) x y (- y / (x ^ 2 + y ^ 2)) (x / (x ^ 2 + y ^ 2)).
Proof.
  intros Hx. assert (0 < x ^ 2 + y ^ 2) by (apply norm2_pos; left; lra).
  d2.
  - lra.
  - field. repeat split; try lra. 
  - field. repeat split; try lra.
Qed.

Lemma atan2_branch x y : (x <> 0 \/ y <> 0) ->
  exists th : R -> R -> R,
    D2 th x y (- y / (x ^ 2 + y ^ 2)) (x / (x ^ 2 + y ^ 2)) /\
    locally_2d (fun u v => exists k : Z, atan2 v u = th u v + 2 * IZR k * PI) x y.
Proof.
  intros H0. set (r0 := sqrt (x ^ 2 + y ^ 2)). set (t0 := atan2 y x).
  assert (Hr0 : 0 < r0) by (apply norm_pos, H0).
  assert (H2 : 0 < x ^ 2 + y ^ 2) by (apply norm2_pos, H0).
  destruct (atan2_polar x y) as [Px Py]; fold r0 t0 in Px, Py.
  set (c := cos t0) in *. set (s := sin t0) in *.
  assert (Hcs : c * c + s * s = 1) by (generalize (sin2_cos2 t0); unfold Rsqr, c, s; lra).
  pose (U := fun u v : R => u * c + v * s). pose (V := fun u v : R => v * c - u * s).
  assert (HU : D2 U x y c s) by (unfold U; d2; ring).
  assert (HV : D2 V x y (- s) c) by (unfold V; d2; ring).
  assert (U0 : U x y = r0) by (unfold U; rewrite Px, Py; nra).
  assert (V0 : V x y = 0) by (unfold V; rewrite Px, Py; nra).
  exists (fun u v => t0 + atan (V u v / U u v)). split.
  - assert (Hr2 : x ^ 2 + y ^ 2 = r0 ^ 2) by (unfold r0; rewrite sqrt_sq2; lra).
    eapply D2_eq.
    + apply D2_plus; [apply D2_const|].
      apply (D2_comp (fun u v => atan (v / u)) U V).
      * apply D2_atan2_right; rewrite U0; exact Hr0.
      * exact HU.
      * exact HV.
    + rewrite U0, V0, Hr2, Py. field. lra.
    + rewrite U0, V0, Hr2, Px. field. lra.
  - assert (HL : locally_2d (fun u v => 0 < U u v) x y).
    { apply (D2_locally_gt U x y c s 0 HU); rewrite U0; exact Hr0. }
    destruct HL as [d Hd]; exists d; intros u v Hu Hv; specialize (Hd u v Hu Hv).
    assert (Eu : u = U u v * c - V u v * s) by (transitivity (u * (c * c + s * s)); [rewrite Hcs; ring|unfold U, V; ring]).
    assert (Ev : v = U u v * s + V u v * c) by (transitivity (v * (c * c + s * s)); [rewrite Hcs; ring|unfold U, V; ring]).
    set (w := V u v / U u v).
    assert (Hw : 0 < sqrt (1 + w ^ 2)) by (apply sqrt_lt_R0; pose proof (sq_ge0 w); lra).
    set (rr := U u v * sqrt (1 + w ^ 2)).
    assert (Hrr : 0 < rr) by (apply Rmult_lt_0_compat; assumption).
    destruct (atan2_mod rr (t0 + atan w) Hrr) as [k Hk]. exists k. rewrite <- Hk.
    rewrite sin_plus, cos_plus, cos_atan, sin_atan. fold c s.
    assert (Hvw : V u v = w * U u v) by (unfold w; field; lra).
    unfold rr. f_equal; [rewrite Ev at 1|rewrite Eu at 1]; rewrite Hvw; field; lra.
Qed.

(** ** Integer multiples of an angle *)
Lemma cos_sin_Zmult (m : Z) t k :
  cos (IZR m * (t + 2 * IZR k * PI)) = cos (IZR m * t) /\
  sin (IZR m * (t + 2 * IZR k * PI)) = sin (IZR m * t).
Proof.
  replace (IZR m * (t + 2 * IZR k * PI)) with (IZR m * t + 2 * IZR (m * k) * PI)
    by (rewrite mult_IZR; ring).
  apply cos_sin_period_Z.
Qed.

(** ** arccosh, arctanh *)
Lemma is_derive_acosh x : 1 < x -> is_derive acosh x (/ sqrt (x ^ 2 - 1)).
Proof.
  intros Hx. unfold acosh.
  assert (H1 : 0 < x ^ 2 - 1) by nra.
  assert (Hs := sqrt_lt_R0 _ H1).
  auto_derive; replace (x * (x * 1) + - (1)) with (x ^ 2 - 1) by ring.
  - repeat split; lra.
  - field. lra.
Qed.

Lemma is_derive_atanh x : -1 < x < 1 -> is_derive atanh x (/ (1 - x ^ 2)).
Proof.
  intros [H1 H2]. unfold atanh. auto_derive.
  - split; [lra|split; [|trivial]]. unfold Rdiv; apply Rmult_lt_0_compat; [lra|apply Rinv_0_lt_compat; lra].
  - field. repeat split; try lra; nra.
Qed.
