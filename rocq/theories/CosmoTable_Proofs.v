From Coq Require Import Reals ZArith Lra Lia.
From Coquelicot Require Import Coquelicot.
From Verif Require Import Const_Model Cosmo_Model Interp1_Model Interp1_Proofs CosmoTable_Model.
Open Scope R_scope.

(** ** monotone and accurate interpolation on one cell *)
Lemma dhermite_form xa xb ya yb ma mb u : xa < xb ->
  let s := (yb - ya) / (xb - xa) in let t := (u - xa) / (xb - xa) in
  dhermite xa xb ya yb ma mb u = s + (1 - t) * (1 - 3 * t) * (ma - s) + t * (3 * t - 2) * (mb - s).
Proof. intros H s t. unfold dhermite, s, t. field. lra. Qed.

Lemma dhermite_near xa xb ya yb ma mb u e : xa < xb -> xa <= u <= xb ->
  let s := (yb - ya) / (xb - xa) in Rabs (ma - s) <= e -> Rabs (mb - s) <= e ->
  Rabs (dhermite xa xb ya yb ma mb u - s) <= e.
Proof.
  intros H Hu s Ha Hb. rewrite dhermite_form by exact H. fold s. set (t := (u - xa) / (xb - xa)).
  assert (Ht : 0 <= t <= 1).
  { unfold t. split; [apply Rdiv_le_0_compat; lra|]. apply Rmult_le_reg_r with (xb - xa); [lra|].
    unfold Rdiv. rewrite Rmult_assoc, Rinv_l by lra. lra. }
  replace (s + (1 - t) * (1 - 3 * t) * (ma - s) + t * (3 * t - 2) * (mb - s) - s)
    with ((1 - t) * (1 - 3 * t) * (ma - s) + t * (3 * t - 2) * (mb - s)) by ring.
  assert (He : 0 <= e) by (generalize (Rabs_pos (ma - s)); lra).
  eapply Rle_trans; [apply Rabs_triang|]. rewrite !Rabs_mult.
  rewrite (Rabs_pos_eq (1 - t)), (Rabs_pos_eq t) by lra.
  assert (C : (1 - t) * Rabs (1 - 3 * t) + t * Rabs (3 * t - 2) <= 1).
  { destruct (Rle_dec t (1 / 3)) as [T1|T1].
    - rewrite (Rabs_pos_eq (1 - 3 * t)) by lra. rewrite (Rabs_left1 (3 * t - 2)) by lra.
      replace ((1 - t) * (1 - 3 * t) + t * - (3 * t - 2)) with (1 - 2 * t) by ring. lra.
    - rewrite (Rabs_left1 (1 - 3 * t)) by lra. destruct (Rle_dec t (2 / 3)) as [T2|T2].
      + rewrite (Rabs_left1 (3 * t - 2)) by lra.
        replace ((1 - t) * - (1 - 3 * t) + t * - (3 * t - 2)) with (1 / 2 - 6 * (t - 1 / 2) ^ 2) by field.
        assert (0 <= (t - 1 / 2) ^ 2) by apply pow2_ge_0. lra.
      + rewrite (Rabs_pos_eq (3 * t - 2)) by lra.
        replace ((1 - t) * - (1 - 3 * t) + t * (3 * t - 2)) with (2 * t - 1) by ring. lra. }
  assert (A0 : 0 <= (1 - t) * Rabs (1 - 3 * t)) by (apply Rmult_le_pos; [lra|apply Rabs_pos]).
  assert (B0 : 0 <= t * Rabs (3 * t - 2)) by (apply Rmult_le_pos; [lra|apply Rabs_pos]).
  assert (A1 := Rmult_le_compat_l _ _ _ A0 Ha). assert (B1 := Rmult_le_compat_l _ _ _ B0 Hb).
  assert (C1 := Rmult_le_compat_r e _ _ He C). lra.
Qed.

(** ** the integrand *)
Definition dens (t : R) : R := / sqrt (1 + t ^ 3).
Definition F (u : R) : R := RInt dens 0 u.

Lemma cube_lt a b : 0 <= a -> a < b -> a ^ 3 < b ^ 3.
Proof.
  intros Ha H. assert (A : a * a <= b * b) by nra. assert (B : 0 < b * b) by (apply Rmult_lt_0_compat; lra).
  assert (C := Rmult_le_compat_l a _ _ Ha A). assert (D := Rmult_lt_compat_r _ _ _ B H).
  replace (a ^ 3) with (a * (a * a)) by ring. replace (b ^ 3) with (b * (b * b)) by ring. lra.
Qed.
Lemma dens_arg t : 0 <= t -> 0 < 1 + t ^ 3.
Proof. intros H. assert (0 <= t ^ 3) by (apply pow_le; exact H). lra. Qed.
Lemma dens_pos t : 0 <= t -> 0 < dens t.
Proof. intros H. apply Rinv_0_lt_compat, sqrt_lt_R0, dens_arg, H. Qed.
Lemma dens_decr a b : 0 <= a -> a < b -> dens b < dens a.
Proof.
  intros Ha H. unfold dens. assert (0 < 1 + a ^ 3) by (apply dens_arg; exact Ha).
  assert (a ^ 3 < b ^ 3) by (apply cube_lt; assumption).
  apply Rinv_lt_contravar; [apply Rmult_lt_0_compat; apply sqrt_lt_R0; lra|apply sqrt_lt_1_alt; lra].
Qed.
Lemma dens_decr_le a b : 0 <= a -> a <= b -> dens b <= dens a.
Proof. intros Ha [H| ->]; [apply Rlt_le, dens_decr; assumption|lra]. Qed.
Lemma dens_cont t : 0 <= t -> continuous dens t.
Proof.
  intros H. apply (ex_derive_continuous dens). unfold dens. auto_derive.
  assert (A := dens_arg t H). split; [simpl in *; lra|]. split; [|exact I].
  apply Rgt_not_eq, sqrt_lt_R0. simpl in *; lra.
Qed.
Lemma dens_RInt a b : 0 <= a -> 0 <= b -> ex_RInt dens a b.
Proof.
  intros Ha Hb. apply (ex_RInt_continuous dens). intros z Hz. apply dens_cont.
  assert (0 <= Rmin a b) by (apply Rmin_glb; assumption). lra.
Qed.
Lemma F_diff a b : 0 <= a -> 0 <= b -> F b - F a = RInt dens a b.
Proof.
  intros Ha Hb. unfold F. rewrite <- (RInt_Chasles dens 0 a b) by (apply dens_RInt; lra).
  unfold plus; simpl. ring.
Qed.
Lemma F_bounds a b : 0 <= a -> a <= b -> dens b * (b - a) <= F b - F a <= dens a * (b - a).
Proof.
  intros Ha H. rewrite F_diff by lra. split.
  - replace (dens b * (b - a)) with (RInt (fun _ => dens b) a b) by (rewrite RInt_const; unfold scal; simpl; unfold mult; simpl; ring).
    apply RInt_le; [exact H|apply ex_RInt_const|apply dens_RInt; lra|]. intros t Ht. apply dens_decr_le; lra.
  - replace (dens a * (b - a)) with (RInt (fun _ => dens a) a b) by (rewrite RInt_const; unfold scal; simpl; unfold mult; simpl; ring).
    apply RInt_le; [exact H|apply dens_RInt; lra|apply ex_RInt_const|]. intros t Ht. apply dens_decr_le; lra.
Qed.
Lemma F_derive u : 0 < u -> is_derive F u (dens u).
Proof.
  intros Hu. unfold F. apply (is_derive_RInt dens (fun v => RInt dens 0 v) 0 u).
  - generalize (locally_gt u 0 Hu). apply filter_imp. intros v Hv. apply (RInt_correct dens), dens_RInt; lra.
  - apply dens_cont; lra.
Qed.
Lemma F_secant a b : 0 <= a -> a < b -> dens b <= (F b - F a) / (b - a) <= dens a.
Proof.
  intros Ha H. destruct (F_bounds a b Ha (Rlt_le _ _ H)) as [L U].
  split; apply Rmult_le_reg_r with (b - a); try lra; unfold Rdiv; rewrite Rmult_assoc, Rinv_l by lra; lra.
Qed.
(** slopes of one law: dens a <= k^3 dens b if b <= k^2 a *)
Lemma dens_ratio a b k : 0 < a -> a <= b -> 1 <= k -> b <= k ^ 2 * a -> dens a <= k ^ 3 * dens b.
Proof.
  intros Ha Hab Hk Hb. unfold dens.
  assert (A := dens_arg a (Rlt_le _ _ Ha)). assert (B := dens_arg b ltac:(lra)).
  assert (Sa := sqrt_lt_R0 _ A). assert (Sb := sqrt_lt_R0 _ B).
  assert (K3 : 0 <= k ^ 3) by (apply pow_le; lra).
  assert (C : sqrt (1 + b ^ 3) <= k ^ 3 * sqrt (1 + a ^ 3)).
  { rewrite <- (sqrt_pow2 (k ^ 3)) by exact K3. rewrite <- sqrt_mult; [|apply pow2_ge_0|lra].
    apply sqrt_le_1_alt.
    assert (b ^ 3 <= (k ^ 2 * a) ^ 3) by (apply pow_incr; lra).
    assert (1 <= (k ^ 3) ^ 2) by (rewrite <- pow_mult; apply pow_R1_Rle; exact Hk).
    replace ((k ^ 2 * a) ^ 3) with ((k ^ 3) ^ 2 * a ^ 3) in H by ring.
    replace ((k ^ 3) ^ 2 * (1 + a ^ 3)) with ((k ^ 3) ^ 2 + (k ^ 3) ^ 2 * a ^ 3) by ring. lra. }
  apply Rmult_le_reg_r with (sqrt (1 + a ^ 3) * sqrt (1 + b ^ 3)); [apply Rmult_lt_0_compat; assumption|].
  field_simplify; lra.
Qed.

(** ** the grid *)
Lemma x_grid_pos k : 0 < x_grid k.
Proof. apply exp_pos. Qed.
Lemma x_grid_incr i j : (i < j)%nat -> x_grid i < x_grid j.
Proof.
  intros H. apply Rpower_lt; [lra|]. apply lt_INR in H.
  assert (0 < INR (table_size - 1)) by (apply lt_0_INR; unfold table_size; lia).
  unfold Rdiv. apply Rplus_lt_compat_l. rewrite !Rmult_assoc. apply Rmult_lt_compat_l; [lra|].
  apply Rmult_lt_compat_r; [apply Rinv_0_lt_compat; exact H0|exact H].
Qed.
Lemma grid_increasing : increasing table_size x_grid.
Proof. intros i j [H _]. apply x_grid_incr; exact H. Qed.
Lemma x_grid_0 : x_grid 0 = / 1000.
Proof.
  unfold x_grid. simpl INR at 1. replace (-3 + (1 - -3) * 0 / INR (table_size - 1)) with (- INR 3).
  - rewrite Rpower_Ropp, Rpower_pow by lra. f_equal. simpl; ring.
  - simpl INR at 1. unfold Rdiv. ring.
Qed.
Lemma x_grid_last : x_grid 499 = 10.
Proof.
  unfold x_grid. change (table_size - 1)%nat with 499%nat.
  replace (-3 + (1 - -3) * INR 499 / INR 499) with 1; [apply Rpower_1; lra|].
  field. apply not_0_INR. lia.
Qed.
Definition gq : R := Rpower 10 (4 / 499).
Lemma INR499 : INR 499 = 499.
Proof. rewrite INR_IZR_INZ. reflexivity. Qed.
Lemma x_grid_step k : x_grid (S k) = gq * x_grid k.
Proof.
  unfold x_grid, gq. change (table_size - 1)%nat with 499%nat. rewrite <- Rpower_plus. f_equal.
  rewrite S_INR, INR499. field.
Qed.
Lemma pow_102_10 : 1218 / 1000 < (102 / 100) ^ 10.
Proof. simpl; lra. Qed.
Lemma pow_102_100 : 7 <= ((102 / 100) ^ 10) ^ 10.
Proof.
  assert (A1 := pow_102_10).
  apply Rle_trans with ((1218 / 1000) ^ 10); [simpl; lra|]. apply pow_incr; split; [|apply Rlt_le, A1]. lra.
Qed.
Lemma pow_102_480 : 10 ^ 4 < (102 / 100) ^ 480.
Proof.
  assert (A3 : ((102 / 100) ^ 480) = (((102 / 100) ^ 10) ^ 10) ^ 4 * ((102 / 100) ^ 10) ^ 8).
  { rewrite <- !pow_mult, <- pow_add. apply (f_equal (pow (102 / 100))). reflexivity. }
  rewrite A3. clear A3.
  assert (A1 := pow_102_10). assert (A2 := pow_102_100).
  generalize dependent (((102 / 100) ^ 10) ^ 10). generalize dependent ((102 / 100) ^ 10). intros u Hu v Hv.
  apply Rlt_le_trans with (7 ^ 4 * (1218 / 1000) ^ 8); [simpl; lra|].
  apply Rmult_le_compat; [apply pow_le; lra|apply pow_le; lra|apply pow_incr; lra|apply pow_incr; lra].
Qed.
Lemma pow_102_499 : (102 / 100) ^ 480 <= (102 / 100) ^ 499.
Proof. apply Rle_pow; [lra|lia]. Qed.
Lemma gq_499 : gq ^ 499 = 10 ^ 4.
Proof.
  unfold gq. rewrite <- Rpower_pow by apply exp_pos. rewrite Rpower_mult. rewrite INR499.
  replace (4 / 499 * 499) with (INR 4) by (simpl; field). apply Rpower_pow; lra.
Qed.
Lemma gq_bounds : 1 < gq /\ gq < 102 / 100.
Proof.
  split.
  - unfold gq. rewrite <- (Rpower_O 10) by lra. apply Rpower_lt; lra.
  - destruct (Rlt_dec gq (102 / 100)) as [L|L]; [exact L|]. exfalso. apply Rnot_lt_le in L.
    assert (Z : 0 <= 102 / 100) by lra.
    assert (Q : (102 / 100) ^ 499 <= gq ^ 499) by (apply pow_incr; split; [exact Z|exact L]).
    rewrite gq_499 in Q.
    exact (Rlt_irrefl _ (Rlt_le_trans _ _ _ pow_102_480 (Rle_trans _ _ _ pow_102_499 Q))).
Qed.

Lemma pow_1018_100 : ((1018 / 1000) ^ 10) ^ 10 <= 6.
Proof.
  assert (A1 : (1018 / 1000) ^ 10 <= 1196 / 1000) by (simpl; lra).
  assert (A0 : 0 <= (1018 / 1000) ^ 10) by (apply pow_le; lra).
  apply Rle_trans with ((1196 / 1000) ^ 10); [apply pow_incr; split; [exact A0|exact A1]|simpl; lra].
Qed.
Lemma pow_1018_500 : (1018 / 1000) ^ 500 <= 6 ^ 5.
Proof.
  assert (A3 : (1018 / 1000) ^ 500 = (((1018 / 1000) ^ 10) ^ 10) ^ 5).
  { rewrite <- !pow_mult. apply (f_equal (pow (1018 / 1000))). reflexivity. }
  rewrite A3. clear A3. apply pow_incr. split; [apply pow_le, pow_le; lra|exact pow_1018_100].
Qed.
Lemma pow_1018_499 : (1018 / 1000) ^ 499 <= (1018 / 1000) ^ 500.
Proof. apply Rle_pow; [lra|lia]. Qed.
Lemma gq_lower : 1018 / 1000 < gq.
Proof.
  destruct (Rlt_dec (1018 / 1000) gq) as [L|L]; [exact L|]. exfalso. apply Rnot_lt_le in L.
  assert (G := proj1 gq_bounds). assert (Z : 0 <= gq) by lra.
  assert (Q : gq ^ 499 <= (1018 / 1000) ^ 499) by (apply pow_incr; split; [exact Z|exact L]).
  rewrite gq_499 in Q. assert (E : 6 ^ 5 < 10 ^ 4) by (simpl; lra).
  exact (Rlt_irrefl _ (Rlt_le_trans _ _ _ E (Rle_trans _ _ _ Q (Rle_trans _ _ _ pow_1018_499 pow_1018_500)))).
Qed.

Lemma y_grid_F k : y_grid k = F (x_grid k).
Proof. reflexivity. Qed.
Definition sl (i : nat) : R := slope x_grid y_grid i.
Lemma sl_bounds i : dens (x_grid (S i)) <= sl i <= dens (x_grid i).
Proof. unfold sl, slope. rewrite !y_grid_F. apply F_secant; [apply Rlt_le, x_grid_pos|apply x_grid_incr; lia]. Qed.
Lemma dens_step1 i : dens (x_grid i) <= 10304 / 10000 * dens (x_grid (S i)).
Proof.
  assert (P := x_grid_pos i). assert (G := gq_bounds).
  eapply Rle_trans; [apply (dens_ratio (x_grid i) (x_grid (S i)) (101 / 100) P)|].
  - apply Rlt_le, x_grid_incr; lia.
  - lra.
  - rewrite x_grid_step. apply Rmult_le_compat_r; lra.
  - apply Rmult_le_compat_r; [apply Rlt_le, dens_pos, Rlt_le, x_grid_pos|lra].
Qed.
Lemma dens_step2 i : dens (x_grid i) <= 10613 / 10000 * dens (x_grid (S (S i))).
Proof.
  assert (P := x_grid_pos i). assert (G := gq_bounds).
  eapply Rle_trans; [apply (dens_ratio (x_grid i) (x_grid (S (S i))) (102 / 100) P)|].
  - apply Rlt_le, x_grid_incr; lia.
  - lra.
  - rewrite !x_grid_step. rewrite <- Rmult_assoc. apply Rmult_le_compat_r; nra.
  - apply Rmult_le_compat_r; [apply Rlt_le, dens_pos, Rlt_le, x_grid_pos|lra].
Qed.

(** the slope of the interpolant against the slope of the exact integral *)
Lemma dcell_close i u : (i <= 498)%nat -> x_grid i <= u <= x_grid (S i) ->
  Rabs (dcell table_size x_grid y_grid i u - dens u) <= / 16 * dens u.
Proof.
  intros Hi Hu.
  assert (P := x_grid_pos i).
  set (g := dens (x_grid (S i))).
  assert (Hg : 0 < g) by (apply dens_pos, Rlt_le, x_grid_pos).
  assert (U1 : g <= dens u) by (apply dens_decr_le; lra).
  assert (U2 : dens u <= dens (x_grid i)) by (apply dens_decr_le; lra).
  assert (S0 := sl_bounds i). assert (D1 := dens_step1 i). fold g in S0, D1.
  assert (E : Rabs (dcell table_size x_grid y_grid i u - sl i) <= 307 / 10000 * g).
  { assert (T1 : Rabs (tangent table_size x_grid y_grid i - sl i) <= 307 / 10000 * g).
    { unfold tangent. destruct (Nat.eqb_spec i 0) as [->|H0].
      + unfold sl. rewrite Rminus_eq_0, Rabs_R0. lra.
      + destruct (Nat.eqb_spec i (table_size - 1)) as [H1|_]; [unfold table_size in H1; lia|].
        destruct i as [|j]; [lia|]. replace (S j - 1)%nat with j by lia. fold (sl (S j)) (sl j).
        assert (S1 := sl_bounds j). assert (D2 := dens_step2 j). fold g in D2.
        replace ((sl (S j) + sl j) / 2 - sl (S j)) with ((sl j - sl (S j)) / 2) by field.
        apply Rabs_le. lra. }
    assert (T2 : Rabs (tangent table_size x_grid y_grid (S i) - sl i) <= 307 / 10000 * g).
    { unfold tangent. change (Nat.eqb (S i) 0) with false. cbv iota.
      destruct (Nat.eqb_spec (S i) (table_size - 1)) as [H1|H1].
      + unfold table_size in H1. replace (table_size - 2)%nat with i by (unfold table_size; lia).
        fold (sl i). rewrite Rminus_eq_0, Rabs_R0. lra.
      + replace (S i - 1)%nat with i by lia. fold (sl (S i)) (sl i).
        assert (S1 := sl_bounds (S i)). assert (D2 := dens_step1 (S i)). fold g in D2, S1.
        replace ((sl (S i) + sl i) / 2 - sl i) with ((sl (S i) - sl i) / 2) by field.
        apply Rabs_le. lra. }
    exact (dhermite_near (x_grid i) (x_grid (S i)) (y_grid i) (y_grid (S i)) _ _ u _
             (x_grid_incr i (S i) ltac:(lia)) Hu T1 T2). }
  assert (E2 : Rabs (sl i - dens u) <= 305 / 10000 * g) by (apply Rabs_le; lra).
  replace (dcell table_size x_grid y_grid i u - dens u)
    with ((dcell table_size x_grid y_grid i u - sl i) + (sl i - dens u)) by ring.
  eapply Rle_trans; [apply Rabs_triang|]. lra.
Qed.

Lemma nondecreasing (f df : R -> R) a b : a <= b -> (forall u, a <= u <= b -> is_derive f u (df u)) ->
  (forall u, a <= u <= b -> 0 <= df u) -> f a <= f b.
Proof.
  intros Hab Hd Hp. destruct (MVT_gen f a b df) as (w & Hw & E).
  - rewrite Rmin_left, Rmax_right by lra. intros u Hu. apply Hd; lra.
  - rewrite Rmin_left, Rmax_right by lra. intros u Hu. apply continuity_pt_filterlim.
    apply (ex_derive_continuous f). exists (df u). apply Hd; lra.
  - rewrite Rmin_left, Rmax_right in Hw by lra. specialize (Hp w Hw).
    assert (0 <= df w * (b - a)) by (apply Rmult_le_pos; lra). lra.
Qed.
Lemma dspline_first k : dspline table_size x_grid y_grid k (x_grid 0) = dcell table_size x_grid y_grid 0 (x_grid 0).
Proof.
  induction k as [|k IH]; [reflexivity|]. cbn [dspline]. rewrite glue_left; [exact IH|].
  apply Rlt_le, x_grid_incr; lia.
Qed.

Lemma helper_increment a b : / 1000 <= a -> a <= b -> b <= 10 ->
  (1 - / 16) * (F b - F a) <= comoving_distance_helper b - comoving_distance_helper a <= (1 + / 16) * (F b - F a).
Proof.
  intros Ha Hab Hb. unfold comoving_distance_helper, interp1d.
  assert (Hx0 := x_grid_0). assert (Hxl := x_grid_last).
  assert (Hn : (2 <= table_size)%nat) by (unfold table_size; lia).
  rewrite !(raw_spline table_size x_grid y_grid Hn grid_increasing) by lra.
  change (table_size - 2)%nat with 498%nat.
  set (g := spline table_size x_grid y_grid 498). set (dg := dspline table_size x_grid y_grid 498).
  assert (Hd : forall u, is_derive g u (dg u)).
  { apply (spline_C1 table_size x_grid y_grid Hn grid_increasing). unfold table_size; lia. }
  assert (Hclose : forall u, a <= u <= b -> Rabs (dg u - dens u) <= / 16 * dens u).
  { intros u Hu. destruct (Rle_lt_dec u (x_grid 0)) as [Q|Q].
    - assert (u = x_grid 0) by lra. subst u. unfold dg. rewrite dspline_first. apply dcell_close; [lia|].
      split; [lra|]. apply Rlt_le, x_grid_incr; lia.
    - destruct (find_cell table_size x_grid Hn grid_increasing u Q) as (i & Hi & L & U).
      unfold dg. unfold table_size in Hi, U.
      assert (U' : u <= x_grid (S i)).
      { destruct (Nat.eq_dec i 498) as [->|]; [rewrite Hxl; lra|apply U; lia]. }
      rewrite (dspline_cell table_size x_grid y_grid Hn grid_increasing 498 i u); [|lia|unfold table_size; lia|exact L|].
      + apply dcell_close; [lia|lra].
      + intros _. exact U'. }
  assert (HD : forall c u, a <= u <= b -> is_derive (fun u => c * F u - g u) u (c * dens u - dg u)).
  { intros c u Hu. apply (is_derive_minus (fun u => c * F u) g); [|apply Hd].
    apply (is_derive_scal F u c). apply F_derive. lra. }
  split.
  - assert (Q := nondecreasing (fun u => - ((1 - / 16) * F u - g u)) (fun u => - ((1 - / 16) * dens u - dg u)) a b Hab).
    cbv beta in Q. lapply Q; [clear Q; intros Q; lapply Q; [lra|]|].
    + intros u Hu. specialize (Hclose u Hu). apply Rabs_le_between in Hclose. lra.
    + intros u Hu. apply (is_derive_opp (fun u => (1 - / 16) * F u - g u)). apply HD; exact Hu.
  - assert (Q := nondecreasing _ _ a b Hab (HD (1 + / 16))). cbv beta in Q. lapply Q; [lra|].
    intros u Hu. specialize (Hclose u Hu). apply Rabs_le_between in Hclose. lra.
Qed.

Lemma F_incr a b : 0 <= a -> a < b -> F a < F b.
Proof.
  intros Ha H. destruct (F_bounds a b Ha (Rlt_le _ _ H)) as [L _].
  assert (0 < dens b * (b - a)) by (apply Rmult_lt_0_compat; [apply dens_pos|]; lra). lra.
Qed.

(** ** distances *)
(** the comoving distance of a flat universe: the integral over the Hubble rate *)
Definition exact_distance (z h0 Om0 : R) : R :=
  hubble_distance h0 * RInt (fun z' => / sqrt (Om0 * (1 + z') ^ 3 + (1 - Om0))) 0 z.
Definition ratio (Om0 : R) : R := Rpower (Om0 / (1 - Om0)) (1 / 3).

Lemma hubble_pos h0 : 0 < h0 -> 0 < hubble_distance h0.
Proof.
  intros H. unfold hubble_distance. apply Rdiv_lt_0_compat; [|exact H].
  apply Rdiv_lt_0_compat; [apply c_Mpc_s_pos|]. apply Rmult_lt_0_compat; [lra|apply km_to_Mpc_pos].
Qed.
Lemma ratio_pos Om0 : 0 < ratio Om0.
Proof. apply exp_pos. Qed.
Lemma ratio_cube Om0 : 0 < Om0 < 1 -> ratio Om0 ^ 3 = Om0 / (1 - Om0).
Proof.
  intros H. unfold ratio. rewrite <- Rpower_pow by apply exp_pos. rewrite Rpower_mult.
  replace (1 / 3 * INR 3) with 1 by (simpl; field). apply Rpower_1. apply Rdiv_lt_0_compat; lra.
Qed.
Lemma norm_factor Om0 : 0 < Om0 < 1 ->
  Rpower Om0 (1 / 3) * Rpower (1 - Om0) (1 / 6) = ratio Om0 * sqrt (1 - Om0).
Proof.
  intros H. unfold ratio. unfold Rdiv at 3. rewrite <- Rpower_mult_distr by (try apply Rinv_0_lt_compat; lra).
  rewrite <- Rpower_sqrt by lra.
  replace (Rpower (/ (1 - Om0)) (1 / 3)) with (Rpower (1 - Om0) (- (1 / 3))).
  2:{ unfold Rpower. rewrite ln_Rinv by lra. f_equal. ring. }
  rewrite Rmult_assoc. f_equal. rewrite <- Rpower_plus. f_equal. field.
Qed.
Lemma exact_F z h0 Om0 : 0 < Om0 < 1 -> -1 < z ->
  exact_distance z h0 Om0 =
  hubble_distance h0 * (F ((1 + z) * ratio Om0) - F (ratio Om0)) / (Rpower Om0 (1 / 3) * Rpower (1 - Om0) (1 / 6)).
Proof.
  intros HO Hz. assert (Ra := ratio_pos Om0). assert (So : 0 < sqrt (1 - Om0)) by (apply sqrt_lt_R0; lra).
  assert (Rz : 0 < (1 + z) * ratio Om0) by (apply Rmult_lt_0_compat; lra).
  rewrite norm_factor by exact HO. unfold exact_distance.
  rewrite F_diff by lra.
  set (a := ratio Om0) in *.
  assert (E : RInt dens a ((1 + z) * a) = RInt (fun z' => a * dens (a * z' + a)) 0 z).
  { change (RInt (fun z' => a * dens (a * z' + a)) 0 z) with (RInt (fun y => scal a (dens (a * y + a))) 0 z).
    replace ((1 + z) * a) with (a * z + a) by ring. replace a with (a * 0 + a) at 1 by ring.
    symmetry. apply (RInt_comp_lin dens a a 0 z).
    apply dens_RInt; lra. }
  rewrite E.
  rewrite (RInt_ext (fun z' => a * dens (a * z' + a)) (fun z' => (a * sqrt (1 - Om0)) * (/ sqrt (Om0 * (1 + z') ^ 3 + (1 - Om0))))).
  2:{ intros t Ht.
      change (a * dens (a * t + a) = a * sqrt (1 - Om0) * / sqrt (Om0 * (1 + t) ^ 3 + (1 - Om0))).
      rewrite Rmult_assoc. f_equal. unfold dens.
      assert (Ht1 : 0 < 1 + t).
      { destruct Ht as [H1 _]. unfold Rmin in H1. destruct (Rle_dec 0 z); lra. }
      replace (a * t + a) with ((1 + t) * a) by ring. rewrite Rpow_mult_distr. unfold a. rewrite ratio_cube by exact HO.
      assert (P : 0 < (1 + t) ^ 3) by (apply pow_lt; exact Ht1).
      assert (Q : 0 < Om0 * (1 + t) ^ 3) by (apply Rmult_lt_0_compat; lra).
      replace (1 + (1 + t) ^ 3 * (Om0 / (1 - Om0))) with ((Om0 * (1 + t) ^ 3 + (1 - Om0)) / (1 - Om0)) by (field; lra).
      rewrite sqrt_div_alt by lra.
      assert (0 < sqrt (Om0 * (1 + t) ^ 3 + (1 - Om0))) by (apply sqrt_lt_R0; lra).
      field. split; lra. }
  assert (E2 : RInt (fun z' => a * sqrt (1 - Om0) * / sqrt (Om0 * (1 + z') ^ 3 + (1 - Om0))) 0 z =
               a * sqrt (1 - Om0) * RInt (fun z' => / sqrt (Om0 * (1 + z') ^ 3 + (1 - Om0))) 0 z).
  { apply (RInt_scal (fun z' => / sqrt (Om0 * (1 + z') ^ 3 + (1 - Om0))) 0 z (a * sqrt (1 - Om0))).
    apply (ex_RInt_continuous (fun z' => / sqrt (Om0 * (1 + z') ^ 3 + (1 - Om0)))). intros t Ht.
    assert (Ht1 : 0 < 1 + t).
    { destruct Ht as [H1 _]. unfold Rmin in H1. destruct (Rle_dec 0 z); lra. }
    assert (P : 0 < (1 + t) ^ 3) by (apply pow_lt; exact Ht1).
    assert (Q : 0 < Om0 * (1 + t) ^ 3) by (apply Rmult_lt_0_compat; lra).
    apply (ex_derive_continuous (fun z' => / sqrt (Om0 * (1 + z') ^ 3 + (1 - Om0)))). auto_derive.
    change ((1 + t) * ((1 + t) * ((1 + t) * 1))) with ((1 + t) ^ 3).
    split; [lra|]. split; [|exact I]. apply Rgt_not_eq, sqrt_lt_R0. lra. }
  rewrite E2. field. split; lra.
Qed.

Lemma code_distance z h0 Om0 : flat_comoving_distance z h0 Om0 =
  hubble_distance h0 * (comoving_distance_helper ((1 + z) * ratio Om0) - comoving_distance_helper (ratio Om0))
  / (Rpower Om0 (1 / 3) * Rpower (1 - Om0) (1 / 6)).
Proof. reflexivity. Qed.
Lemma norm_pos Om0 : 0 < Rpower Om0 (1 / 3) * Rpower (1 - Om0) (1 / 6).
Proof. apply Rmult_lt_0_compat; apply exp_pos. Qed.

Lemma helper_knot k : (k < table_size)%nat -> comoving_distance_helper (x_grid k) = F (x_grid k).
Proof.
  intros H. unfold comoving_distance_helper, interp1d.
  apply (raw_knot table_size x_grid y_grid); [unfold table_size; lia|exact grid_increasing|exact H].
Qed.
Lemma distance_at_knots z h0 Om0 i j : 0 < Om0 < 1 -> -1 < z -> (i < table_size)%nat -> (j < table_size)%nat ->
  ratio Om0 = x_grid i -> (1 + z) * ratio Om0 = x_grid j ->
  flat_comoving_distance z h0 Om0 = exact_distance z h0 Om0.
Proof.
  intros HO Hz Hi Hj Ei Ej. rewrite code_distance, exact_F by assumption. rewrite Ej, Ei.
  rewrite !helper_knot by assumption. reflexivity.
Qed.

Lemma distance_accuracy z1 z2 h0 Om0 : 0 < Om0 < 1 -> 0 < h0 -> -1 < z1 -> z1 <= z2 ->
  / 1000 <= ratio Om0 * Rmin 1 (1 + z1) -> (1 + z2) * ratio Om0 <= 10 ->
  (1 - / 16) * (exact_distance z2 h0 Om0 - exact_distance z1 h0 Om0)
    <= flat_comoving_distance z2 h0 Om0 - flat_comoving_distance z1 h0 Om0
    <= (1 + / 16) * (exact_distance z2 h0 Om0 - exact_distance z1 h0 Om0).
Proof.
  intros HO Hh H1 H12 Hlo Hhi. assert (Ra := ratio_pos Om0).
  assert (Hm : ratio Om0 * Rmin 1 (1 + z1) <= ratio Om0 * (1 + z1)) by (apply Rmult_le_compat_l; [lra|apply Rmin_r]).
  rewrite !code_distance, !exact_F by (assumption || lra).
  assert (Hd := hubble_pos h0 Hh). assert (Hn := norm_pos Om0).
  set (K := Rpower Om0 (1 / 3) * Rpower (1 - Om0) (1 / 6)) in *. set (D := hubble_distance h0) in *.
  set (a := (1 + z1) * ratio Om0). set (b := (1 + z2) * ratio Om0) in *.
  assert (Hab : a <= b) by (apply Rmult_le_compat_r; lra).
  destruct (helper_increment a b) as [L U]; [unfold a; lra|exact Hab|exact Hhi|].
  assert (HDK : 0 < D / K) by (apply Rdiv_lt_0_compat; assumption).
  replace (D * (F b - F (ratio Om0)) / K - D * (F a - F (ratio Om0)) / K) with (D / K * (F b - F a)) by (field; lra).
  replace (D * (comoving_distance_helper b - comoving_distance_helper (ratio Om0)) / K
           - D * (comoving_distance_helper a - comoving_distance_helper (ratio Om0)) / K)
    with (D / K * (comoving_distance_helper b - comoving_distance_helper a)) by (field; lra).
  assert (L1 := Rmult_le_compat_l _ _ _ (Rlt_le _ _ HDK) L).
  assert (U1 := Rmult_le_compat_l _ _ _ (Rlt_le _ _ HDK) U). lra.
Qed.
Lemma exact_increasing z1 z2 h0 Om0 : 0 < Om0 < 1 -> 0 < h0 -> -1 < z1 -> z1 < z2 ->
  exact_distance z1 h0 Om0 < exact_distance z2 h0 Om0.
Proof.
  intros HO Hh H1 H12. rewrite !exact_F by (assumption || lra).
  assert (Ra := ratio_pos Om0).
  assert (Hd := hubble_pos h0 Hh). assert (Hn := norm_pos Om0).
  set (K := Rpower Om0 (1 / 3) * Rpower (1 - Om0) (1 / 6)) in *. set (D := hubble_distance h0) in *.
  assert (HF : F ((1 + z1) * ratio Om0) < F ((1 + z2) * ratio Om0)).
  { apply F_incr; [apply Rmult_le_pos; lra|]. apply Rmult_lt_compat_r; lra. }
  apply Rmult_lt_compat_r; [apply Rinv_0_lt_compat; exact Hn|]. apply Rmult_lt_compat_l; lra.
Qed.
Lemma exact_zero h0 Om0 : exact_distance 0 h0 Om0 = 0.
Proof. unfold exact_distance. rewrite RInt_point. unfold zero; simpl. ring. Qed.
Lemma flat_zero helper h0 Om0 : comoving_distance_flat helper 0 h0 Om0 = 0.
Proof.
  unfold comoving_distance_flat. rewrite Rplus_0_r, Rmult_1_l. unfold Rdiv. ring.
Qed.
Lemma flat_h0 helper z h0 Om0 : 0 < h0 ->
  comoving_distance_flat helper z h0 Om0 = comoving_distance_flat helper z 1 Om0 / h0.
Proof.
  intros H. unfold comoving_distance_flat, hubble_distance. unfold Rdiv. rewrite Rinv_1. ring.
Qed.
Lemma distance_increasing z1 z2 h0 Om0 : 0 < Om0 < 1 -> 0 < h0 -> 0 <= z1 -> z1 < z2 ->
  / 1000 <= ratio Om0 -> (1 + z2) * ratio Om0 <= 10 ->
  flat_comoving_distance z1 h0 Om0 < flat_comoving_distance z2 h0 Om0.
Proof.
  intros HO Hh H1 H12 Hlo Hhi.
  destruct (distance_accuracy z1 z2 h0 Om0) as [L _]; try assumption; try lra.
  { rewrite Rmin_left by lra. lra. }
  assert (E := exact_increasing z1 z2 h0 Om0 HO Hh ltac:(lra) H12). lra.
Qed.
Lemma distance_close z h0 Om0 : 0 < Om0 < 1 -> 0 < h0 -> 0 <= z ->
  / 1000 <= ratio Om0 -> (1 + z) * ratio Om0 <= 10 ->
  Rabs (flat_comoving_distance z h0 Om0 - exact_distance z h0 Om0) <= / 16 * exact_distance z h0 Om0.
Proof.
  intros HO Hh Hz Hlo Hhi.
  destruct (distance_accuracy 0 z h0 Om0) as [L U]; try assumption; try lra.
  { rewrite Rmin_left by lra. lra. }
  rewrite exact_zero in *. unfold flat_comoving_distance in L, U at 2. rewrite flat_zero in L, U.
  apply Rabs_le. unfold flat_comoving_distance in *. lra.
Qed.

Lemma density_zero rho0 Om0 : critical_density 0 rho0 Om0 = rho0.
Proof. unfold critical_density. ring. Qed.
Lemma density_increasing rho0 Om0 z1 z2 : 0 < rho0 -> 0 < Om0 -> -1 <= z1 -> z1 < z2 ->
  critical_density z1 rho0 Om0 < critical_density z2 rho0 Om0.
Proof.
  intros Hr HO H1 H. unfold critical_density. apply Rmult_lt_compat_l; [exact Hr|].
  apply Rplus_lt_compat_r. apply Rmult_lt_compat_l; [exact HO|]. apply cube_lt; lra.
Qed.

(** ** beyond the table: the last cubic is extrapolated *)
Lemma hermite_excess xa xb ya yb ma u : xa < xb ->
  let s := (yb - ya) / (xb - xa) in let t := (u - xa) / (xb - xa) in
  hermite xa xb ya yb ma s u - yb = s * (u - xb) + (ma - s) * (xb - xa) * (t * (t - 1) ^ 2).
Proof. intros H s t. unfold hermite, h_poly, s, t. field. lra. Qed.

Lemma le_div a b c : 0 < c -> a * c <= b -> a <= b / c.
Proof. intros H. apply Rle_div_r. exact H. Qed.
Lemma div_le a b c : 0 < c -> a <= b * c -> a / c <= b.
Proof. intros H. apply Rle_div_l. exact H. Qed.

Definition cc : R := 4 / 1000.
Lemma dens_derive t : 0 < t -> is_derive dens t (- (3 * t ^ 2) / (2 * ((1 + t ^ 3) * sqrt (1 + t ^ 3)))).
Proof.
  intros Ht. assert (A := dens_arg t (Rlt_le _ _ Ht)). assert (S := sqrt_lt_R0 _ A).
  assert (Q : sqrt (1 + t ^ 3) * sqrt (1 + t ^ 3) = 1 + t ^ 3) by (apply sqrt_sqrt; lra).
  unfold dens. auto_derive.
  - change (t * (t * (t * 1))) with (t ^ 3). split; [exact A|]. split; [lra|exact I].
  - change (t * (t * (t * 1))) with (t ^ 3). rewrite Q. field. split; lra.
Qed.
Lemma dens_steep u p : 96 / 10 <= u -> u <= p -> p <= 10 -> dens p + cc * p <= dens u + cc * u.
Proof.
  intros H1 H2 H3.
  assert (Q := nondecreasing (fun t => - (dens t + cc * t))
                 (fun t => - (- (3 * t ^ 2) / (2 * ((1 + t ^ 3) * sqrt (1 + t ^ 3))) + cc)) u p H2).
  cbv beta in Q. lapply Q; [clear Q; intros Q; lapply Q; [lra|]|].
  - intros t Ht.
    assert (A := dens_arg t ltac:(lra)). assert (S := sqrt_lt_R0 _ A).
    assert (T3 : t ^ 3 <= 1000) by (replace 1000 with (10 ^ 3) by ring; apply pow_incr; lra).
    assert (S2 : sqrt (1 + t ^ 3) <= 32).
    { rewrite <- (sqrt_pow2 32) by lra. apply sqrt_le_1_alt. lra. }
    assert (T2 : 92 <= t ^ 2) by nra.
    assert (D : (1 + t ^ 3) * sqrt (1 + t ^ 3) <= 1001 * 32) by (apply Rmult_le_compat; lra).
    assert (D0 : 0 < (1 + t ^ 3) * sqrt (1 + t ^ 3)) by (apply Rmult_lt_0_compat; lra).
    set (d := (1 + t ^ 3) * sqrt (1 + t ^ 3)) in *. unfold cc.
    assert (E : 4 / 1000 <= 3 * t ^ 2 / (2 * d)).
    { apply le_div; lra. }
    replace (- (3 * t ^ 2) / (2 * d)) with (- (3 * t ^ 2 / (2 * d))) by (field; lra). lra.
  - intros t Ht. apply (is_derive_opp (fun t => dens t + cc * t)).
    apply (is_derive_plus dens (fun t => cc * t)); [apply dens_derive; lra|].
    auto_derive; [exact I|ring].
Qed.
Lemma F_sq_derive k u : 0 < u -> is_derive (fun u => F u + cc * u ^ 2 / 2 - k * u) u (dens u + cc * u - k).
Proof.
  intros Hu. apply (is_derive_minus (fun u => F u + cc * u ^ 2 / 2) (fun u => k * u)).
  - apply (is_derive_plus F (fun u => cc * u ^ 2 / 2)); [apply F_derive; exact Hu|]. auto_derive; [exact I|field].
  - auto_derive; [exact I|ring].
Qed.
Lemma slope_drop l p r : 96 / 10 <= l -> l < p -> p < r -> r <= 10 ->
  cc * (r - l) / 2 <= (F p - F l) / (p - l) - (F r - F p) / (r - p).
Proof.
  intros H1 H2 H3 H4. set (k := dens p + cc * p).
  assert (A : F l + cc * l ^ 2 / 2 - k * l <= F p + cc * p ^ 2 / 2 - k * p).
  { apply (nondecreasing (fun u => F u + cc * u ^ 2 / 2 - k * u) (fun u => dens u + cc * u - k)); [lra| |].
    - intros u Hu. apply F_sq_derive. lra.
    - intros u Hu. assert (D := dens_steep u p ltac:(lra) ltac:(lra) ltac:(lra)). unfold k. lra. }
  assert (B : - (F p + cc * p ^ 2 / 2 - k * p) <= - (F r + cc * r ^ 2 / 2 - k * r)).
  { apply (nondecreasing (fun u => - (F u + cc * u ^ 2 / 2 - k * u)) (fun u => - (dens u + cc * u - k))); [lra| |].
    - intros u Hu. apply (is_derive_opp (fun u => F u + cc * u ^ 2 / 2 - k * u)). apply F_sq_derive. lra.
    - intros u Hu. assert (D := dens_steep p u ltac:(lra) ltac:(lra) ltac:(lra)). unfold k. lra. }
  assert (A1 : k - cc * (p + l) / 2 <= (F p - F l) / (p - l)).
  { apply le_div; [lra|].
    replace ((k - cc * (p + l) / 2) * (p - l)) with (k * p - k * l - (cc * p ^ 2 / 2 - cc * l ^ 2 / 2)) by field. lra. }
  assert (B1 : (F r - F p) / (r - p) <= k - cc * (r + p) / 2).
  { apply div_le; [lra|].
    replace ((k - cc * (r + p) / 2) * (r - p)) with (k * r - k * p - (cc * r ^ 2 / 2 - cc * p ^ 2 / 2)) by field. lra. }
  lra.
Qed.

Lemma F_tail a b : 0 < a -> a <= b -> F b - F a <= 2 / sqrt a.
Proof.
  intros Ha Hab.
  assert (Q : - (F a + 2 / sqrt a) <= - (F b + 2 / sqrt b)).
  { apply (nondecreasing (fun u => - (F u + 2 / sqrt u)) (fun u => - (dens u + - / (u * sqrt u)))); [exact Hab| |].
    - intros u Hu. assert (S := sqrt_lt_R0 u ltac:(lra)). assert (E := sqrt_sqrt u ltac:(lra)).
      apply (is_derive_opp (fun u => F u + 2 / sqrt u)).
      apply (is_derive_plus F (fun u => 2 / sqrt u)); [apply F_derive; lra|].
      auto_derive; [split; [lra|]; split; [lra|exact I]|]. rewrite E. field. lra.
    - intros u Hu. assert (S := sqrt_lt_R0 u ltac:(lra)). unfold dens.
      assert (P : 0 < u * sqrt u) by (apply Rmult_lt_0_compat; lra).
      assert (u * sqrt u <= sqrt (1 + u ^ 3)).
      { rewrite <- (sqrt_pow2 u) at 1 by lra. rewrite <- sqrt_mult by (try apply pow2_ge_0; lra).
        apply sqrt_le_1_alt. replace (u ^ 2 * u) with (u ^ 3) by ring. lra. }
      assert (/ sqrt (1 + u ^ 3) <= / (u * sqrt u)) by (apply Rinv_le_contravar; assumption). lra. }
  assert (0 < 2 / sqrt b) by (apply Rdiv_lt_0_compat; [lra|apply sqrt_lt_R0; lra]). lra.
Qed.

Lemma helper_far u : 825 <= u -> 3 * 10 ^ 6 < comoving_distance_helper u - comoving_distance_helper 10.
Proof.
  intros Hu. assert (Hn : (2 <= table_size)%nat) by (unfold table_size; lia).
  assert (Hr := x_grid_last).
  assert (G1 := gq_lower). destruct gq_bounds as [_ G2].
  assert (E1 : 10 = gq * x_grid 498) by (rewrite <- Hr; apply (x_grid_step 498)).
  assert (E2 : x_grid 498 = gq * x_grid 497) by apply (x_grid_step 497).
  set (p := x_grid 498) in *. set (l := x_grid 497) in *.
  assert (Hp : 980 / 100 <= p <= 983 / 100) by nra.
  assert (Hl : 960 / 100 <= l <= 9658 / 1000) by nra.
  replace (comoving_distance_helper 10) with (y_grid 499).
  2:{ rewrite <- Hr. symmetry. apply helper_knot. unfold table_size; lia. }
  unfold comoving_distance_helper, interp1d.
  rewrite (raw_above table_size x_grid y_grid Hn grid_increasing)
    by (change (table_size - 1)%nat with 499%nat; rewrite Hr; lra).
  change (table_size - 2)%nat with 498%nat. unfold cell.
  assert (T2 : tangent table_size x_grid y_grid 499 = (y_grid 499 - y_grid 498) / (x_grid 499 - x_grid 498)) by reflexivity.
  rewrite T2. rewrite hermite_excess by (rewrite Hr; fold p; lra).
  assert (T1 : tangent table_size x_grid y_grid 498 = (slope x_grid y_grid 498 + slope x_grid y_grid 497) / 2) by reflexivity.
  rewrite T1. fold (slope x_grid y_grid 498). fold p. rewrite Hr.
  assert (S := sl_bounds 498). unfold sl in S. rewrite Hr in S. assert (D10 := dens_pos 10 ltac:(lra)).
  assert (SD := slope_drop l p 10 ltac:(lra) ltac:(lra) ltac:(lra) ltac:(lra)).
  assert (SL : (F p - F l) / (p - l) - (F 10 - F p) / (10 - p) = slope x_grid y_grid 497 - slope x_grid y_grid 498).
  { unfold slope. rewrite Hr. rewrite !y_grid_F. rewrite Hr. reflexivity. }
  rewrite SL in SD. unfold cc in SD.
  set (s := slope x_grid y_grid 498) in *. set (s' := slope x_grid y_grid 497) in *.
  replace ((s + s') / 2 - s) with ((s' - s) / 2) by field.
  set (t := (u - p) / (10 - p)).
  assert (Ht : 4070 <= t).
  { unfold t. apply le_div; lra. }
  assert (Ht2 : 4070 * 4069 ^ 2 <= t * (t - 1) ^ 2).
  { apply Rmult_le_compat; [lra|apply pow2_ge_0|exact Ht|]. apply pow_incr. lra. }
  assert (A : 34 / 100000 <= (s' - s) / 2) by lra.
  assert (B : 34 / 100000 * (17 / 100) <= (s' - s) / 2 * (10 - p)) by (apply Rmult_le_compat; lra).
  assert (C : 34 / 100000 * (17 / 100) * (4070 * 4069 ^ 2) <= (s' - s) / 2 * (10 - p) * (t * (t - 1) ^ 2)).
  { apply Rmult_le_compat; [lra| |exact B|exact Ht2]. simpl; lra. }
  assert (0 <= s * (u - 10)) by (apply Rmult_le_pos; lra).
  apply Rlt_le_trans with (34 / 100000 * (17 / 100) * (4070 * 4069 ^ 2)); [simpl; lra|lra].
Qed.

Lemma high_redshift_wrong h0 : 0 < h0 ->
  10 ^ 6 * exact_distance 1100 h0 (3 / 10) < flat_comoving_distance 1100 h0 (3 / 10).
Proof.
  intros Hh. rewrite code_distance, exact_F by lra.
  assert (Hd := hubble_pos h0 Hh). assert (Hn := norm_pos (3 / 10)).
  set (K := Rpower (3 / 10) (1 / 3) * Rpower (1 - 3 / 10) (1 / 6)) in *. set (D := hubble_distance h0) in *.
  assert (Hc := ratio_cube (3 / 10) ltac:(lra)). assert (Ra := ratio_pos (3 / 10)).
  set (a := ratio (3 / 10)) in *.
  assert (Ha : 75 / 100 <= a <= 1).
  { split; apply Rnot_lt_le; intros N.
    - assert (a ^ 3 < (75 / 100) ^ 3) by (apply cube_lt; lra). simpl in *; lra.
    - assert (1 ^ 3 < a ^ 3) by (apply cube_lt; lra). simpl in *; lra. }
  assert (H1 := helper_far ((1 + 1100) * a) ltac:(lra)).
  assert (H2 := helper_increment a 10 ltac:(lra) ltac:(lra) ltac:(lra)).
  assert (H3 := F_incr a 10 ltac:(lra) ltac:(lra)).
  assert (H4 := F_tail a ((1 + 1100) * a) Ra ltac:(lra)).
  assert (S : 2 / sqrt a <= 3).
  { assert (S1 : 7 / 10 <= sqrt a).
    { rewrite <- (sqrt_pow2 (7 / 10)) by lra. apply sqrt_le_1_alt. lra. }
    apply div_le; lra. }
  assert (HDK : 0 < D / K) by (apply Rdiv_lt_0_compat; assumption).
  replace (10 ^ 6 * (D * (F ((1 + 1100) * a) - F a) / K)) with (D / K * (10 ^ 6 * (F ((1 + 1100) * a) - F a))) by (field; lra).
  replace (D * (comoving_distance_helper ((1 + 1100) * a) - comoving_distance_helper a) / K)
    with (D / K * (comoving_distance_helper ((1 + 1100) * a) - comoving_distance_helper a)) by (field; lra).
  apply Rmult_lt_compat_l; [exact HDK|]. lra.
Qed.
