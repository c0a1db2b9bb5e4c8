(** * Point lens: the image behind the lens is not found *)
From Coq Require Import Reals List Arith Lia Lra Psatz.
From Coquelicot Require Import Coquelicot.
From Verif Require Import RealFun Py Fsum Geo_Model LensBase_Model LensBasic_Model LM_Model LM_Spec LM_Proofs Gauss_Model Tri_Model Tri_Spec Tri_Proofs Tri2_Proofs Tri3_Proofs Root_Spec Root_Proofs Root2_Proofs Lost_Proofs.
Import ListNotations.
Local Open Scope R_scope.

(** positions to positions *)
Definition pray (Rein : R) (p : pt) : pt := LensBase_Model.raytrace (reduced_deflection_angle_point 0 0 Rein 0) (fst p) (snd p).
Section Point.
Variable Rein : R.
Hypothesis HR : 0 < Rein.
Lemma pray_eq x y : 0 < x ^ 2 + y ^ 2 -> pray Rein (x, y) = (x - Rein ^ 2 * x / (x ^ 2 + y ^ 2), y - Rein ^ 2 * y / (x ^ 2 + y ^ 2)).
Proof.
  intros H. unfold pray, LensBase_Model.raytrace, reduced_deflection_angle_point, translate_rotate. cbn [fst snd]. rewrite Rplus_0_r, !Rminus_0_r, pow2_sqrt by lra. f_equal; field; lra.
Qed.
Lemma q_pos x y : 0 < x -> 0 < x ^ 2 + y ^ 2.
Proof. intros H. assert (A := pow_lt x 2 H). assert (B := pow2_ge_0 y). lra. Qed.
(** partial derivatives *)
Lemma near_pos x : 0 < x -> locally x (fun t => 0 < t).
Proof. intros H. apply (locally_interval _ x 0 p_infty); cbn; auto. Qed.
Lemma pray_jac X : 0 < X 0%nat -> let x := X 0%nat in let y := X 1%nat in let q := x ^ 2 + y ^ 2 in let f := lens_f (pray Rein) in
  jacobian f X 0%nat 0%nat = 1 + Rein ^ 2 / q ^ 2 * (x ^ 2 - y ^ 2) /\ jacobian f X 0%nat 1%nat = Rein ^ 2 / q ^ 2 * (2 * x * y) /\
  jacobian f X 1%nat 0%nat = Rein ^ 2 / q ^ 2 * (2 * x * y) /\ jacobian f X 1%nat 1%nat = 1 + Rein ^ 2 / q ^ 2 * (y ^ 2 - x ^ 2).
Proof.
  intros Hx x y q f. assert (Q : 0 < q) by (apply q_pos, Hx). unfold jacobian. fold x y. fold x in Hx.
  assert (E0 : forall t, f (upd X 0 t) 0%nat = fst (pray Rein (t, y)) /\ f (upd X 0 t) 1%nat = snd (pray Rein (t, y))) by (intros t; split; reflexivity).
  assert (E1 : forall t, f (upd X 1 t) 0%nat = fst (pray Rein (x, t)) /\ f (upd X 1 t) 1%nat = snd (pray Rein (x, t))) by (intros t; split; reflexivity).
  repeat split; apply is_derive_unique.
  - apply (is_derive_ext_loc (fun t => t - Rein ^ 2 * t / (t ^ 2 + y ^ 2))).
    + apply (filter_imp (fun t => 0 < t)); [|apply near_pos, Hx]. intros t Ht. rewrite (proj1 (E0 t)), pray_eq by (apply q_pos, Ht). reflexivity.
    + auto_derive; [unfold q in Q; cbn [pow] in *; lra|]. unfold q in *. field. cbn [pow] in *; lra.
  - apply (is_derive_ext (fun t => x - Rein ^ 2 * x / (x ^ 2 + t ^ 2))).
    + intros t. rewrite (proj1 (E1 t)), pray_eq by (apply q_pos, Hx). reflexivity.
    + auto_derive; [unfold q in Q; cbn [pow] in *; lra|]. unfold q in *. field. cbn [pow] in *; lra.
  - apply (is_derive_ext_loc (fun t => y - Rein ^ 2 * y / (t ^ 2 + y ^ 2))).
    + apply (filter_imp (fun t => 0 < t)); [|apply near_pos, Hx]. intros t Ht. rewrite (proj2 (E0 t)), pray_eq by (apply q_pos, Ht). reflexivity.
    + auto_derive; [unfold q in Q; cbn [pow] in *; lra|]. unfold q in *. field. cbn [pow] in *; lra.
  - apply (is_derive_ext (fun t => t - Rein ^ 2 * t / (x ^ 2 + t ^ 2))).
    + intros t. rewrite (proj2 (E1 t)), pray_eq by (apply q_pos, Hx). reflexivity.
    + auto_derive; [unfold q in Q; cbn [pow] in *; lra|]. unfold q in *. field. cbn [pow] in *; lra.
Qed.
Lemma kappa_small x y : 2 * Rein <= x -> 0 <= Rein ^ 2 / (x ^ 2 + y ^ 2) <= 1 / 4.
Proof.
  intros H. assert (Q : 0 < x ^ 2 + y ^ 2) by (apply q_pos; lra). assert (R2 : 0 < Rein ^ 2) by (apply pow_lt, HR). split; [apply Rlt_le, Rdiv_lt_0_compat; assumption|].
  apply Rmult_le_reg_r with (x ^ 2 + y ^ 2); [exact Q|]. unfold Rdiv at 1. rewrite Rmult_assoc, Rinv_l by lra. assert (Y2 := pow2_ge_0 y). nra.
Qed.
Lemma pray_expands X : 2 * Rein <= X 0%nat -> expands (pray Rein) X (3 / 4).
Proof.
  intros H u v. assert (Hx : 0 < X 0%nat) by lra. destruct (pray_jac X Hx) as (-> & -> & -> & ->). set (x := X 0%nat) in *. set (y := X 1%nat). assert (K := kappa_small x y H).
  assert (Q : 0 < x ^ 2 + y ^ 2) by (apply q_pos; lra). set (q := x ^ 2 + y ^ 2) in *. set (k := Rein ^ 2 / q) in *.
  replace (Rein ^ 2 / q ^ 2) with (k / q) by (unfold k; field; lra).
  assert (E : ((1 + k / q * (x ^ 2 - y ^ 2)) * u + k / q * (2 * x * y) * v) ^ 2 + (k / q * (2 * x * y) * u + (1 + k / q * (y ^ 2 - x ^ 2)) * v) ^ 2 =
    (1 - k) ^ 2 * (u ^ 2 + v ^ 2) + 4 * k * (x * u + y * v) ^ 2 / q) by (unfold q in *; field; lra).
  rewrite E. assert (Z : 0 <= 4 * k * (x * u + y * v) ^ 2 / q) by (apply Rmult_le_pos; [apply Rmult_le_pos; [lra|apply pow2_ge_0]|apply Rlt_le, Rinv_0_lt_compat, Q]).
  assert (UV : 0 <= u ^ 2 + v ^ 2) by (assert (Z1 := pow2_ge_0 u); assert (Z2 := pow2_ge_0 v); lra).
  assert ((3 / 4) ^ 2 * (u ^ 2 + v ^ 2) <= (1 - k) ^ 2 * (u ^ 2 + v ^ 2)) by (apply Rmult_le_compat_r; [exact UV|]; apply pow_incr; lra). lra.
Qed.
(** the map is Lipschitz there *)
Lemma pray_lip p q : 2 * Rein <= fst p -> 2 * Rein <= fst q -> distance (pray Rein p) (pray Rein q) <= 5 / 4 * distance p q.
Proof.
  destruct p as [x y], q as [a b]. cbn [fst]. intros H1 H2. assert (Q1 : 0 < x ^ 2 + y ^ 2) by (apply q_pos; lra). assert (Q2 : 0 < a ^ 2 + b ^ 2) by (apply q_pos; lra).
  rewrite !pray_eq by assumption. assert (K1 := kappa_small x y H1). assert (K2 := kappa_small a b H2). assert (D0 := dist_nonneg (x, y) (a, b)).
  set (u := x ^ 2 + y ^ 2) in *. set (v := a ^ 2 + b ^ 2) in *.
  assert (A : distance (Rein ^ 2 * x / u, Rein ^ 2 * y / u) (Rein ^ 2 * a / v, Rein ^ 2 * b / v) <= 1 / 4 * distance (x, y) (a, b)).
  { apply dist_le; [lra|]. rewrite Rpow_mult_distr, dist_sq. cbn [fst snd].
    replace ((Rein ^ 2 * x / u - Rein ^ 2 * a / v) ^ 2 + (Rein ^ 2 * y / u - Rein ^ 2 * b / v) ^ 2) with (Rein ^ 2 / u * (Rein ^ 2 / v) * ((x - a) ^ 2 + (y - b) ^ 2)) by (unfold u, v in *; field; lra).
    apply Rmult_le_compat_r; [assert (Z1 := pow2_ge_0 (x - a)); assert (Z2 := pow2_ge_0 (y - b)); lra|]. replace ((1 / 4) ^ 2) with (1 / 4 * (1 / 4)) by ring. apply Rmult_le_compat; lra. }
  assert (T := Cmod_triangle (psub (x, y) (a, b)) (Copp (psub (Rein ^ 2 * x / u, Rein ^ 2 * y / u) (Rein ^ 2 * a / v, Rein ^ 2 * b / v)))). rewrite Cmod_opp in T. rewrite <- !dist_cmod in T.
  assert (EE : Cplus (psub (x, y) (a, b)) (Copp (psub (Rein ^ 2 * x / u, Rein ^ 2 * y / u) (Rein ^ 2 * a / v, Rein ^ 2 * b / v))) = psub (x - Rein ^ 2 * x / u, y - Rein ^ 2 * y / u) (a - Rein ^ 2 * a / v, b - Rein ^ 2 * b / v)).
  { unfold Cplus, Copp, psub. cbn [fst snd]. f_equal; ring. }
  rewrite EE, <- dist_cmod in T. lra.
Qed.

(** ** the search *)
Variables (b fov : R) (m : nat) (epsilon : R) (solve : mat -> vec -> vec).
Notation n := (2 * m)%nat.
Notation hh := (fov / INR (n - 1)).
Hypotheses (Hf : 0 < fov) (Hm : (1 <= m)%nat) (He : 0 < epsilon) (Hsolve : solver_ok 2 solve).
Hypothesis Hb : 2 * Rein ^ 2 <= b * hh.
Hypothesis Hroom : 2 * Rein + 3 * hh + 167 * epsilon <= b.
Notation ray := (pray Rein).
Notation s := ((b, 0) : pt).
Notation st := (stage ray s 0 0 fov n).
Lemma Hn : (2 <= n)%nat. Proof. lia. Qed.
Lemma hh_pos : 0 < hh. Proof. exact (h_pos fov n Hf Hn). Qed.
(** the nodes straddle the lens *)
Lemma node_off i : gx 0 fov n i <= - hh / 2 \/ hh / 2 <= gx 0 fov n i.
Proof.
  unfold gx, h. assert (H := hh_pos). assert (N1 := n1_pos n Hn).
  replace (0 - fov / 2 + INR i * hh) with ((INR i - INR (n - 1) / 2) * hh) by (field; lra). set (w := hh) in *. clearbody w. rewrite minus_INR, mult_INR by lia. cbn [INR].
  destruct (Nat.le_gt_cases m i) as [L|L].
  - right. apply le_INR in L. nra.
  - left. assert (L' : (i + 1 <= m)%nat) by lia. apply le_INR in L'. rewrite plus_INR in L'. cbn [INR] in L'. nra.
Qed.
Lemma node_left i y : gx 0 fov n i <= b -> fst (ray (gx 0 fov n i, y)) < b.
Proof.
  set (x := gx 0 fov n i). intros Hx. assert (H := hh_pos). assert (R2 : 0 < Rein ^ 2) by (apply pow_lt, HR). assert (Y2 := pow2_ge_0 y).
  assert (X2 : 0 < x ^ 2) by (destruct (node_off i) as [N|N]; fold x in N; nra). rewrite pray_eq by lra. cbn [fst]. assert (Q : 0 < x ^ 2 + y ^ 2) by lra.
  destruct (node_off i) as [N|N]; fold x in N.
  - apply Rplus_lt_reg_r with (- x). replace (x - Rein ^ 2 * x / (x ^ 2 + y ^ 2) + - x) with (Rein ^ 2 * - x / (x ^ 2 + y ^ 2)) by (field; lra).
    apply Rle_lt_trans with b; [|lra]. apply Rmult_le_reg_r with (x ^ 2 + y ^ 2); [exact Q|]. unfold Rdiv. rewrite Rmult_assoc, Rinv_l by lra.
    assert (B0 : 0 < b) by lra. assert (Z : Rein ^ 2 <= b * - x) by nra. assert (Z2 : Rein ^ 2 * - x <= b * - x * - x) by (apply Rmult_le_compat_r; lra). assert (Z3 : 0 <= b * y ^ 2) by (apply Rmult_le_pos; lra). nra.
  - assert (0 < Rein ^ 2 * x / (x ^ 2 + y ^ 2)) by (apply Rdiv_lt_0_compat; [apply Rmult_lt_0_compat; lra|exact Q]). lra.
Qed.
(** all corners right of t *)
Definition right_of (t : R) (p : tri) : Prop := let '(p0, p1, p2) := p in t <= fst p0 /\ t <= fst p1 /\ t <= fst p2.
Lemma right_neighbors t w p q : right_of t p -> extent p w -> In q (triangle_neighbors p) -> right_of (t - w) q.
Proof.
  destruct p as [[[a0 b0] [a1 b1]] [a2 b2]]. unfold right_of, extent, span. cbn [fst snd]. intros H X I. cbn in I.
  repeat (destruct I as [<-|I]; [unfold padd, psub, pscale; cbn [fst snd]; repeat split; lra|]). destruct I.
Qed.
Lemma right_upsample t p q : right_of t p -> In q (triangle_upsample p) -> right_of t q.
Proof.
  destruct p as [[[a0 b0] [a1 b1]] [a2 b2]]. unfold right_of. cbn [fst snd]. intros H I. cbn in I.
  repeat (destruct I as [<-|I]; [cbn [fst snd]; repeat split; lra|]). destruct I.
Qed.
Lemma stage_right d p : In p (st d) -> right_of (b - 3 * hh + 2 * (hh / 2 ^ d)) p.
Proof.
  revert p. induction d as [|d IH]; intros p Hp; assert (H := hh_pos).
  - assert (X := any_extent ray s 0 0 fov n Hf Hn 0 p Hp). assert (V := any_holds ray s 0 0 fov n 0 p Hp).
    cbn [stage] in Hp. apply filter_In in Hp. destruct Hp as [Hp _]. apply in_initial in Hp; [|exact Hn].
    replace (b - 3 * hh + 2 * (hh / 2 ^ 0)) with (b - hh) by (cbn [pow]; field; assert (N1 := n1_pos n Hn); lra). replace (hh / 2 ^ 0) with hh in X by (cbn [pow]; field; assert (N1 := n1_pos n Hn); lra).
    assert (G : forall i y, fst (ray (gx 0 fov n i, y)) < b \/ b < gx 0 fov n i) by (intros i y; destruct (Rle_dec (gx 0 fov n i) b) as [L|L]; [left; apply node_left, L|right; lra]).
    destruct Hp as (i & j & _ & _ & [->| ->]); unfold upper, lower, right_of, extent, span, tmap, in_triangle in *; cbn [fst snd] in *;
      destruct V as (a1 & a2 & a3 & A1 & A2 & A3 & S & Ex & _);
      match type of Ex with b = _ * fst (ray (?u0, ?v0)) + _ * fst (ray (?u1, ?v1)) + _ * fst (ray (?u2, ?v2)) =>
        destruct (Rle_dec u0 b) as [L0|L0]; [|repeat split; lra]; destruct (Rle_dec u1 b) as [L1|L1]; [|repeat split; lra]; destruct (Rle_dec u2 b) as [L2|L2]; [|repeat split; lra];
        exfalso; assert (F0 := node_left _ v0 L0); assert (F1 := node_left _ v1 L1); assert (F2 := node_left _ v2 L2);
        set (f0 := fst (ray (u0, v0))) in *; set (f1 := fst (ray (u1, v1))) in *; set (f2 := fst (ray (u2, v2))) in *; clearbody f0 f1 f2 end;
      (assert (P1 : a1 * f0 <= a1 * b) by (apply Rmult_le_compat_l; lra); assert (P2 : a2 * f1 <= a2 * b) by (apply Rmult_le_compat_l; lra); assert (P3 : a3 * f2 <= a3 * b) by (apply Rmult_le_compat_l; lra);
       assert (T : a1 * b + a2 * b + a3 * b = b) by (rewrite <- !Rmult_plus_distr_r, S; ring);
       destruct (Rle_lt_or_eq_dec 0 a1 A1) as [B1|B1]; [assert (a1 * f0 < a1 * b) by (apply Rmult_lt_compat_l; lra); lra|];
       destruct (Rle_lt_or_eq_dec 0 a2 A2) as [B2|B2]; [assert (a2 * f1 < a2 * b) by (apply Rmult_lt_compat_l; lra); lra|];
       assert (a3 * f2 < a3 * b) by (apply Rmult_lt_compat_l; lra); lra).
  - cbn [stage] in Hp. apply filter_In in Hp. destruct Hp as [Hp _]. apply in_refine in Hp. destruct Hp as (q & r & Hq & Hr & Hp).
    apply (right_upsample _ r); [|exact Hp]. assert (P2 : 0 < 2 ^ d) by (apply pow_lt; lra).
    replace (b - 3 * hh + 2 * (hh / 2 ^ S d)) with (b - 3 * hh + 2 * (hh / 2 ^ d) - hh / 2 ^ d) by (assert (N1 := n1_pos n Hn); set (w := INR (n - 1)) in *; clearbody w; cbn [pow]; field; split; lra).
    apply (right_neighbors _ _ q); [apply IH, Hq|apply (any_extent ray s 0 0 fov n Hf Hn d q Hq)|exact Hr].
Qed.
Lemma centre_right t p : right_of t p -> t <= fst (centroid p).
Proof. destruct p as [[[a0 b0] [a1 b1]] [a2 b2]]. unfold right_of, centroid, pscale, padd. cbn [fst snd]. lra. Qed.
Lemma centre_residual d p q : In p (st d) -> In q (st d) -> triangle_area p < epsilon ^ 2 -> distance (ray (centroid q)) s <= 5 / 2 * epsilon.
Proof.
  intros Hp Hq A. assert (W := small_width ray s 0 0 fov n Hf Hn d p epsilon He Hp A). assert (X := any_extent ray s 0 0 fov n Hf Hn d q Hq). assert (V := any_holds ray s 0 0 fov n d q Hq).
  assert (RI := stage_right d q Hq). assert (H := hh_pos). assert (P2 : 0 < hh / 2 ^ d) by (apply Rdiv_lt_0_compat; [exact H|apply pow_lt; lra]). set (w := hh / 2 ^ d) in *.
  assert (RC := centre_right _ _ RI). assert (EC := extent_corner q w X). destruct q as [[q0 q1] q2]. destruct EC as (C0 & C1 & C2). destruct RI as (R0 & R1 & R2). set (c := centroid (q0, q1, q2)) in *.
  assert (S2 : sqrt 2 * w <= 2 * epsilon). { apply Rle_trans with (sqrt 2 * (sqrt 2 * epsilon)); [apply Rmult_le_compat_l; [apply sqrt_pos|lra]|]. rewrite <- Rmult_assoc, sqrt_sqrt by lra. lra. }
  assert (G : forall v, span c v w -> b - 3 * hh + 2 * w <= fst v -> distance (ray c) (ray v) <= 5 / 2 * epsilon).
  { intros v Hv Rv. assert (L := pray_lip c v ltac:(lra) ltac:(lra)). assert (D := span_distance c v w Hv). lra. }
  apply (dist_convex _ _ _ _ _ _ V); apply G; assumption.
Qed.
Lemma point_right max_depth l : forward_raytrace ray (forward_raytrace_rootfind solve ray) s epsilon 0 0 fov n max_depth = Ok l -> forall e, In e l -> 2 * Rein <= fst e.
Proof.
  apply forward_all. intros d p l0 Hp A E0.
  destruct (root_right solve ray s Hsolve (3 / 4) (2 * Rein) (5 / 2 * epsilon) (b - 3 * hh) (map centroid (st d)) ltac:(lra) pray_expands) as (l1 & E1 & H1).
  - intros g Hg. apply in_map_iff in Hg. destruct Hg as (q & <- & Hq). split; [apply (centre_residual d p q Hp Hq A)|].
    assert (RC := centre_right _ _ (stage_right d q Hq)). assert (P2 : 0 < hh / 2 ^ d) by (apply Rdiv_lt_0_compat; [exact hh_pos|apply pow_lt; lra]). lra.
  - lra.
  - rewrite E1 in E0. injection E0 as <-. exact H1.
Qed.
End Point.
