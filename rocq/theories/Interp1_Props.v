(** * C07, C08: one-dimensional interpolation *)
From Coq Require Import Reals Lra Lia.
From Coquelicot Require Import Coquelicot.
From Verif Require Import Interp1_Model Interp1_Proofs.
Open Scope R_scope.

Theorem C07_knots : forall n x y mode i, (2 <= n)%nat -> (forall i j, (i < j < n)%nat -> x i < x j) -> (i < n)%nat ->
  interp1d n x y mode (x i) = y i.
Proof. exact knots_all_modes. Qed.
Print Assumptions C07_knots.
(** over the knot range it is the restriction of one continuously differentiable function *)
Theorem C07_continuously_differentiable : forall n x y, (2 <= n)%nat -> (forall i j, (i < j < n)%nat -> x i < x j) ->
  exists g dg, (forall u, is_derive g u (dg u)) /\ (forall u, continuous dg u) /\
  forall mode xs, x 0%nat <= xs <= x (n - 1)%nat -> interp1d n x y mode xs = g xs.
Proof. exact c1_all_modes. Qed.
Print Assumptions C07_continuously_differentiable.
Theorem C07_straight_line : forall n x y mode a b xs, (2 <= n)%nat -> (forall i j, (i < j < n)%nat -> x i < x j) ->
  (forall i, (i < n)%nat -> y i = a * x i + b) -> x 0%nat <= xs <= x (n - 1)%nat ->
  interp1d n x y mode xs = a * xs + b.
Proof. exact line_all_modes. Qed.
Print Assumptions C07_straight_line.
Example C07_hyps : (2 <= 3)%nat /\ (forall i j, (i < j < 3)%nat -> INR i < INR j) /\
  (forall i, (i < 3)%nat -> 2 * INR i + 1 = 2 * INR i + 1) /\ INR 0 <= 3 / 2 <= INR (3 - 1).
Proof. split; [lia|]. split; [intros i j H; apply lt_INR; lia|]. split; [reflexivity|]. simpl; lra. Qed.

(** above the last knot the three modes do what they say *)
Theorem C08_above_const_partial : forall n x y xs, x (n - 1)%nat < xs -> interp1d n x y Const xs = y (n - 1)%nat.
Proof. intros n x y xs H. simpl. destruct (Rlt_dec (x (n - 1)%nat) xs); [reflexivity|contradiction]. Qed.
Print Assumptions C08_above_const_partial.
Theorem C08_above_linear_partial : forall n x y xs, x (n - 1)%nat < xs ->
  interp1d n x y Linear xs =
  y (n - 1)%nat + (xs - x (n - 1)%nat) * (y (n - 1)%nat - y (n - 2)%nat) / (x (n - 1)%nat - x (n - 2)%nat).
Proof. intros n x y xs H. simpl. destruct (Rlt_dec (x (n - 1)%nat) xs); [reflexivity|contradiction]. Qed.
Print Assumptions C08_above_linear_partial.
(** one cubic gives the last cell and everything beyond it *)
Theorem C08_above_extrapolate_partial : forall n x y, (2 <= n)%nat -> (forall i j, (i < j < n)%nat -> x i < x j) ->
  exists a0 a1 a2 a3, forall xs, x (n - 2)%nat < xs ->
    interp1d n x y Extrapolate xs = a0 + a1 * xs + a2 * xs ^ 2 + a3 * xs ^ 3.
Proof. exact last_cubic. Qed.
Print Assumptions C08_above_extrapolate_partial.

(** below the first knot none of them does: table (0,0), (1,1), (2,4), query -1 *)
Theorem C08_below_const_refuted : exists n x y xs, (2 <= n)%nat /\ (forall i j, (i < j < n)%nat -> x i < x j) /\
  xs < x 0%nat /\ interp1d n x y Const xs <> y 0%nat.
Proof.
  exists 3%nat, wx, wy, (-1). split; [lia|]. split; [exact wx_incr|]. split; [unfold wx; simpl; lra|exact below_const].
Qed.
Print Assumptions C08_below_const_refuted.
Theorem C08_below_linear_refuted : exists n x y xs, (2 <= n)%nat /\ (forall i j, (i < j < n)%nat -> x i < x j) /\
  xs < x 0%nat /\ interp1d n x y Linear xs <> y 0%nat + (xs - x 0%nat) * (y 1%nat - y 0%nat) / (x 1%nat - x 0%nat).
Proof.
  exists 3%nat, wx, wy, (-1). split; [lia|]. split; [exact wx_incr|]. split; [unfold wx; simpl; lra|exact below_linear].
Qed.
Print Assumptions C08_below_linear_refuted.
Theorem C08_below_extrapolate_refuted : exists n x y xs, (2 <= n)%nat /\ (forall i j, (i < j < n)%nat -> x i < x j) /\
  xs < x 0%nat /\ forall a0 a1 a2 a3,
    (forall u, x 0%nat <= u <= x 1%nat -> interp1d n x y Extrapolate u = a0 + a1 * u + a2 * u ^ 2 + a3 * u ^ 3) ->
    interp1d n x y Extrapolate xs <> a0 + a1 * xs + a2 * xs ^ 2 + a3 * xs ^ 3.
Proof.
  exists 3%nat, wx, wy, (-1). split; [lia|]. split; [exact wx_incr|]. split; [unfold wx; simpl; lra|exact below_cubic].
Qed.
Print Assumptions C08_below_extrapolate_refuted.
