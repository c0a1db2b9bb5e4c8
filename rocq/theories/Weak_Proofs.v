(** * A slightly deformed triangulation still covers: a discrete argument *)
From Coq Require Import Reals List ZArith Lia Lra Psatz.
From Verif Require Import Tri_Model Tri_Spec.
Local Open Scope R_scope.

(** zero is a convex combination of three points *)
Definition holds0 (P Q T : pt) : Prop := exists a b c, 0 <= a /\ 0 <= b /\ 0 <= c /\ a + b + c = 1 /\
  a * fst P + b * fst Q + c * fst T = 0 /\ a * snd P + b * snd Q + c * snd T = 0.
Lemma holds_rot P Q T : holds0 P Q T -> holds0 T P Q.
Proof. intros (a & b & c & A & B & C & S & E & F). exists c, a, b. repeat split; lra. Qed.
Lemma holds_swap P Q T : holds0 P Q T -> holds0 Q P T.
Proof. intros (a & b & c & A & B & C & S & E & F). exists b, a, c. repeat split; lra. Qed.
Lemma holds_scaled P Q T a b c : 0 <= a -> 0 <= b -> 0 <= c -> 0 < a + b + c -> a * fst P + b * fst Q + c * fst T = 0 -> a * snd P + b * snd Q + c * snd T = 0 -> holds0 P Q T.
Proof.
  intros A B C S E F. exists (a / (a + b + c)), (b / (a + b + c)), (c / (a + b + c)). assert (I : 0 < / (a + b + c)) by (apply Rinv_0_lt_compat, S).
  repeat split; try (apply Rmult_le_pos; lra).
  - field. lra.
  - replace (_ + _) with ((a * fst P + b * fst Q + c * fst T) * / (a + b + c)) by (field; lra). rewrite E. ring.
  - replace (_ + _) with ((a * snd P + b * snd Q + c * snd T) * / (a + b + c)) by (field; lra). rewrite F. ring.
Qed.
(** sign of the height at which the edge from P (left) to Q (right) crosses the vertical axis *)
Definition height (P Q : pt) : R := snd P * fst Q - fst P * snd Q.
(** the axis enters a triangle through the edge P Q below zero: it leaves through another edge, above zero only if zero is inside *)
Lemma leave P Q T : fst P <= 0 -> 0 < fst Q -> height P Q <= 0 ->
  (holds0 P Q T) \/ (fst T <= 0 /\ height T Q <= 0) \/ (0 < fst T /\ height P T <= 0).
Proof.
  destruct P as [px py], Q as [qx qy], T as [tx ty]. unfold height. cbn [fst snd]. intros HP HQ H.
  destruct (Rle_dec tx 0) as [HT|HT].
  - destruct (Rle_dec (ty * qx - tx * qy) 0) as [L|L]; [right; left; split; assumption|]. left.
    set (v1 := - (py * qx - px * qy)). set (v2 := ty * qx - tx * qy) in *. assert (V1 : 0 <= v1) by (unfold v1; lra). assert (V2 : 0 < v2) by lra.
    assert (A1 : 0 < v2 * qx) by (apply Rmult_lt_0_compat; lra). assert (A2 : 0 <= v1 * qx) by (apply Rmult_le_pos; lra).
    assert (A3 : 0 <= v2 * - px + v1 * - tx) by (apply Rplus_le_le_0_compat; apply Rmult_le_pos; lra).
    apply (holds_scaled _ _ _ (v2 * qx) (v2 * - px + v1 * - tx) (v1 * qx)); cbn [fst snd]; try lra; unfold v1, v2; ring.
  - destruct (Rle_dec (py * tx - px * ty) 0) as [L|L]; [right; right; split; lra|]. left.
    set (v1 := - (py * qx - px * qy)). set (v2 := py * tx - px * ty) in *. assert (V1 : 0 <= v1) by (unfold v1; lra). assert (V2 : 0 < v2) by lra.
    assert (A1 : 0 < v2 * qx) by (apply Rmult_lt_0_compat; lra). assert (A2 : 0 <= v1 * tx) by (apply Rmult_le_pos; lra).
    assert (A3 : 0 <= v2 * - px) by (apply Rmult_le_pos; lra). assert (A4 : 0 <= v1 * - px) by (apply Rmult_le_pos; lra).
    apply (holds_scaled _ _ _ (v2 * qx + v1 * tx) (v2 * - px) (v1 * - px)); cbn [fst snd]; try lra; unfold v1, v2; ring.
Qed.

Section Grid.
(** images of the nodes relative to the source; (X, Y) are the coordinates of the image *)
Variables (b : Z -> Z -> pt) (X Y : R).
Definition win (i j : Z) : Prop := Rabs (IZR i - X) <= 3 /\ Rabs (IZR j - Y) <= 3.
Hypothesis near : forall i j, win i j -> Rabs (fst (b i j) - (IZR i - X)) <= 1 / 10 * (Rabs (IZR i - X) + Rabs (IZR j - Y)) /\ Rabs (snd (b i j) - (IZR j - Y)) <= 1 / 10 * (Rabs (IZR i - X) + Rabs (IZR j - Y)).
Hypothesis diff : forall i j k l, win i j -> win k l ->
  Rabs (fst (b i j) - fst (b k l) - (IZR i - IZR k)) <= 1 / 10 * (Rabs (IZR i - IZR k) + Rabs (IZR j - IZR l)) /\
  Rabs (snd (b i j) - snd (b k l) - (IZR j - IZR l)) <= 1 / 10 * (Rabs (IZR i - IZR k) + Rabs (IZR j - IZR l)).
Definition corners (u : bool) (i j : Z) : (Z * Z) * (Z * Z) * (Z * Z) :=
  if u then ((i, j), ((i + 1)%Z, j), (i, (j + 1)%Z)) else ((i, j), ((i - 1)%Z, j), (i, (j - 1)%Z)).
Definition found : Prop := exists u i j, let '(p, q, r) := corners u i j in
  win (fst p) (snd p) /\ win (fst q) (snd q) /\ win (fst r) (snd r) /\ holds0 (b (fst p) (snd p)) (b (fst q) (snd q)) (b (fst r) (snd r)).
Definition crossing (i j : Z) : Prop := fst (b i j) <= 0 /\ 0 < fst (b (i + 1) j).
Lemma rabs_cases x y : Rabs x <= y -> - y <= x <= y.
Proof. intros H. assert (A := Rle_abs x). assert (B := Rle_abs (- x)). rewrite Rabs_Ropp in B. lra. Qed.
Lemma rabs_intro x y : - y <= x <= y -> Rabs x <= y.
Proof. intros H. apply Rabs_le. exact H. Qed.
Lemma crossing_near i j : win i j -> win (i + 1) j -> Rabs (IZR j - Y) <= 2 -> crossing i j -> - (5 / 4) <= IZR i - X <= 1 / 4.
Proof.
  intros W1 W2 HJ [C1 C2]. destruct (near i j W1) as [N1 _]. destruct (near (i + 1) j W2) as [N2 _]. rewrite plus_IZR in *.
  apply rabs_cases in N1. apply rabs_cases in N2. destruct (Rle_dec 0 (IZR i - X)) as [L|L]; [rewrite (Rabs_right (IZR i - X)), (Rabs_right (IZR i + 1 - X)) in * by lra; lra|rewrite (Rabs_left1 (IZR i - X)) in * by lra].
  destruct (Rle_dec 0 (IZR i + 1 - X)) as [L1|L1]; [lra|rewrite (Rabs_left1 (IZR i + 1 - X)) in * by lra; lra].
Qed.
(** one row further up *)
Lemma next_row i j : win i j -> win (i + 1) j -> Rabs (IZR j - Y) <= 2 -> Rabs (IZR j + 1 - Y) <= 2 -> crossing i j -> height (b i j) (b (i + 1) j) <= 0 ->
  found \/ exists i', win i' (j + 1) /\ win (i' + 1) (j + 1) /\ crossing i' (j + 1) /\ height (b i' (j + 1)) (b (i' + 1) (j + 1)) <= 0.
Proof.
  intros W1 W2 HJ HJ' C H. assert (CN := crossing_near i j W1 W2 HJ C). destruct C as [C1 C2].
  assert (WW : forall k l, (- 1 <= k <= 2)%Z -> (0 <= l <= 1)%Z -> win (i + k) (j + l)).
  { intros k l Hk Hl. apply rabs_cases in HJ. apply rabs_cases in HJ'. assert (K1 : -1 <= IZR k <= 2) by (split; [apply (IZR_le (-1))|apply (IZR_le k 2)]; lia). assert (L1 : 0 <= IZR l <= 1) by (split; [apply (IZR_le 0)|apply (IZR_le l 1)]; lia).
    split; rewrite plus_IZR; apply rabs_intro; lra. }
  assert (W00 := WW 0%Z 0%Z ltac:(lia) ltac:(lia)). assert (W10 := WW 1%Z 0%Z ltac:(lia) ltac:(lia)). assert (W20 := WW 2%Z 0%Z ltac:(lia) ltac:(lia)).
  assert (Wm1 := WW (-1)%Z 1%Z ltac:(lia) ltac:(lia)). assert (W01 := WW 0%Z 1%Z ltac:(lia) ltac:(lia)). assert (W11 := WW 1%Z 1%Z ltac:(lia) ltac:(lia)). assert (W21 := WW 2%Z 1%Z ltac:(lia) ltac:(lia)). clear WW.
  rewrite ?Z.add_0_r in *.
  destruct (leave _ _ (b i (j + 1)) C1 C2 H) as [F|[[T H1]|[T H1]]].
  - left. exists true, i, j. cbn. repeat split; try apply W1; try apply W2; try apply W01. exact F.
  - (* left of the axis *)
    destruct (leave _ _ (b (i + 1) (j + 1)) T C2 H1) as [F|[[T' H2]|[T' H2]]].
    + left. exists false, (i + 1)%Z, (j + 1)%Z. cbn. replace (i + 1 - 1)%Z with i by lia. replace (j + 1 - 1)%Z with j by lia.
      split; [exact W11|]. split; [exact W01|]. split; [exact W10|]. apply holds_rot, F.
    + assert (T2 : 0 < fst (b (i + 2) j)).
      { destruct (diff (i + 2) j (i + 1) j W20 W10) as [D _]. rewrite !plus_IZR in D. replace (IZR i + 2 - (IZR i + 1)) with 1 in D by ring. replace (IZR j - IZR j) with 0 in D by ring. rewrite Rabs_R0, (Rabs_right 1) in D by lra. apply rabs_cases in D. lra. }
      destruct (leave _ _ (b (i + 2) j) T' C2 H2) as [F|[[T3 _]|[_ H3]]]; [|lra|].
      * left. exists true, (i + 1)%Z, j. cbn. replace (i + 1 + 1)%Z with (i + 2)%Z by lia. split; [exact W10|]. split; [exact W20|]. split; [exact W11|]. apply holds_rot, holds_rot, F.
      * assert (T4 : 0 < fst (b (i + 2) (j + 1))).
        { destruct (diff (i + 2) (j + 1) (i + 1) j W21 W10) as [D _]. rewrite !plus_IZR in D. replace (IZR i + 2 - (IZR i + 1)) with 1 in D by ring. replace (IZR j + 1 - IZR j) with 1 in D by ring. rewrite (Rabs_right 1) in D by lra. apply rabs_cases in D. lra. }
        destruct (leave _ _ (b (i + 2) (j + 1)) T' T2 H3) as [F|[[T5 _]|[_ H4]]]; [|lra|].
        { left. exists false, (i + 2)%Z, (j + 1)%Z. cbn. replace (i + 2 - 1)%Z with (i + 1)%Z by lia. replace (j + 1 - 1)%Z with j by lia. split; [exact W21|]. split; [exact W11|]. split; [exact W20|]. apply holds_rot, F. }
        right. exists (i + 1)%Z. unfold crossing. replace (i + 1 + 1)%Z with (i + 2)%Z by lia. split; [exact W11|]. split; [exact W21|]. split; [split; assumption|exact H4].
    + right. exists i. split; [exact W01|]. split; [exact W11|]. split; [split; assumption|exact H2].
  - (* right of the axis *)
    assert (T2 : fst (b (i + -1) (j + 1)) <= 0).
    { destruct (diff (i + -1) (j + 1) i j Wm1 W00) as [D _]. rewrite !plus_IZR in D. replace (IZR i + -1 - IZR i) with (-1) in D by ring. replace (IZR j + 1 - IZR j) with 1 in D by ring. rewrite (Rabs_right 1), (Rabs_left (-1)) in D by lra. apply rabs_cases in D. lra. }
    destruct (leave _ _ (b (i + -1) (j + 1)) C1 T H1) as [F|[[_ H2]|[T3 _]]]; [| |lra].
    + left. exists false, i, (j + 1)%Z. cbn. replace (i - 1)%Z with (i + -1)%Z by lia. replace (j + 1 - 1)%Z with j by lia. split; [exact W01|]. split; [exact Wm1|]. split; [exact W00|].
      apply holds_rot, holds_rot, F.
    + right. exists (i + -1)%Z. unfold crossing. replace (i + -1 + 1)%Z with i by lia. split; [exact Wm1|]. split; [exact W01|]. split; [split; assumption|exact H2].
Qed.
Definition floor (x : R) : Z := (up x - 1)%Z.
Lemma floor_spec x : IZR (floor x) <= x < IZR (floor x) + 1.
Proof. unfold floor. rewrite minus_IZR. destruct (archimed x). lra. Qed.
Lemma some_triangle : found.
Proof.
  assert (FX := floor_spec X). assert (FY := floor_spec Y). set (i0 := floor X) in *. set (j0 := floor Y) in *. clearbody i0 j0.
  assert (WW : forall k l, (- 2 <= k <= 3)%Z -> (- 1 <= l <= 2)%Z -> win (i0 + k) (j0 + l)).
  { intros k l Hk Hl. assert (K1 : -2 <= IZR k <= 3) by (split; [apply (IZR_le (-2))|apply (IZR_le k 3)]; lia). assert (L1 : -1 <= IZR l <= 2) by (split; [apply (IZR_le (-1))|apply (IZR_le l 2)]; lia).
    split; rewrite plus_IZR; apply rabs_intro; lra. }
  (* the lowest row *)
  assert (C : exists i, win i (j0 + -1) /\ win (i + 1) (j0 + -1) /\ crossing i (j0 + -1)).
  { assert (L : fst (b (i0 + -2) (j0 + -1)) <= 0).
    { destruct (near _ _ (WW (-2)%Z (-1)%Z ltac:(lia) ltac:(lia))) as [N _]. rewrite !plus_IZR in N. rewrite (Rabs_left1 (IZR i0 + -2 - X)), (Rabs_left1 (IZR j0 + -1 - Y)) in N by lra. apply rabs_cases in N. lra. }
    assert (G : 0 < fst (b (i0 + 3) (j0 + -1))).
    { destruct (near _ _ (WW 3%Z (-1)%Z ltac:(lia) ltac:(lia))) as [N _]. rewrite !plus_IZR in N. rewrite (Rabs_right (IZR i0 + 3 - X)), (Rabs_left1 (IZR j0 + -1 - Y)) in N by lra. apply rabs_cases in N. lra. }
    assert (K : forall k k', k' = (k + 1)%Z -> (-2 <= k <= 2)%Z -> fst (b (i0 + k) (j0 + -1)) <= 0 -> 0 < fst (b (i0 + k') (j0 + -1)) -> exists i, win i (j0 + -1) /\ win (i + 1) (j0 + -1) /\ crossing i (j0 + -1)).
    { intros k k' -> Hk A B. exists (i0 + k)%Z. unfold crossing. rewrite <- Z.add_assoc. split; [apply WW; lia|]. split; [apply WW; lia|]. split; assumption. }
    destruct (Rle_dec (fst (b (i0 + -1) (j0 + -1))) 0) as [A1|A1]; [|apply (K (-2)%Z (-1)%Z); try lia; lra].
    destruct (Rle_dec (fst (b (i0 + 0) (j0 + -1))) 0) as [A2|A2]; [|apply (K (-1)%Z 0%Z); try lia; lra].
    destruct (Rle_dec (fst (b (i0 + 1) (j0 + -1))) 0) as [A3|A3]; [|apply (K 0%Z 1%Z); try lia; lra].
    destruct (Rle_dec (fst (b (i0 + 2) (j0 + -1))) 0) as [A4|A4]; [|apply (K 1%Z 2%Z); try lia; lra].
    apply (K 2%Z 3%Z); try lia; assumption. }
  destruct C as (i & W1 & W2 & C).
  assert (CN := crossing_near _ _ W1 W2 ltac:(rewrite plus_IZR; apply rabs_intro; lra) C).
  assert (H : height (b i (j0 + -1)) (b (i + 1) (j0 + -1)) <= 0).
  { destruct (near _ _ W1) as [_ N1]. destruct (near _ _ W2) as [_ N2]. rewrite !plus_IZR in *. rewrite (Rabs_left1 (IZR j0 + -1 - Y)) in N1, N2 by lra. apply rabs_cases in N1. apply rabs_cases in N2.
    assert (A1 : Rabs (IZR i - X) <= 5 / 4) by (apply rabs_intro; lra). assert (A2 : Rabs (IZR i + 1 - X) <= 5 / 4) by (apply rabs_intro; lra).
    destruct C as [C1 C2]. unfold height. assert (Y1 : snd (b i (j0 + -1)) <= 0) by lra. assert (Y2 : snd (b (i + 1) (j0 + -1)) <= 0) by lra. nra. }
  destruct (next_row i (j0 + -1)) as [F|(i1 & V1 & V2 & C' & H')]; try assumption; try (rewrite plus_IZR; apply rabs_intro; lra).
  destruct (next_row i1 (j0 + -1 + 1)) as [F|(i2 & V3 & V4 & C'' & H'')]; try assumption; try (rewrite !plus_IZR; apply rabs_intro; lra).
  destruct (next_row i2 (j0 + -1 + 1 + 1)) as [F|(i3 & V5 & V6 & C3 & H3)]; try assumption; try (rewrite !plus_IZR; apply rabs_intro; lra).
  exfalso. set (j := (j0 + -1 + 1 + 1 + 1)%Z) in *. assert (EJ : IZR j = IZR j0 + 2) by (unfold j; rewrite !plus_IZR; ring). clearbody j.
  assert (CN3 := crossing_near _ _ V5 V6 ltac:(rewrite EJ; apply rabs_intro; lra) C3).
  destruct (near _ _ V5) as [_ N1]. destruct (near _ _ V6) as [_ N2]. rewrite ?plus_IZR, EJ in *. rewrite (Rabs_right (IZR j0 + 2 - Y)) in N1, N2 by lra. apply rabs_cases in N1. apply rabs_cases in N2.
  assert (A1 : Rabs (IZR i3 - X) <= 5 / 4) by (apply rabs_intro; lra). assert (A2 : Rabs (IZR i3 + 1 - X) <= 5 / 4) by (apply rabs_intro; lra).
  destruct C3 as [C1 C2]. unfold height in H3. assert (Y1 : 1 / 2 < snd (b i3 j)) by lra. assert (Y2 : 1 / 2 < snd (b (i3 + 1) j)) by lra. nra.
Qed.
(** such a triangle is close to the image *)
Lemma close u i j : let '(p, q, r) := corners u i j in win (fst p) (snd p) -> win (fst q) (snd q) -> win (fst r) (snd r) ->
  forall a1 a2 a3, 0 <= a1 -> 0 <= a2 -> 0 <= a3 -> a1 + a2 + a3 = 1 ->
  a1 * fst (b (fst p) (snd p)) + a2 * fst (b (fst q) (snd q)) + a3 * fst (b (fst r) (snd r)) = 0 ->
  a1 * snd (b (fst p) (snd p)) + a2 * snd (b (fst q) (snd q)) + a3 * snd (b (fst r) (snd r)) = 0 ->
  let g := if u then 1 else -1 in Rabs (IZR i + g * a2 - X) <= 1 / 4 /\ Rabs (IZR j + g * a3 - Y) <= 1 / 4.
Proof.
  destruct (corners u i j) as [[p q] r] eqn:EC. intros Wp Wq Wr a1 a2 a3 A1 A2 A3 S EX EY g.
  destruct (near _ _ Wp) as [X1 Y1]. destruct (near _ _ Wq) as [X2 Y2]. destruct (near _ _ Wr) as [X3 Y3].
  assert (G : g = 1 \/ g = -1) by (unfold g; destruct u; auto).
  assert (EP : IZR (fst p) = IZR i /\ IZR (snd p) = IZR j /\ IZR (fst q) = IZR i + g /\ IZR (snd q) = IZR j /\ IZR (fst r) = IZR i /\ IZR (snd r) = IZR j + g).
  { unfold corners in EC. destruct u; injection EC as <- <- <-; cbn [fst snd]; unfold g; rewrite ?plus_IZR, ?minus_IZR; repeat split; lra. }
  destruct EP as (P1 & P2 & Q1 & Q2 & R1 & R2). rewrite P1, P2, Q1, Q2, R1, R2 in *. clear EC P1 P2 Q1 Q2 R1 R2.
  set (b1 := b (fst p) (snd p)) in *. set (b2 := b (fst q) (snd q)) in *. set (b3 := b (fst r) (snd r)) in *. clearbody b1 b2 b3 g.
  set (y1 := IZR i + g * a2 - X). set (y2 := IZR j + g * a3 - Y). set (x := IZR i - X) in *. set (z := IZR j - Y) in *.
  replace (IZR i + g - X) with (x + g) in * by (unfold x; ring). replace (IZR j + g - Y) with (z + g) in * by (unfold z; ring).
  assert (E1 : y1 = x + g * a2) by (unfold y1, x; ring). assert (E2 : y2 = z + g * a3) by (unfold y2, z; ring). clearbody x z y1 y2.
  set (m := Rmax (Rabs y1) (Rabs y2)). assert (M1 : Rabs y1 <= m) by apply Rmax_l. assert (M2 : Rabs y2 <= m) by apply Rmax_r.
  assert (AG : Rabs g = 1) by (destruct G as [-> | ->]; [apply Rabs_right|rewrite Rabs_left]; lra).
  (* distances of the corners *)
  assert (T1 : Rabs x <= a2 + m). { replace x with (y1 + - (g * a2)) by (rewrite E1; ring). eapply Rle_trans; [apply Rabs_triang|]. rewrite Rabs_Ropp, Rabs_mult, (Rabs_right a2) by lra. rewrite AG. lra. }
  assert (T2 : Rabs (x + g) <= (1 - a2) + m). { replace (x + g) with (y1 + g * (1 - a2)) by (rewrite E1; ring). eapply Rle_trans; [apply Rabs_triang|]. rewrite Rabs_mult, (Rabs_right (1 - a2)) by lra. rewrite AG. lra. }
  assert (T3 : Rabs z <= a3 + m). { replace z with (y2 + - (g * a3)) by (rewrite E2; ring). eapply Rle_trans; [apply Rabs_triang|]. rewrite Rabs_Ropp, Rabs_mult, (Rabs_right a3) by lra. rewrite AG. lra. }
  assert (T4 : Rabs (z + g) <= (1 - a3) + m). { replace (z + g) with (y2 + g * (1 - a3)) by (rewrite E2; ring). eapply Rle_trans; [apply Rabs_triang|]. rewrite Rabs_mult, (Rabs_right (1 - a3)) by lra. rewrite AG. lra. }
  assert (B : forall c1 c2 c3 w, Rabs c1 <= 1 / 10 * (Rabs x + Rabs z) -> Rabs c2 <= 1 / 10 * (Rabs (x + g) + Rabs z) -> Rabs c3 <= 1 / 10 * (Rabs x + Rabs (z + g)) -> w = - (a1 * c1 + a2 * c2 + a3 * c3) -> Rabs w <= 1 / 10 * (2 + 2 * m)).
  { intros c1 c2 c3 w H1 H2 H3 ->. rewrite Rabs_Ropp. eapply Rle_trans; [apply Rabs_triang|]. eapply Rle_trans; [apply Rplus_le_compat_r, Rabs_triang|]. rewrite !Rabs_mult, (Rabs_right a1), (Rabs_right a2), (Rabs_right a3) by lra.
    assert (Z1 : a1 * Rabs c1 <= a1 * (1 / 10 * (2 + 2 * m))) by (apply Rmult_le_compat_l; lra). assert (Z2 : a2 * Rabs c2 <= a2 * (1 / 10 * (2 + 2 * m))) by (apply Rmult_le_compat_l; lra).
    assert (Z3 : a3 * Rabs c3 <= a3 * (1 / 10 * (2 + 2 * m))) by (apply Rmult_le_compat_l; lra).
    assert (T : (a1 + a2 + a3) * (1 / 10 * (2 + 2 * m)) = 1 / 10 * (2 + 2 * m)) by (rewrite S; ring). lra. }
  assert (F1 : Rabs y1 <= 1 / 10 * (2 + 2 * m)).
  { apply (B _ _ _ _ X1 X2 X3). rewrite E1. transitivity ((a1 + a2 + a3) * x + g * a2 - (a1 * fst b1 + a2 * fst b2 + a3 * fst b3)); [rewrite S, EX; ring|ring]. }
  assert (F2 : Rabs y2 <= 1 / 10 * (2 + 2 * m)).
  { apply (B _ _ _ _ Y1 Y2 Y3). rewrite E2. transitivity ((a1 + a2 + a3) * z + g * a3 - (a1 * snd b1 + a2 * snd b2 + a3 * snd b3)); [rewrite S, EY; ring|ring]. }
  assert (M : m <= 1 / 10 * (2 + 2 * m)) by (apply Rmax_lub; assumption). lra.
Qed.
(** and keeps its orientation *)
Lemma oriented u i j : let '(p, q, r) := corners u i j in win (fst p) (snd p) -> win (fst q) (snd q) -> win (fst r) (snd r) ->
  0 < orient (b (fst p) (snd p), b (fst q) (snd q), b (fst r) (snd r)).
Proof.
  destruct (corners u i j) as [[p q] r] eqn:EC. intros Wp Wq Wr. destruct (diff _ _ _ _ Wq Wp) as [X2 Y2]. destruct (diff _ _ _ _ Wr Wp) as [X3 Y3].
  assert (EP : exists g, (g = 1 \/ g = -1) /\ IZR (fst p) = IZR i /\ IZR (snd p) = IZR j /\ IZR (fst q) = IZR i + g /\ IZR (snd q) = IZR j /\ IZR (fst r) = IZR i /\ IZR (snd r) = IZR j + g).
  { exists (if u then 1 else -1). split; [destruct u; auto|]. unfold corners in EC. destruct u; injection EC as <- <- <-; cbn [fst snd]; rewrite ?plus_IZR, ?minus_IZR; repeat split; lra. }
  destruct EP as (g & G & P1 & P2 & Q1 & Q2 & R1 & R2). rewrite P1, P2, Q1, Q2, R1, R2 in *. unfold orient.
  replace (IZR i + g - IZR i) with g in * by ring. replace (IZR j + g - IZR j) with g in * by ring. replace (IZR i - IZR i) with 0 in * by ring. replace (IZR j - IZR j) with 0 in * by ring.
  assert (AG : Rabs g = 1) by (destruct G as [-> | ->]; [apply Rabs_right|rewrite Rabs_left]; lra). rewrite AG, Rabs_R0 in *.
  apply rabs_cases in X2. apply rabs_cases in X3. apply rabs_cases in Y2. apply rabs_cases in Y3.
  set (u2 := fst (b (fst q) (snd q)) - fst (b (fst p) (snd p))) in *. set (v2 := snd (b (fst q) (snd q)) - snd (b (fst p) (snd p))) in *. set (u3 := fst (b (fst r) (snd r)) - fst (b (fst p) (snd p))) in *. set (v3 := snd (b (fst r) (snd r)) - snd (b (fst p) (snd p))) in *.
  clearbody u2 v2 u3 v3. destruct G as [-> | ->]; nra.
Qed.
End Grid.
