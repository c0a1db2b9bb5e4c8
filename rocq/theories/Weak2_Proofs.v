(** * A triangle of the grid whose image holds the source, near the image *)
From Coq Require Import Reals List ZArith Lia Lra Psatz.
From Verif Require Import Tri_Model Tri_Spec Tri_Proofs Tri2_Proofs Root_Spec Root_Proofs Weak_Proofs.
Import ListNotations.
Local Open Scope R_scope.

(** the image, in barycentric coordinates, is within one half of a point of the triangle *)
Definition nearby (p : tri) (xi : pt) : Prop := let '(p0, p1, p2) := p in exists a0 a1 a2 c0 c1 c2,
  0 <= a0 /\ 0 <= a1 /\ 0 <= a2 /\ a0 + a1 + a2 = 1 /\ c0 + c1 + c2 = 1 /\
  fst xi = c0 * fst p0 + c1 * fst p1 + c2 * fst p2 /\ snd xi = c0 * snd p0 + c1 * snd p1 + c2 * snd p2 /\
  Rabs (c0 - a0) <= 1 / 2 /\ Rabs (c1 - a1) <= 1 / 2 /\ Rabs (c2 - a2) <= 1 / 2.
Lemma nearby_rot A B C xi : nearby (A, B, C) xi -> nearby (C, A, B) xi.
Proof. intros (a0 & a1 & a2 & c0 & c1 & c2 & H0 & H1 & H2 & S1 & S2 & EX & EY & D0 & D1 & D2). exists a2, a0, a1, c2, c0, c1. repeat split; lra. Qed.
Lemma in_rot A B C v : in_triangle (A, B, C) v -> in_triangle (C, A, B) v.
Proof. intros (a & b & c & H1 & H2 & H3 & S & EX & EY). exists c, a, b. repeat split; lra. Qed.

Section Frame.
Variables (gam : pt -> pt) (D : pt -> Prop) (k : R) (xi : pt).
(** the displacement gam p - p changes by at most k times the distance *)
Hypothesis slow : forall p q, D p -> D q -> distance (psub (gam p) p) (psub (gam q) q) <= k * distance p q.
Hypotheses (Hk : 0 <= k <= 1 / 30) (Hxi : D xi).
Variables (o u v : pt) (w : R).
Hypothesis Hw : 0 < w.
Hypotheses (Hux : Rabs (fst u) <= w) (Huy : Rabs (snd u) <= w) (Hvx : Rabs (fst v) <= w) (Hvy : Rabs (snd v) <= w).
Notation det := (fst u * snd v - snd u * fst v).
Hypothesis Hdet : Rabs det = w ^ 2.
Definition node (i j : Z) : pt := (fst o + IZR i * fst u + IZR j * fst v, snd o + IZR i * snd u + IZR j * snd v).
Definition X0 : R := ((fst xi - fst o) * snd v - (snd xi - snd o) * fst v) / det.
Definition Y0 : R := (fst u * (snd xi - snd o) - snd u * (fst xi - fst o)) / det.
Hypothesis inD : forall i j, Rabs (IZR i - X0) <= 3 -> Rabs (IZR j - Y0) <= 3 -> D (node i j).
Lemma det_nz : det <> 0.
Proof. intros Z. rewrite Z, Rabs_R0 in Hdet. assert (0 < w ^ 2) by (apply pow_lt, Hw). lra. Qed.
Lemma xi_frame : fst xi = fst o + X0 * fst u + Y0 * fst v /\ snd xi = snd o + X0 * snd u + Y0 * snd v.
Proof. unfold X0, Y0. assert (N := det_nz). split; field; exact N. Qed.
(** coordinates of a displacement in the frame *)
Definition coord (d : pt) : pt := ((fst d * snd v - snd d * fst v) / det, (fst u * snd d - snd u * fst d) / det).
Definition img (i j : Z) : pt := coord (psub (gam (node i j)) (gam xi)).
Lemma coord_small d r : Rabs (fst d) <= r -> Rabs (snd d) <= r -> Rabs (fst (coord d)) <= 2 * r / w /\ Rabs (snd (coord d)) <= 2 * r / w.
Proof.
  intros H1 H2. assert (R0 : 0 <= r) by (eapply Rle_trans; [apply Rabs_pos|exact H1]).
  assert (G : forall a b x y, Rabs a <= r -> Rabs b <= r -> Rabs x <= w -> Rabs y <= w -> Rabs ((a * x - b * y) / det) <= 2 * r / w).
  { intros a b x y A B HX HY. unfold Rdiv at 1. rewrite Rabs_mult, Rabs_inv, Hdet. apply Rmult_le_reg_r with (w ^ 2); [apply pow_lt, Hw|]. rewrite Rmult_assoc, Rinv_l by (apply pow_nonzero; lra).
    replace (2 * r / w * w ^ 2) with (r * w + r * w) by (field; lra). rewrite Rmult_1_r. unfold Rminus. eapply Rle_trans; [apply Rabs_triang|]. rewrite Rabs_Ropp, !Rabs_mult.
    apply Rplus_le_compat; apply Rmult_le_compat; try apply Rabs_pos; assumption. }
  split; unfold coord; cbn [fst snd]; [apply G; assumption|]. replace (fst u * snd d - snd u * fst d) with (snd d * fst u - fst d * snd u) by ring. apply G; assumption.
Qed.
(** the image of a node is its own position but for one tenth *)
Lemma coord_slow p q a b : D p -> D q -> fst p - fst q = a * fst u + b * fst v -> snd p - snd q = a * snd u + b * snd v ->
  let c := coord (psub (gam p) (gam q)) in Rabs (fst c - a) <= 1 / 10 * (Rabs a + Rabs b) /\ Rabs (snd c - b) <= 1 / 10 * (Rabs a + Rabs b).
Proof.
  intros Dp Dq EX EY c. assert (A0 := Rabs_pos a). assert (B0 := Rabs_pos b). set (m := Rabs a + Rabs b) in *.
  assert (PX : Rabs (fst p - fst q) <= w * m).
  { rewrite EX. eapply Rle_trans; [apply Rabs_triang|]. rewrite !Rabs_mult. unfold m. rewrite Rmult_plus_distr_l, (Rmult_comm w), (Rmult_comm w). apply Rplus_le_compat; apply Rmult_le_compat_l; assumption. }
  assert (PY : Rabs (snd p - snd q) <= w * m).
  { rewrite EY. eapply Rle_trans; [apply Rabs_triang|]. rewrite !Rabs_mult. unfold m. rewrite Rmult_plus_distr_l, (Rmult_comm w), (Rmult_comm w). apply Rplus_le_compat; apply Rmult_le_compat_l; assumption. }
  assert (WM : 0 <= w * m) by (eapply Rle_trans; [apply Rabs_pos|exact PX]).
  assert (PD : distance p q <= 3 / 2 * (w * m)).
  { apply dist_le; [lra|]. rewrite <- (pow2_abs (fst p - fst q)), <- (pow2_abs (snd p - snd q)).
    assert (Q1 : Rabs (fst p - fst q) ^ 2 <= (w * m) ^ 2) by (apply pow_incr; split; [apply Rabs_pos|exact PX]). assert (Q2 : Rabs (snd p - snd q) ^ 2 <= (w * m) ^ 2) by (apply pow_incr; split; [apply Rabs_pos|exact PY]).
    assert (Q3 := pow2_ge_0 (w * m)). lra. }
  assert (SL := slow p q Dp Dq). assert (DN := dist_nonneg p q).
  assert (SL' : distance (psub (gam p) p) (psub (gam q) q) <= 1 / 20 * (w * m)).
  { eapply Rle_trans; [exact SL|]. apply Rle_trans with (1 / 30 * (3 / 2 * (w * m))); [apply Rmult_le_compat; lra|lra]. }
  destruct (distance_components (psub (gam p) p) (psub (gam q) q)) as [E1 E2].
  set (e := psub (psub (gam p) p) (psub (gam q) q)).
  assert (C := coord_small e (1 / 20 * (w * m)) ltac:(unfold e, psub in *; cbn [fst snd] in *; lra) ltac:(unfold e, psub in *; cbn [fst snd] in *; lra)).
  replace (2 * (1 / 20 * (w * m)) / w) with (1 / 10 * m) in C by (field; lra).
  assert (F1 : fst c - a = fst (coord e)).
  { unfold c, coord, e, psub. cbn [fst snd]. assert (N := det_nz). apply Rmult_eq_reg_r with det; [|exact N]. unfold Rdiv. rewrite Rmult_minus_distr_r, !Rmult_assoc, !Rinv_l, !Rmult_1_r by exact N.
    replace ((fst (gam p) - fst p - (fst (gam q) - fst q)) * snd v - (snd (gam p) - snd p - (snd (gam q) - snd q)) * fst v) with ((fst (gam p) - fst (gam q)) * snd v - (snd (gam p) - snd (gam q)) * fst v - ((fst p - fst q) * snd v - (snd p - snd q) * fst v)) by ring.
    rewrite EX, EY. ring. }
  assert (F2 : snd c - b = snd (coord e)).
  { unfold c, coord, e, psub. cbn [fst snd]. assert (N := det_nz). apply Rmult_eq_reg_r with det; [|exact N]. unfold Rdiv. rewrite Rmult_minus_distr_r, !Rmult_assoc, !Rinv_l, !Rmult_1_r by exact N.
    replace (fst u * (snd (gam p) - snd p - (snd (gam q) - snd q)) - snd u * (fst (gam p) - fst p - (fst (gam q) - fst q))) with (fst u * (snd (gam p) - snd (gam q)) - snd u * (fst (gam p) - fst (gam q)) - (fst u * (snd p - snd q) - snd u * (fst p - fst q))) by ring.
    rewrite EX, EY. ring. }
  rewrite F1, F2. exact C.
Qed.
Lemma coord_sub d e : fst (coord (psub d e)) = fst (coord d) - fst (coord e) /\ snd (coord (psub d e)) = snd (coord d) - snd (coord e).
Proof. unfold coord, psub. cbn [fst snd]. assert (N := det_nz). split; field; exact N. Qed.
Lemma coord_inv d : fst d = fst (coord d) * fst u + snd (coord d) * fst v /\ snd d = fst (coord d) * snd u + snd (coord d) * snd v.
Proof. unfold coord. cbn [fst snd]. assert (N := det_nz). split; field; exact N. Qed.
Definition node_tri (up : bool) (i j : Z) : tri := let '(p, q, r) := corners up i j in (node (fst p) (snd p), node (fst q) (snd q), node (fst r) (snd r)).
Lemma frame_found : exists up i j, let t := node_tri up i j in nearby t xi /\ in_triangle (tmap gam t) (gam xi) /\ orient (tmap gam t) <> 0 /\
  exists a1 a2, 0 <= a1 /\ 0 <= a2 /\ a1 + a2 <= 1 /\ let g := if up then 1 else -1 in Rabs (IZR i + g * a1 - X0) <= 1 / 4 /\ Rabs (IZR j + g * a2 - Y0) <= 1 / 4.
Proof.
  assert (near : forall i j, win X0 Y0 i j -> Rabs (fst (img i j) - (IZR i - X0)) <= 1 / 10 * (Rabs (IZR i - X0) + Rabs (IZR j - Y0)) /\ Rabs (snd (img i j) - (IZR j - Y0)) <= 1 / 10 * (Rabs (IZR i - X0) + Rabs (IZR j - Y0))).
  { intros i j [W1 W2]. destruct xi_frame as [E1 E2]. apply coord_slow; [apply inD; assumption|exact Hxi| |]; unfold node; cbn [fst snd]; rewrite ?E1, ?E2; ring. }
  assert (diff : forall i j l m, win X0 Y0 i j -> win X0 Y0 l m ->
    Rabs (fst (img i j) - fst (img l m) - (IZR i - IZR l)) <= 1 / 10 * (Rabs (IZR i - IZR l) + Rabs (IZR j - IZR m)) /\ Rabs (snd (img i j) - snd (img l m) - (IZR j - IZR m)) <= 1 / 10 * (Rabs (IZR i - IZR l) + Rabs (IZR j - IZR m))).
  { intros i j l m [W1 W2] [W3 W4].
    assert (C := coord_slow (node i j) (node l m) (IZR i - IZR l) (IZR j - IZR m) (inD _ _ W1 W2) (inD _ _ W3 W4) ltac:(unfold node; cbn [fst snd]; ring) ltac:(unfold node; cbn [fst snd]; ring)). cbv zeta in C.
    destruct (coord_sub (psub (gam (node i j)) (gam xi)) (psub (gam (node l m)) (gam xi))) as [S1 S2]. fold (img i j) (img l m) in S1, S2. rewrite <- S1, <- S2.
    replace (psub (psub (gam (node i j)) (gam xi)) (psub (gam (node l m)) (gam xi))) with (psub (gam (node i j)) (gam (node l m))); [exact C|]. unfold psub. cbn [fst snd]. f_equal; ring. }
  destruct (some_triangle img X0 Y0 near diff) as (up & i & j & F). exists up, i, j. cbv zeta.
  assert (CL := close img X0 Y0 near up i j). assert (OR := oriented img X0 Y0 diff up i j). unfold node_tri.
  assert (EC : let '(p, q, r) := corners up i j in let g := if up then 1 else -1 in IZR (fst p) = IZR i /\ IZR (snd p) = IZR j /\ IZR (fst q) = IZR i + g /\ IZR (snd q) = IZR j /\ IZR (fst r) = IZR i /\ IZR (snd r) = IZR j + g).
  { unfold corners. destruct up; cbn [fst snd]; rewrite ?plus_IZR, ?minus_IZR; repeat split; lra. }
  destruct (corners up i j) as [[p q] r]. destruct F as (Wp & Wq & Wr & a & b & c & Ha & Hb & Hc & S & FX & FY). cbv zeta in EC. set (g := if up then 1 else -1) in *.
  assert (G : g = 1 \/ g = -1) by (unfold g; destruct up; auto).
  specialize (CL Wp Wq Wr a b c Ha Hb Hc S FX FY). cbv zeta in CL. destruct CL as [C1 C2]. specialize (OR Wp Wq Wr). destruct EC as (P1 & P2 & Q1 & Q2 & R1 & R2).
  split; [|split; [|split]].
  - destruct xi_frame as [E1 E2]. exists a, b, c, (1 - g * (X0 - IZR i) - g * (Y0 - IZR j)), (g * (X0 - IZR i)), (g * (Y0 - IZR j)).
    apply rabs_cases in C1. apply rabs_cases in C2. clear FX FY OR. repeat split; try lra.
    + rewrite E1. unfold node. cbn [fst snd]. rewrite P1, P2, Q1, Q2, R1, R2. destruct G as [-> | ->]; ring.
    + rewrite E2. unfold node. cbn [fst snd]. rewrite P1, P2, Q1, Q2, R1, R2. destruct G as [-> | ->]; ring.
    + apply rabs_intro. destruct G as [G | G]; rewrite G in *; lra.
    + apply rabs_intro. destruct G as [G | G]; rewrite G in *; lra.
    + apply rabs_intro. destruct G as [G | G]; rewrite G in *; lra.
  - exists a, b, c. repeat split; try assumption.
    + destruct (coord_inv (psub (gam (node (fst p) (snd p))) (gam xi))) as [I1 _]. destruct (coord_inv (psub (gam (node (fst q) (snd q))) (gam xi))) as [I2 _]. destruct (coord_inv (psub (gam (node (fst r) (snd r))) (gam xi))) as [I3 _].
      fold (img (fst p) (snd p)) (img (fst q) (snd q)) (img (fst r) (snd r)) in *. unfold psub in I1, I2, I3. cbn [fst snd] in I1, I2, I3.
      set (m1 := img (fst p) (snd p)) in *. set (m2 := img (fst q) (snd q)) in *. set (m3 := img (fst r) (snd r)) in *. clearbody m1 m2 m3.
      transitivity (a * (fst (gam xi) + (fst m1 * fst u + snd m1 * fst v)) + b * (fst (gam xi) + (fst m2 * fst u + snd m2 * fst v)) + c * (fst (gam xi) + (fst m3 * fst u + snd m3 * fst v))).
      * transitivity ((a + b + c) * fst (gam xi) + (a * fst m1 + b * fst m2 + c * fst m3) * fst u + (a * snd m1 + b * snd m2 + c * snd m3) * fst v); [rewrite S, FX, FY; ring|ring].
      * rewrite <- I1, <- I2, <- I3. ring.
    + destruct (coord_inv (psub (gam (node (fst p) (snd p))) (gam xi))) as [_ I1]. destruct (coord_inv (psub (gam (node (fst q) (snd q))) (gam xi))) as [_ I2]. destruct (coord_inv (psub (gam (node (fst r) (snd r))) (gam xi))) as [_ I3].
      fold (img (fst p) (snd p)) (img (fst q) (snd q)) (img (fst r) (snd r)) in *. unfold psub in I1, I2, I3. cbn [fst snd] in I1, I2, I3.
      set (m1 := img (fst p) (snd p)) in *. set (m2 := img (fst q) (snd q)) in *. set (m3 := img (fst r) (snd r)) in *. clearbody m1 m2 m3.
      transitivity (a * (snd (gam xi) + (fst m1 * snd u + snd m1 * snd v)) + b * (snd (gam xi) + (fst m2 * snd u + snd m2 * snd v)) + c * (snd (gam xi) + (fst m3 * snd u + snd m3 * snd v))).
      * transitivity ((a + b + c) * snd (gam xi) + (a * fst m1 + b * fst m2 + c * fst m3) * snd u + (a * snd m1 + b * snd m2 + c * snd m3) * snd v); [rewrite S, FX, FY; ring|ring].
      * rewrite <- I1, <- I2, <- I3. ring.
  - unfold tmap. assert (N := det_nz). intros Z. unfold orient in OR, Z. unfold img, coord, psub in OR. cbn [fst snd] in OR, Z.
    set (g1 := gam (node (fst p) (snd p))) in *. set (g2 := gam (node (fst q) (snd q))) in *. set (g3 := gam (node (fst r) (snd r))) in *.
    match type of OR with 0 < ?e => replace e with (((fst g2 - fst g1) * (snd g3 - snd g1) - (snd g2 - snd g1) * (fst g3 - fst g1)) / det) in OR by (field; exact N) end.
    rewrite Z in OR. unfold Rdiv in OR. rewrite Rmult_0_l in OR. lra.
  - exists b, c. repeat split; try assumption. lra.
Qed.
End Frame.

(** ** the small triangles belong to the thirteen of the ring *)
Section Parent.
Variable p : tri.
Notation p0 := (fst (fst p)).
Notation p1 := (snd (fst p)).
Notation p2 := (snd p).
Definition half_u : pt := pscale (1 / 2) (psub p1 p0).
Definition half_v : pt := pscale (1 / 2) (psub p2 p0).
Notation t up i j := (node_tri p0 half_u half_v up i j).
Lemma ring_range (up : bool) I J : (if up then (-1 <= I <= 1 /\ -1 <= J <= 1 /\ -1 <= I + J <= 1)%Z else (0 <= I <= 2 /\ 0 <= J <= 2 /\ 0 <= I + J <= 2)%Z) -> In (up, I, J) ring13.
Proof.
  intros H. apply in_ring. destruct up.
  - assert (EI : (I = -1 \/ I = 0 \/ I = 1)%Z) by lia. assert (EJ : (J = -1 \/ J = 0 \/ J = 1)%Z) by lia. destruct EI as [->|[->| ->]], EJ as [->|[->| ->]]; try (exfalso; lia); tauto.
  - assert (EI : (I = 0 \/ I = 1 \/ I = 2)%Z) by lia. assert (EJ : (J = 0 \/ J = 1 \/ J = 2)%Z) by lia. destruct EI as [->|[->| ->]], EJ as [->|[->| ->]]; try (exfalso; lia); tauto.
Qed.
Lemma parent (up : bool) (i j : Z) : (if up then (-2 <= i <= 3 /\ -2 <= j <= 3 /\ -2 <= i + j <= 3)%Z else (-1 <= i <= 4 /\ -1 <= j <= 4 /\ -1 <= i + j <= 4)%Z) ->
  exists r q, In r (triangle_neighbors p) /\ In q (triangle_upsample r) /\ let '(A, B, C) := t up i j in q = (A, B, C) \/ q = (C, A, B).
Proof.
  intros H.
  assert (K : forall U I J q, In (U, I, J) ring13 -> In q (triangle_upsample (lattice_triangle p U I J)) -> (let '(A, B, C) := t up i j in q = (A, B, C) \/ q = (C, A, B)) ->
    exists r q, In r (triangle_neighbors p) /\ In q (triangle_upsample r) /\ let '(A, B, C) := t up i j in q = (A, B, C) \/ q = (C, A, B)).
  { intros U I J q HR HQ HT. exists (lattice_triangle p U I J), q. split; [|split; assumption]. rewrite neighbors_ring. apply in_map_iff. exists (U, I, J). split; [reflexivity|exact HR]. }
  unfold half_u, half_v in *. destruct p as [[[x0 y0] [x1 y1]] [x2 y2]].
  destruct (Z.Even_or_Odd i) as [[I EI]|[I EI]], (Z.Even_or_Odd j) as [[J EJ]|[J EJ]]; subst i j; destruct up.
  Ltac fin k := unfold node_tri, corners, node, half_u, half_v, pscale, psub, lattice_triangle, triangle_upsample; cbn [fst snd]; rewrite ?plus_IZR, ?minus_IZR, ?mult_IZR; k.
  Ltac pts := apply tri_ext; rewrite ?plus_IZR, ?minus_IZR, ?mult_IZR; field.
  - eapply (K true I J); [apply ring_range; lia|cbn [triangle_upsample lattice_triangle fst snd]; left; reflexivity|]. left. fin idtac. pts.
  - eapply (K false I J); [apply ring_range; lia|cbn [triangle_upsample lattice_triangle fst snd]; left; reflexivity|]. left. fin idtac. pts.
  - eapply (K true I J); [apply ring_range; lia|cbn [triangle_upsample lattice_triangle fst snd]; right; right; left; reflexivity|]. left. fin idtac. pts.
  - eapply (K false I (J + 1)%Z); [apply ring_range; lia|cbn [triangle_upsample lattice_triangle fst snd]; right; right; left; reflexivity|]. left. fin idtac. pts.
  - eapply (K true I J); [apply ring_range; lia|cbn [triangle_upsample lattice_triangle fst snd]; right; left; reflexivity|]. left. fin idtac. pts.
  - eapply (K false (I + 1)%Z J); [apply ring_range; lia|cbn [triangle_upsample lattice_triangle fst snd]; right; left; reflexivity|]. left. fin idtac. pts.
  - eapply (K false (I + 1)%Z (J + 1)%Z); [apply ring_range; lia|cbn [triangle_upsample lattice_triangle fst snd]; right; right; right; left; reflexivity|]. right. fin idtac. pts.
  - eapply (K true I J); [apply ring_range; lia|cbn [triangle_upsample lattice_triangle fst snd]; right; right; right; left; reflexivity|]. right. fin idtac. pts.
Qed.
End Parent.
