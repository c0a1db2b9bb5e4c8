(** * The image search follows the image of a nearly affine lens *)
From Coq Require Import Reals List Arith ZArith Lia Lra Psatz.
From Coquelicot Require Import Coquelicot.
From Verif Require Import Py Fsum LM_Model LM_Spec LM_Proofs Gauss_Model Tri_Model Tri_Spec Tri_Proofs Tri2_Proofs Tri3_Proofs Root_Spec Root_Proofs Root2_Proofs Lost_Proofs Weak_Proofs Weak2_Proofs.
Import ListNotations.
Local Open Scope R_scope.

(** ** nodes of a square grid *)
Definition ong (o w x : R) : Prop := exists a : Z, x = o + IZR a * w.
Definition on_grid (o : pt) (w : R) (p : tri) : Prop := let '(p0, p1, p2) := p in
  ong (fst o) w (fst p0) /\ ong (snd o) w (snd p0) /\ ong (fst o) w (fst p1) /\ ong (snd o) w (snd p1) /\ ong (fst o) w (fst p2) /\ ong (snd o) w (snd p2).
Lemma grid_neighbors o w p q : on_grid o w p -> In q (triangle_neighbors p) -> on_grid o w q.
Proof.
  rewrite neighbors_ring. intros G H. apply in_map_iff in H. destruct H as ([[u i] j] & <- & _). destruct p as [[[x0 y0] [x1 y1]] [x2 y2]]. unfold on_grid in *. cbn [fst snd] in G.
  destruct G as ((a0 & ->) & (b0 & ->) & (a1 & ->) & (b1 & ->) & (a2 & ->) & (b2 & ->)). unfold lattice_triangle. cbn [fst snd]. set (ox := fst o). set (oy := snd o).
  destruct u; repeat split; cbn [fst snd].
  - exists (a0 + i * (a1 - a0) + j * (a2 - a0))%Z. rewrite !plus_IZR, !mult_IZR, !minus_IZR. ring.
  - exists (b0 + i * (b1 - b0) + j * (b2 - b0))%Z. rewrite !plus_IZR, !mult_IZR, !minus_IZR. ring.
  - exists (a0 + i * (a1 - a0) + j * (a2 - a0) + (a1 - a0))%Z. rewrite !plus_IZR, !mult_IZR, !minus_IZR. ring.
  - exists (b0 + i * (b1 - b0) + j * (b2 - b0) + (b1 - b0))%Z. rewrite !plus_IZR, !mult_IZR, !minus_IZR. ring.
  - exists (a0 + i * (a1 - a0) + j * (a2 - a0) + (a2 - a0))%Z. rewrite !plus_IZR, !mult_IZR, !minus_IZR. ring.
  - exists (b0 + i * (b1 - b0) + j * (b2 - b0) + (b2 - b0))%Z. rewrite !plus_IZR, !mult_IZR, !minus_IZR. ring.
  - exists (a0 + i * (a1 - a0) + j * (a2 - a0))%Z. rewrite !plus_IZR, !mult_IZR, !minus_IZR. ring.
  - exists (b0 + i * (b1 - b0) + j * (b2 - b0))%Z. rewrite !plus_IZR, !mult_IZR, !minus_IZR. ring.
  - exists (a0 + i * (a1 - a0) + j * (a2 - a0) + (a0 - a1))%Z. rewrite !plus_IZR, !mult_IZR, !minus_IZR. ring.
  - exists (b0 + i * (b1 - b0) + j * (b2 - b0) + (b0 - b1))%Z. rewrite !plus_IZR, !mult_IZR, !minus_IZR. ring.
  - exists (a0 + i * (a1 - a0) + j * (a2 - a0) + (a0 - a2))%Z. rewrite !plus_IZR, !mult_IZR, !minus_IZR. ring.
  - exists (b0 + i * (b1 - b0) + j * (b2 - b0) + (b0 - b2))%Z. rewrite !plus_IZR, !mult_IZR, !minus_IZR. ring.
Qed.
Lemma ong_fine o w x : ong o w x -> ong o (w / 2) x.
Proof. intros (a & ->). exists (2 * a)%Z. rewrite mult_IZR. field. Qed.
Lemma ong_mid o w x y : ong o w x -> ong o w y -> ong o (w / 2) ((x + y) / 2).
Proof. intros (a & ->) (b & ->). exists (a + b)%Z. rewrite plus_IZR. field. Qed.
Lemma grid_upsample o w p q : on_grid o w p -> In q (triangle_upsample p) -> on_grid o (w / 2) q.
Proof.
  destruct p as [[[x0 y0] [x1 y1]] [x2 y2]]. unfold on_grid. cbn [fst snd]. intros (A0 & B0 & A1 & B1 & A2 & B2) H. cbn in H.
  repeat (destruct H as [<-|H]; [cbn [fst snd]; repeat split; first [apply ong_mid; assumption|apply ong_fine; assumption]|]). destruct H.
Qed.
Lemma ong_close o w x y : 1 / 10 ^ 6 <= w -> ong o w x -> ong o w y -> Rabs (x - y) < 1 / 10 ^ 6 -> x = y.
Proof.
  intros W (a & ->) (b & ->) H. replace (o + IZR a * w - (o + IZR b * w)) with (IZR (a - b) * w) in H by (rewrite minus_IZR; ring). rewrite Rabs_mult, (Rabs_right w) in H by lra.
  assert (L : Rabs (IZR (a - b)) < 1). { apply Rnot_le_lt. intros C. assert (1 * w <= Rabs (IZR (a - b)) * w) by (apply Rmult_le_compat_r; lra). lra. }
  rewrite <- abs_IZR in L. apply lt_IZR in L. replace a with b by lia. reflexivity.
Qed.
(** on a grid no coarser than the tolerance nothing is lost with the duplicates *)
Lemma grid_kept o w l r : 1 / 10 ^ 6 <= w -> (forall q, In q l -> on_grid o w q) -> In r l -> In r (remove_triangle_duplicates l).
Proof.
  intros W G H. destruct (keep_covers triangle_equals l r H) as [K|(y & Hy & E)]; [exact K|]. assert (SY := sublist_in _ _ y (keep_sublist triangle_equals l) Hy). assert (Gr := G r H). assert (Gy := G y SY).
  apply triangle_equals_iff in E. assert (EQ : r = y); [|rewrite EQ; exact Hy].
  destruct r as [[[x0 y0] [x1 y1]] [x2 y2]], y as [[[u0 v0] [u1 v1]] [u2 v2]]. unfold on_grid in Gr, Gy. unfold same_within in E. cbn [fst snd] in Gr, Gy, E. destruct Gr as (A0 & B0 & A1 & B1 & A2 & B2), Gy as (C0 & D0 & C1 & D1 & C2 & D2), E as (E0 & F0 & E1 & F1 & E2 & F2).
  apply tri_ext; eapply ong_close; eassumption.
Qed.

(** ** any order of the corners *)
Lemma nearby_rev A B C xi : nearby (A, B, C) xi -> nearby (C, B, A) xi.
Proof. intros (a0 & a1 & a2 & c0 & c1 & c2 & H0 & H1 & H2 & S1 & S2 & EX & EY & D0 & D1 & D2). exists a2, a1, a0, c2, c1, c0. repeat split; lra. Qed.
Lemma in_rev A B C v : in_triangle (A, B, C) v -> in_triangle (C, B, A) v.
Proof. intros (a & b & c & H1 & H2 & H3 & S & EX & EY). exists c, b, a. repeat split; lra. Qed.
Lemma orient_rot A B C : orient (C, A, B) = orient (A, B, C). Proof. unfold orient. ring. Qed.
Lemma orient_rev A B C : orient (C, B, A) = - orient (A, B, C). Proof. unfold orient. ring. Qed.

Section Weak.
Variables (ray : pt -> pt) (n11 n12 n21 n22 : R).
Hypothesis HN : n11 * n22 - n12 * n21 <> 0.
Variables (x0 y0 fov rho : R) (n : nat) (k : R) (xi : pt).
Hypotheses (Hf : 0 < fov) (Hn : (2 <= n)%nat) (Hk : 0 <= k <= 1 / 30).
Notation h := (fov / INR (n - 1)).
Definition box (p : pt) : Prop := Rabs (fst p - x0) <= rho /\ Rabs (snd p - y0) <= rho.
Definition gam (p : pt) : pt := affine_map n11 n12 n21 n22 0 0 (ray p).
Hypothesis slow : forall p q, box p -> box q -> distance (psub (gam p) p) (psub (gam q) q) <= k * distance p q.
Hypothesis Hrho : fov / 2 + 6 * h <= rho.
Hypotheses (Hx : Rabs (fst xi - x0) + h / 2 < fov / 2) (Hy : Rabs (snd xi - y0) + h / 2 < fov / 2).
Notation s := (ray xi).
Notation st := (stage ray s x0 y0 fov n).
Notation wd d := (h / 2 ^ d).
Lemma wh_pos : 0 < h. Proof. exact (h_pos fov n Hf Hn). Qed.
Lemma wd_pos d : 0 < wd d. Proof. apply Rdiv_lt_0_compat; [exact wh_pos|apply pow_lt; lra]. Qed.
Lemma wd_le d : wd d <= h.
Proof. assert (P : 1 <= 2 ^ d) by (apply pow_R1_Rle; lra). assert (H := wh_pos). apply Rmult_le_reg_r with (2 ^ d); [lra|]. unfold Rdiv at 1. rewrite Rmult_assoc, Rinv_l by lra. rewrite Rmult_1_r. rewrite <- (Rmult_1_r h) at 1. apply Rmult_le_compat_l; lra. Qed.
Lemma wd_S d : wd (S d) = wd d / 2.
Proof. cbn [pow]. assert (Q := n1_pos n Hn). assert (Q2 : 2 ^ d <> 0) by (apply pow_nonzero; lra). field. split; lra || assumption. Qed.
Lemma xi_box : box xi. Proof. assert (H := wh_pos). split; lra. Qed.
Lemma near_box p r : r <= 6 * h -> Rabs (fst p - fst xi) <= r -> Rabs (snd p - snd xi) <= r -> box p.
Proof.
  intros Hr H1 H2. assert (H := wh_pos). split; [replace (fst p - x0) with (fst p - fst xi + (fst xi - x0)) by ring|replace (snd p - y0) with (snd p - snd xi + (snd xi - y0)) by ring]; (eapply Rle_trans; [apply Rabs_triang|]; lra).
Qed.
Lemma gam_tri p : tmap gam p = tmap (affine_map n11 n12 n21 n22 0 0) (tmap ray p).
Proof. destruct p as [[p0 p1] p2]. reflexivity. Qed.
Lemma gam_located q : in_triangle (tmap gam q) (gam xi) -> orient (tmap gam q) <> 0 -> triangle_contains (tmap ray q) s = true.
Proof.
  rewrite gam_tri. intros I O. rewrite affine_orient in O. assert (O' : orient (tmap ray q) <> 0) by (intros Z; apply O; rewrite Z; ring).
  apply contains_iff; [exact O'|]. apply (affine_in n11 n12 n21 n22 0 0 HN s (tmap ray q)). exact I.
Qed.
Lemma stage_grid d : forall p, In p (st d) -> on_grid (x0 - fov / 2, y0 - fov / 2) (wd d) p.
Proof.
  induction d as [|d IH]; intros p Hp; cbn [stage] in Hp; apply filter_In in Hp; destruct Hp as [Hp _].
  - replace (wd 0) with h by (cbn [pow]; field; assert (Q := n1_pos n Hn); lra). apply in_initial in Hp; [|exact Hn].
    assert (GX : forall i, ong (x0 - fov / 2) h (gx x0 fov n i)) by (intros i; exists (Z.of_nat i); unfold gx; rewrite INR_IZR_INZ; reflexivity).
    assert (GY : forall i, ong (y0 - fov / 2) h (gy y0 fov n i)) by (intros i; exists (Z.of_nat i); unfold gy; rewrite INR_IZR_INZ; reflexivity).
    destruct Hp as (i & j & _ & _ & [->| ->]); unfold upper, lower, on_grid; cbn [fst snd]; repeat split; first [apply GX|apply GY].
  - rewrite wd_S. apply in_refine in Hp. destruct Hp as (q & r & Hq & Hr & Hp). apply (grid_upsample _ _ r); [|exact Hp]. apply (grid_neighbors _ _ q); [apply IH, Hq|exact Hr].
Qed.
Lemma stage_next d p r q : 1 / 10 ^ 6 <= wd d -> In p (st d) -> In r (triangle_neighbors p) -> In q (triangle_upsample r) -> triangle_contains (tmap ray q) s = true -> In q (st (S d)).
Proof.
  intros W Hp Hr Hq C. cbn [stage]. apply filter_In. split; [|exact C]. unfold refine. apply in_flat_map. exists r. split; [|exact Hq].
  apply (grid_kept (x0 - fov / 2, y0 - fov / 2) (wd d)); [exact W| |apply in_flat_map; exists p; split; assumption].
  intros t Ht. apply in_flat_map in Ht. destruct Ht as (p' & Hp' & Ht). apply (grid_neighbors _ _ p'); [apply stage_grid, Hp'|exact Ht].
Qed.
(** the frames used *)
Lemma frame_box o u v w : 0 < w -> w <= h -> Rabs (fst u) <= w -> Rabs (snd u) <= w -> Rabs (fst v) <= w -> Rabs (snd v) <= w -> Rabs (fst u * snd v - snd u * fst v) = w ^ 2 ->
  forall i j, Rabs (IZR i - X0 xi o u v) <= 3 -> Rabs (IZR j - Y0 xi o u v) <= 3 -> box (node o u v i j).
Proof.
  intros Hw Wh Ux Uy Vx Vy HD i j Hi Hj. destruct (xi_frame xi o u v w Hw HD) as [E1 E2].
  assert (G : forall a b, Rabs a <= w -> Rabs b <= w -> Rabs ((IZR i - X0 xi o u v) * a + (IZR j - Y0 xi o u v) * b) <= 6 * w).
  { intros a b A B. eapply Rle_trans; [apply Rabs_triang|]. rewrite !Rabs_mult. replace (6 * w) with (3 * w + 3 * w) by ring. apply Rplus_le_compat; apply Rmult_le_compat; try apply Rabs_pos; assumption. }
  apply (near_box _ (6 * w)); [lra| |]; unfold node; cbn [fst snd].
  - rewrite E1. eapply Rle_trans; [|apply (G (fst u) (fst v) Ux Vx)]. apply Req_le. f_equal. ring.
  - rewrite E2. eapply Rle_trans; [|apply (G (snd u) (snd v) Uy Vy)]. apply Req_le. f_equal. ring.
Qed.
Lemma stage_zero : exists p, In p (st 0) /\ nearby p xi.
Proof.
  assert (H := wh_pos). set (o := (x0 - fov / 2, y0 - fov / 2) : pt). set (u := (0, h) : pt). set (v := (h, h) : pt).
  assert (AH : Rabs h = h) by (apply Rabs_right; lra).
  assert (Ux : Rabs (fst u) <= h) by (cbn [u fst]; rewrite Rabs_R0; lra). assert (Uy : Rabs (snd u) <= h) by (cbn [u snd]; lra). assert (Vx : Rabs (fst v) <= h) by (cbn [v fst]; lra). assert (Vy : Rabs (snd v) <= h) by (cbn [v snd]; lra).
  assert (HD : Rabs (fst u * snd v - snd u * fst v) = h ^ 2). { unfold u, v. cbn [fst snd]. replace (0 * h - h * h) with (- h ^ 2) by ring. rewrite Rabs_Ropp. apply Rabs_right, Rle_ge, pow2_ge_0. }
  destruct (frame_found gam box k xi slow Hk xi_box o u v h H Ux Uy Vx Vy HD (frame_box o u v h H (Rle_refl _) Ux Uy Vx Vy HD)) as (up & i & j & N & I & O & a1 & a2 & A1 & A2 & A3 & C1 & C2).
  destruct (xi_frame xi o u v h H HD) as [E1 E2]. set (XX := X0 xi o u v) in *. set (YY := Y0 xi o u v) in *. clearbody XX YY.
  assert (QN := n1_pos n Hn). assert (FH : fov = INR (n - 1) * h) by (field; lra).
  assert (B1 : 1 / 2 < YY < INR (n - 1) - 1 / 2).
  { unfold o, u, v in E1. cbn [fst snd] in E1. assert (A := Rle_abs (fst xi - x0)). assert (B := Rle_abs (- (fst xi - x0))). rewrite Rabs_Ropp in B. split; apply Rmult_lt_reg_r with h; lra. }
  assert (B2 : 1 / 2 < XX + YY < INR (n - 1) - 1 / 2).
  { unfold o, u, v in E2. cbn [fst snd] in E2. assert (A := Rle_abs (snd xi - y0)). assert (B := Rle_abs (- (snd xi - y0))). rewrite Rabs_Ropp in B. split; apply Rmult_lt_reg_r with h; lra. }
  apply rabs_cases in C1. apply rabs_cases in C2. rewrite INR_IZR_INZ in B1, B2. set (M := Z.of_nat (n - 1)) in *.
  assert (LOC := fun q => gam_located q).
  assert (NN : forall z1 z2, (0 <= z1)%Z -> node o u v z2 z1 = (gx x0 fov n (Z.to_nat z1), y0 - fov / 2 + IZR (z1 + z2) * h)).
  { intros z1 z2 Z1. unfold node, gx, Tri3_Proofs.h, o, u, v. cbn [fst snd]. rewrite (INR_IZR_INZ (Z.to_nat z1)), Z2Nat.id by exact Z1. rewrite plus_IZR. f_equal; ring. }
  assert (NY : forall z, (0 <= z)%Z -> y0 - fov / 2 + IZR z * h = gy y0 fov n (Z.to_nat z)).
  { intros z Hz. unfold gy, Tri3_Proofs.h. rewrite (INR_IZR_INZ (Z.to_nat z)), Z2Nat.id by exact Hz. reflexivity. }
  destruct up; cbn [node_tri tmap] in N, I, O.
  - assert (J1 : (0 <= j < M)%Z) by (split; [assert ((-1 < j)%Z) by (apply lt_IZR; lra); lia|apply lt_IZR; lra]). assert (J2 : (0 <= i + j < M)%Z) by (split; [assert ((-1 < i + j)%Z) by (apply lt_IZR; rewrite plus_IZR; lra); lia|apply lt_IZR; rewrite plus_IZR; lra]).
    exists (upper x0 y0 fov n (Z.to_nat j) (Z.to_nat (i + j))).
    assert (EU : upper x0 y0 fov n (Z.to_nat j) (Z.to_nat (i + j)) = (node o u v i j, node o u v (i + 1) j, node o u v i (j + 1))).
    { unfold upper. rewrite !NN by lia. rewrite !NY by lia. replace (j + (i + 1))%Z with (i + j + 1)%Z by lia. replace (j + 1 + i)%Z with (i + j + 1)%Z by lia. replace (j + i)%Z with (i + j)%Z by lia. rewrite (Z2Nat.inj_add (i + j) 1), (Z2Nat.inj_add j 1) by lia. change (Z.to_nat 1) with 1%nat. rewrite !Nat.add_1_r. reflexivity. }
    split; [|rewrite EU; exact N]. cbn [stage]. apply filter_In. split; [apply in_initial; [exact Hn|]; exists (Z.to_nat j), (Z.to_nat (i + j)); repeat split; try lia; left; reflexivity|].
    rewrite EU. apply LOC; assumption.
  - assert (J1 : (1 <= j <= M)%Z) by (split; [assert ((0 < j)%Z) by (apply lt_IZR; lra); lia|assert ((j < M + 1)%Z) by (apply lt_IZR; rewrite plus_IZR; lra); lia]). assert (J2 : (1 <= i + j <= M)%Z) by (split; [assert ((0 < i + j)%Z) by (apply lt_IZR; rewrite plus_IZR; lra); lia|assert ((i + j < M + 1)%Z) by (apply lt_IZR; rewrite !plus_IZR; lra); lia]).
    exists (lower x0 y0 fov n (Z.to_nat (j - 1)) (Z.to_nat (i + j - 1))).
    assert (EU : lower x0 y0 fov n (Z.to_nat (j - 1)) (Z.to_nat (i + j - 1)) = (node o u v i (j - 1), node o u v (i - 1) j, node o u v i j)).
    { unfold lower. rewrite !NN by lia. replace (j + (i - 1))%Z with (i + j - 1)%Z by lia. replace (j - 1 + i)%Z with (i + j - 1)%Z by lia. replace (j + i)%Z with (i + j)%Z by lia. rewrite !NY by lia. rewrite <- !Z2Nat.inj_succ by lia.
      replace (Z.succ (j - 1)) with j by lia. replace (Z.succ (i + j - 1)) with (i + j)%Z by lia. reflexivity. }
    split; [|rewrite EU; apply nearby_rev, N]. cbn [stage]. apply filter_In. split; [apply in_initial; [exact Hn|]; exists (Z.to_nat (j - 1)), (Z.to_nat (i + j - 1)); repeat split; try lia; right; reflexivity|].
    rewrite EU. apply LOC; cbn [tmap]; [apply in_rev, I|rewrite orient_rev; intros Z0; apply O, Ropp_eq_0_compat in Z0 || (apply Ropp_eq_0_compat in Z0; rewrite Ropp_involutive in Z0; exact (O Z0))].
Qed.
Lemma stage_step d p : 1 / 10 ^ 6 <= wd d -> In p (st d) -> nearby p xi -> exists q, In q (st (S d)) /\ nearby q xi.
Proof.
  intros W Hp NB. assert (X := any_extent ray s x0 y0 fov n Hf Hn d p Hp). assert (OR := any_orient ray s x0 y0 fov n Hn d p Hp). assert (WP := wd_pos d). assert (WL := wd_le d). set (w := wd d) in *.
  assert (PAR := parent p). assert (NXT := fun r q => stage_next d p r q W Hp).
  set (o := fst (fst p)) in *. set (u := half_u p) in *. set (v := half_v p) in *.
  assert (B : Rabs (fst u) <= w / 2 /\ Rabs (snd u) <= w / 2 /\ Rabs (fst v) <= w / 2 /\ Rabs (snd v) <= w / 2 /\ fst u * snd v - snd u * fst v = orient p / 4).
  { unfold u, v, half_u, half_v, pscale, psub. destruct p as [[[a0 b0] [a1 b1]] [a2 b2]]. unfold extent, span in X. cbn [fst snd] in *. repeat split; try (apply rabs_intro; lra). unfold orient. cbn [fst snd]. field. }
  destruct B as (Ux & Uy & Vx & Vy & ED).
  assert (HD : Rabs (fst u * snd v - snd u * fst v) = (w / 2) ^ 2). { rewrite ED. unfold Rdiv at 1. rewrite Rabs_mult, OR, (Rabs_right (/ 4)) by lra. field. }
  assert (W2 : 0 < w / 2) by lra.
  destruct (frame_found gam box k xi slow Hk xi_box o u v (w / 2) W2 Ux Uy Vx Vy HD (frame_box o u v (w / 2) W2 ltac:(lra) Ux Uy Vx Vy HD)) as (up & i & j & N & I & O & a1 & a2 & A1 & A2 & A3 & C1 & C2).
  (* where the parent's point is *)
  assert (B : -1 <= X0 xi o u v <= 3 /\ -1 <= Y0 xi o u v <= 3 /\ -1 <= X0 xi o u v + Y0 xi o u v <= 3).
  { assert (DN := det_nz u v (w / 2) W2 HD). assert (EXY : exists a0 a1 a2 c0 c1 c2, 0 <= a0 /\ 0 <= a1 /\ 0 <= a2 /\ a0 + a1 + a2 = 1 /\ c0 + c1 + c2 = 1 /\ X0 xi o u v = 2 * c1 /\ Y0 xi o u v = 2 * c2 /\ Rabs (c0 - a0) <= 1 / 2 /\ Rabs (c1 - a1) <= 1 / 2 /\ Rabs (c2 - a2) <= 1 / 2).
    { unfold nearby in NB. unfold X0, Y0, o, u, v, half_u, half_v, pscale, psub in *. destruct p as [[[p0x p0y] [p1x p1y]] [p2x p2y]]. cbn [fst snd] in *. destruct NB as (b0 & b1 & b2 & c0 & c1 & c2 & Q0 & Q1 & Q2 & S1 & S2 & EX & EY & D0 & D1 & D2).
      exists b0, b1, b2, c0, c1, c2. replace c0 with (1 - c1 - c2) in EX, EY by lra. repeat split; try assumption; apply Rmult_eq_reg_r with (1 / 2 * (p1x - p0x) * (1 / 2 * (p2y - p0y)) - 1 / 2 * (p1y - p0y) * (1 / 2 * (p2x - p0x))); try exact DN; unfold Rdiv at 1; rewrite Rmult_assoc, Rinv_l by exact DN; rewrite EX, EY; field. }
    destruct EXY as (b0 & b1 & b2 & c0 & c1 & c2 & Q0 & Q1 & Q2 & S1 & S2 & -> & -> & D0 & D1 & D2). apply rabs_cases in D0. apply rabs_cases in D1. apply rabs_cases in D2. lra. }
  set (XX := X0 xi o u v) in *. set (YY := Y0 xi o u v) in *. clearbody XX YY. apply rabs_cases in C1. apply rabs_cases in C2.
  assert (ZB : if up then (-2 <= i <= 3 /\ -2 <= j <= 3 /\ -2 <= i + j <= 3)%Z else (-1 <= i <= 4 /\ -1 <= j <= 4 /\ -1 <= i + j <= 4)%Z).
  { destruct up.
    - assert (Z1 : (-3 < i)%Z) by (apply lt_IZR; lra). assert (Z2 : (i < 4)%Z) by (apply lt_IZR; lra). assert (Z3 : (-3 < j)%Z) by (apply lt_IZR; lra). assert (Z4 : (j < 4)%Z) by (apply lt_IZR; lra).
      assert (Z5 : (-3 < i + j)%Z) by (apply lt_IZR; rewrite plus_IZR; lra). assert (Z6 : (i + j < 4)%Z) by (apply lt_IZR; rewrite plus_IZR; lra). lia.
    - assert (Z1 : (-2 < i)%Z) by (apply lt_IZR; lra). assert (Z2 : (i < 5)%Z) by (apply lt_IZR; lra). assert (Z3 : (-2 < j)%Z) by (apply lt_IZR; lra). assert (Z4 : (j < 5)%Z) by (apply lt_IZR; lra).
      assert (Z5 : (-2 < i + j)%Z) by (apply lt_IZR; rewrite plus_IZR; lra). assert (Z6 : (i + j < 5)%Z) by (apply lt_IZR; rewrite plus_IZR; lra). lia. }
  destruct (PAR up i j ZB) as (r & q & Hr & Hq & E). clear PAR. exists q. destruct (node_tri o u v up i j) as [[A B'] C]. destruct E as [-> | ->].
  - split; [|exact N]. apply (NXT r); try assumption. apply gam_located; assumption.
  - split; [|apply nearby_rot, N]. apply (NXT r); try assumption. apply gam_located; cbn [tmap] in *; [apply in_rot, I|rewrite orient_rot; exact O].
Qed.
Lemma stage_never_empty d : 1 / 10 ^ 6 <= wd d -> exists p, In p (st d) /\ nearby p xi.
Proof.
  induction d as [|d IH]; intros W; [exact stage_zero|]. assert (W' : 1 / 10 ^ 6 <= wd d) by (rewrite wd_S in W; assert (P := wd_pos d); lra).
  destruct (IH W') as (p & Hp & NB). apply (stage_step d p W' Hp NB).
Qed.
(** every triangle kept is near the image *)
Lemma gam_expand p q : box p -> box q -> 29 / 30 * distance p q <= distance (gam p) (gam q) <= 31 / 30 * distance p q.
Proof.
  intros Bp Bq. assert (SL := slow p q Bp Bq). assert (DN := dist_nonneg p q). assert (KD : k * distance p q <= 1 / 30 * distance p q) by (apply Rmult_le_compat_r; lra).
  rewrite dist_cmod in SL. rewrite (dist_cmod (gam p)). rewrite (dist_cmod p q) in *.
  assert (E1 : psub (gam p) (gam q) = Cplus (psub p q) (psub (psub (gam p) p) (psub (gam q) q))) by (unfold psub, Cplus; cbn [fst snd]; f_equal; ring).
  assert (E2 : psub p q = Cplus (psub (gam p) (gam q)) (Copp (psub (psub (gam p) p) (psub (gam q) q)))) by (unfold psub, Cplus, Copp; cbn [fst snd]; f_equal; ring).
  assert (T1 := Cmod_triangle (psub p q) (psub (psub (gam p) p) (psub (gam q) q))). rewrite <- E1 in T1.
  assert (T2 := Cmod_triangle (psub (gam p) (gam q)) (Copp (psub (psub (gam p) p) (psub (gam q) q)))). rewrite <- E2, Cmod_opp in T2. split; lra.
Qed.
Definition within (r : R) (p : tri) : Prop := let '(p0, p1, p2) := p in distance p0 xi <= r /\ distance p1 xi <= r /\ distance p2 xi <= r.
Definition tbox (p : tri) : Prop := let '(p0, p1, p2) := p in box p0 /\ box p1 /\ box p2.
Lemma sqrt2_le : sqrt 2 <= 3 / 2.
Proof. apply Rsqr_incr_0_var; [|lra]. rewrite Rsqr_sqrt by lra. unfold Rsqr. lra. Qed.
Lemma located_near d p : In p (st d) -> tbox p -> within (2 * wd d) p.
Proof.
  intros Hp B. assert (X := any_extent ray s x0 y0 fov n Hf Hn d p Hp). assert (V := any_holds ray s x0 y0 fov n d p Hp). apply (affine_in n11 n12 n21 n22 0 0 HN s (tmap ray p)) in V. rewrite <- gam_tri in V. change (affine_map n11 n12 n21 n22 0 0 s) with (gam xi) in V.
  assert (WP := wd_pos d). set (w := wd d) in *. destruct p as [[p0 p1] p2]. destruct B as (B0 & B1 & B2). destruct X as (S0 & S1 & S2). cbn [tmap] in V.
  assert (SP : forall a b, span a b w -> distance a b <= 3 / 2 * w) by (intros a b Hab; eapply Rle_trans; [apply span_distance, Hab|]; apply Rmult_le_compat_r; [lra|apply sqrt2_le]).
  assert (G : forall a, box a -> distance a p0 <= 3 / 2 * w -> distance a p1 <= 3 / 2 * w -> distance a p2 <= 3 / 2 * w -> distance a xi <= 2 * w).
  { intros a Ba D0 D1 D2. destruct (gam_expand a xi Ba xi_box) as [L _]. destruct (gam_expand a p0 Ba B0) as [_ U0]. destruct (gam_expand a p1 Ba B1) as [_ U1]. destruct (gam_expand a p2 Ba B2) as [_ U2].
    assert (D := dist_convex (gam a) _ _ _ _ (31 / 30 * (3 / 2 * w)) V ltac:(lra) ltac:(lra) ltac:(lra)). lra. }
  assert (Z : forall a, distance a a <= 3 / 2 * w) by (intros a; rewrite dist_self; lra).
  assert (D01 := SP _ _ S0). assert (D12 := SP _ _ S1). assert (D20 := SP _ _ S2). assert (D10 := D01). rewrite dist_sym in D10. assert (D21 := D12). rewrite dist_sym in D21. assert (D02 := D20). rewrite dist_sym in D02.
  repeat split; apply G; auto.
Qed.
Lemma near_neighbors p q w t : (let '(p0, p1, p2) := p in (Rabs (fst p0 - fst xi) <= t /\ Rabs (snd p0 - snd xi) <= t) /\ (Rabs (fst p1 - fst xi) <= t /\ Rabs (snd p1 - snd xi) <= t) /\ (Rabs (fst p2 - fst xi) <= t /\ Rabs (snd p2 - snd xi) <= t)) ->
  extent p w -> In q (triangle_neighbors p) ->
  let '(p0, p1, p2) := q in (Rabs (fst p0 - fst xi) <= t + w /\ Rabs (snd p0 - snd xi) <= t + w) /\ (Rabs (fst p1 - fst xi) <= t + w /\ Rabs (snd p1 - snd xi) <= t + w) /\ (Rabs (fst p2 - fst xi) <= t + w /\ Rabs (snd p2 - snd xi) <= t + w).
Proof.
  destruct p as [[[a0 b0] [a1 b1]] [a2 b2]]. unfold extent, span. cbn [fst snd]. intros ((A0 & B0) & (A1 & B1) & A2 & B2) X I. apply rabs_cases in A0. apply rabs_cases in A1. apply rabs_cases in A2. apply rabs_cases in B0. apply rabs_cases in B1. apply rabs_cases in B2.
  cbn in I. repeat (destruct I as [<-|I]; [unfold padd, psub, pscale; cbn [fst snd]; repeat split; apply rabs_intro; lra|]). destruct I.
Qed.
Lemma near_upsample p q t : (let '(p0, p1, p2) := p in (Rabs (fst p0 - fst xi) <= t /\ Rabs (snd p0 - snd xi) <= t) /\ (Rabs (fst p1 - fst xi) <= t /\ Rabs (snd p1 - snd xi) <= t) /\ (Rabs (fst p2 - fst xi) <= t /\ Rabs (snd p2 - snd xi) <= t)) ->
  In q (triangle_upsample p) ->
  let '(p0, p1, p2) := q in (Rabs (fst p0 - fst xi) <= t /\ Rabs (snd p0 - snd xi) <= t) /\ (Rabs (fst p1 - fst xi) <= t /\ Rabs (snd p1 - snd xi) <= t) /\ (Rabs (fst p2 - fst xi) <= t /\ Rabs (snd p2 - snd xi) <= t).
Proof.
  destruct p as [[[a0 b0] [a1 b1]] [a2 b2]]. cbn [fst snd]. intros ((A0 & B0) & (A1 & B1) & A2 & B2) I. apply rabs_cases in A0. apply rabs_cases in A1. apply rabs_cases in A2. apply rabs_cases in B0. apply rabs_cases in B1. apply rabs_cases in B2.
  cbn in I. repeat (destruct I as [<-|I]; [cbn [fst snd]; repeat split; apply rabs_intro; lra|]). destruct I.
Qed.
Lemma stage_near d p : In p (st d) -> tbox p /\ within (2 * wd d) p.
Proof.
  revert p. induction d as [|d IH]; intros p Hp.
  - assert (TB : tbox p); [|split; [exact TB|apply located_near; assumption]]. cbn [stage] in Hp. apply filter_In in Hp. destruct Hp as [Hp _]. apply in_initial in Hp; [|exact Hn]. assert (H := wh_pos).
    assert (GX : forall i, (i <= n - 1)%nat -> Rabs (gx x0 fov n i - x0) <= rho) by (intros i Hi; assert (R1 := gx_range x0 fov n Hf Hn i Hi); apply rabs_intro; lra).
    assert (GY : forall i, (i <= n - 1)%nat -> Rabs (gy y0 fov n i - y0) <= rho) by (intros i Hi; assert (R1 := gy_range y0 fov n Hf Hn i Hi); apply rabs_intro; lra).
    destruct Hp as (i & j & Hi & Hj & [->| ->]); unfold upper, lower, tbox, box; cbn [fst snd]; repeat split; first [apply GX; lia|apply GY; lia].
  - assert (TB : tbox p); [|split; [exact TB|apply located_near; assumption]]. cbn [stage] in Hp. apply filter_In in Hp. destruct Hp as [Hp _]. apply in_refine in Hp. destruct Hp as (q & r & Hq & Hr & Hp).
    assert (X := any_extent ray s x0 y0 fov n Hf Hn d q Hq). destruct (IH q Hq) as [_ WQ]. assert (WL := wd_le d). assert (WP := wd_pos d). set (w := wd d) in *.
    assert (NQ : let '(p0, p1, p2) := q in (Rabs (fst p0 - fst xi) <= 2 * w /\ Rabs (snd p0 - snd xi) <= 2 * w) /\ (Rabs (fst p1 - fst xi) <= 2 * w /\ Rabs (snd p1 - snd xi) <= 2 * w) /\ (Rabs (fst p2 - fst xi) <= 2 * w /\ Rabs (snd p2 - snd xi) <= 2 * w)).
    { destruct q as [[q0 q1] q2]. destruct WQ as (D0 & D1 & D2). destruct (distance_components q0 xi), (distance_components q1 xi), (distance_components q2 xi). repeat split; lra. }
    assert (NP := near_upsample r p _ (near_neighbors q r w _ NQ X Hr) Hp). destruct p as [[p0 p1] p2]. destruct NP as ((A0 & B0) & (A1 & B1) & A2 & B2).
    repeat split; [apply (near_box p0 (2 * w + w))|apply (near_box p0 (2 * w + w))|apply (near_box p1 (2 * w + w))|apply (near_box p1 (2 * w + w))|apply (near_box p2 (2 * w + w))|apply (near_box p2 (2 * w + w))]; try assumption; lra.
Qed.
End Weak.
