(** * Proofs for C152: astrometric microlensing *)
From Coq Require Import Reals Lra.
From Verif Require Import LensBase_Model LensBasic_Model Images_Proofs Astro_Spec.
Local Open Scope R_scope.

Lemma sq_pos x : x <> 0 -> 0 < x ^ 2.
Proof. intros H. assert (G := Rsqr_pos_lt x H). unfold Rsqr in G. lra. Qed.

Lemma amp_value u : 0 < u -> 1 < (u ^ 2 + 2) / (u * sqrt (u ^ 2 + 4)) /\ ((u ^ 2 + 2) / (u * sqrt (u ^ 2 + 4))) ^ 2 = 1 + 4 / (u ^ 2 * (u ^ 2 + 4)).
Proof.
  intros H. assert (U := pow2_ge_0 u). assert (S : 0 < sqrt (u ^ 2 + 4)) by (apply sqrt_lt_R0; lra). assert (Q : sqrt (u ^ 2 + 4) ^ 2 = u ^ 2 + 4) by (rewrite pow2_sqrt; lra). set (r := sqrt (u ^ 2 + 4)) in *.
  assert (E : ((u ^ 2 + 2) / (u * r)) ^ 2 = 1 + 4 / (u ^ 2 * (u ^ 2 + 4))) by (transitivity ((u ^ 2 + 2) ^ 2 / (u ^ 2 * r ^ 2)); [field; lra|rewrite Q; field; split; nra]).
  split; [|exact E]. assert (P : 0 < (u ^ 2 + 2) / (u * r)) by (apply Rdiv_lt_0_compat; [lra|apply Rmult_lt_0_compat; lra]).
  assert (0 < 4 / (u ^ 2 * (u ^ 2 + 4))) by (apply Rdiv_lt_0_compat; [lra|apply Rmult_lt_0_compat; nra]). nra.
Qed.
Section Images.
Variables (x0 y0 Rein sx sy : R).
Hypothesis HR : 0 < Rein.
Hypothesis Hs : (sx, sy) <> (x0, y0).
Let b := sqrt ((sx - x0) ^ 2 + (sy - y0) ^ 2).
Lemma b_sq : b ^ 2 = (sx - x0) ^ 2 + (sy - y0) ^ 2.
Proof. unfold b. rewrite pow2_sqrt; [reflexivity|]. assert (U := pow2_ge_0 (sx - x0)). assert (V := pow2_ge_0 (sy - y0)). lra. Qed.
Lemma b_pos : 0 < b.
Proof.
  apply sqrt_lt_R0. assert (U := pow2_ge_0 (sx - x0)). assert (V := pow2_ge_0 (sy - y0)). destruct (Req_dec sx x0) as [E|E]; [destruct (Req_dec sy y0) as [F|F]; [exfalso; apply Hs; congruence|]|].
  - assert (0 < (sy - y0) ^ 2) by (apply sq_pos; lra). lra.
  - assert (0 < (sx - x0) ^ 2) by (apply sq_pos; lra). lra.
Qed.
Let c := (sx - x0) / b. Let s := (sy - y0) / b. Let r := sqrt (b ^ 2 + 4 * Rein ^ 2).
Lemma cs : c ^ 2 + s ^ 2 = 1.
Proof. assert (P := b_pos). unfold c, s. transitivity (((sx - x0) ^ 2 + (sy - y0) ^ 2) / b ^ 2); [field; lra|]. rewrite <- b_sq. field. lra. Qed.
Lemma r_sq : r ^ 2 = b ^ 2 + 4 * Rein ^ 2.
Proof. unfold r. rewrite pow2_sqrt; [reflexivity|]. assert (U := pow2_ge_0 b). assert (V := pow2_ge_0 Rein). lra. Qed.
Lemma r_gt : b < r.
Proof. assert (P := b_pos). assert (0 <= r) by apply sqrt_pos. assert (E := r_sq). assert (0 < Rein ^ 2) by (apply sq_pos; lra). nra. Qed.
Let Q1 := (x0 + (b + r) / 2 * c, y0 + (b + r) / 2 * s). Let Q2 := (x0 + (b - r) / 2 * c, y0 + (b - r) / 2 * s).
Lemma off k : k <> 0 -> (x0 + k * c, y0 + k * s) <> (x0, y0).
Proof. intros Hk E. injection E as E1 E2. assert (N := cs). assert (A : k * c = 0) by lra. assert (B : k * s = 0) by lra. apply Rmult_integral in A as [A|A]; [contradiction|]. apply Rmult_integral in B as [B|B]; [contradiction|]. rewrite A, B in N. lra. Qed.
Lemma src_is : x0 + b * c = sx /\ y0 + b * s = sy.
Proof. assert (P := b_pos). unfold c, s. split; field; lra. Qed.
Lemma our_images : exists m1 m2, two_images x0 y0 Rein sx sy Q1 Q2 m1 m2 /\ m1 - m2 = 1 /\ m1 + m2 = ((b / Rein) ^ 2 + 2) / ((b / Rein) * sqrt ((b / Rein) ^ 2 + 4)).
Proof.
  assert (P := b_pos). assert (G := r_gt). destruct (point_image_mags x0 y0 Rein HR b c s P cs) as (m1 & m2 & M1 & M2 & A & D). exists m1, m2. split; [|split; assumption].
  unfold two_images. cbv zeta. split.
  { intros E. injection E as E1 E2. assert (N := cs). assert (r * c = 0) by lra. assert (r * s = 0) by lra. assert (c = 0) by (apply (Rmult_eq_reg_l r); lra). assert (s = 0) by (apply (Rmult_eq_reg_l r); lra). nra. }
  split; [apply off; lra|]. split; [apply off; lra|]. split; [|split; [exact M1|exact M2]].
  intros [x y] O. cbn [fst snd]. destruct src_is as [E1 E2]. rewrite <- E1, <- E2. rewrite (point_images x0 y0 Rein HR b c s P cs x y).
  - fold r. unfold Q1, Q2. split; (intros [K|K]; [left|right]); [destruct K as [-> ->]; reflexivity|destruct K as [-> ->]; reflexivity|injection K as K1 K2; split; assumption|injection K as K1 K2; split; assumption].
  - destruct (Req_dec x x0) as [E|E]; [right|left; exact E]. intros F. apply O. rewrite E, F. reflexivity.
Qed.
Lemma all_images P1 P2 m1 m2 : two_images x0 y0 Rein sx sy P1 P2 m1 m2 -> exists n1 n2, n1 - n2 = 1 /\ n1 + n2 = ((b / Rein) ^ 2 + 2) / ((b / Rein) * sqrt ((b / Rein) ^ 2 + 4)) /\
  (P1 = Q1 /\ P2 = Q2 /\ m1 = n1 /\ m2 = n2 \/ P1 = Q2 /\ P2 = Q1 /\ m1 = n2 /\ m2 = n1).
Proof.
  intros (D & O1 & O2 & I & M1 & M2). destruct our_images as (n1 & n2 & (D' & O1' & O2' & I' & N1 & N2) & E1 & E2). exists n1, n2. split; [exact E1|]. split; [exact E2|].
  assert (A1 : P1 = Q1 \/ P1 = Q2) by (apply (I' P1 O1), (I P1 O1); left; reflexivity). assert (A2 : P2 = Q1 \/ P2 = Q2) by (apply (I' P2 O2), (I P2 O2); right; reflexivity).
  destruct A1 as [A1|A1]; destruct A2 as [A2|A2]; [exfalso; apply D; congruence|left|right|exfalso; apply D; congruence]; rewrite A1 in M1; rewrite A2 in M2; repeat split; try assumption; congruence.
Qed.
Let w := Rein ^ 2 / ((sx - x0) ^ 2 + (sy - y0) ^ 2 + 2 * Rein ^ 2).
Lemma our_centroid n1 n2 : n1 - n2 = 1 -> n1 + n2 = ((b / Rein) ^ 2 + 2) / ((b / Rein) * sqrt ((b / Rein) ^ 2 + 4)) -> (n1 * ((b + r) / 2) + n2 * ((b - r) / 2)) / (n1 + n2) = b * (1 + w).
Proof.
  intros E A. assert (P := b_pos). assert (G := r_gt). assert (Q := r_sq). assert (0 < Rein ^ 2) by (apply sq_pos; lra).
  assert (S : sqrt ((b / Rein) ^ 2 + 4) = r / Rein). { apply Rsqr_inj; [apply sqrt_pos|apply Rlt_le, Rdiv_lt_0_compat; lra|]. rewrite Rsqr_sqrt by (assert (U := pow2_ge_0 (b / Rein)); lra). unfold Rsqr. transitivity ((b ^ 2 + 4 * Rein ^ 2) / Rein ^ 2); [field; lra|]. rewrite <- Q. field. lra. }
  rewrite S in A. assert (A' : n1 + n2 = (b ^ 2 + 2 * Rein ^ 2) / (b * r)) by (rewrite A; field; lra). unfold w. rewrite <- b_sq. rewrite A'.
  replace (n1 * ((b + r) / 2) + n2 * ((b - r) / 2)) with (b / 2 * (n1 + n2) + r / 2 * (n1 - n2)) by field. rewrite A', E.
  assert (0 < b ^ 2) by (apply sq_pos; lra). transitivity ((b * (b ^ 2 + 2 * Rein ^ 2) + b * r ^ 2) / (2 * (b ^ 2 + 2 * Rein ^ 2))); [field; lra|]. rewrite Q. field. lra.
Qed.
Lemma centroid_at P1 P2 m1 m2 : two_images x0 y0 Rein sx sy P1 P2 m1 m2 -> centroid P1 P2 m1 m2 = (sx + w * (sx - x0), sy + w * (sy - y0)).
Proof.
  intros T. assert (P := b_pos). destruct (all_images P1 P2 m1 m2 T) as (n1 & n2 & E & A & H). assert (K := our_centroid n1 n2 E A).
  assert (U : 0 < b / Rein) by (apply Rdiv_lt_0_compat; lra). destruct (amp_value (b / Rein) U) as [G _]. rewrite <- A in G.
  assert (X : centroid P1 P2 m1 m2 = (x0 + (n1 * ((b + r) / 2) + n2 * ((b - r) / 2)) / (n1 + n2) * c, y0 + (n1 * ((b + r) / 2) + n2 * ((b - r) / 2)) / (n1 + n2) * s)).
  { unfold centroid. destruct H as [(-> & -> & -> & ->)|(-> & -> & -> & ->)]; unfold Q1, Q2; cbn [fst snd]; apply f_equal2; field; lra. }
  rewrite X, K. unfold c, s. apply f_equal2; field; lra.
Qed.
Lemma amplified P1 P2 m1 m2 : two_images x0 y0 Rein sx sy P1 P2 m1 m2 -> 1 < m1 + m2 /\ (m1 + m2) ^ 2 = 1 + 4 * Rein ^ 4 / (b ^ 2 * (b ^ 2 + 4 * Rein ^ 2)).
Proof.
  intros T. assert (P := b_pos). destruct (all_images P1 P2 m1 m2 T) as (n1 & n2 & E & A & H). assert (U : 0 < b / Rein) by (apply Rdiv_lt_0_compat; lra). destruct (amp_value (b / Rein) U) as [G V].
  assert (S : m1 + m2 = n1 + n2) by (destruct H as [(_ & _ & -> & ->)|(_ & _ & -> & ->)]; ring). rewrite S, A. split; [exact G|]. rewrite V. assert (0 < Rein ^ 2) by (apply sq_pos; lra). assert (0 < b ^ 2) by (apply sq_pos; lra). field. repeat split; nra.
Qed.
End Images.
(** the closer, the brighter *)
Lemma closer_brighter x0 y0 Rein sx sy P1 P2 m1 m2 sx' sy' P1' P2' m1' m2' : 0 < Rein -> (sx, sy) <> (x0, y0) -> (sx', sy') <> (x0, y0) ->
  two_images x0 y0 Rein sx sy P1 P2 m1 m2 -> two_images x0 y0 Rein sx' sy' P1' P2' m1' m2' -> (sx - x0) ^ 2 + (sy - y0) ^ 2 < (sx' - x0) ^ 2 + (sy' - y0) ^ 2 -> m1' + m2' < m1 + m2.
Proof.
  intros HR H H' T T' L. destruct (amplified x0 y0 Rein sx sy HR H P1 P2 m1 m2 T) as [G E]. destruct (amplified x0 y0 Rein sx' sy' HR H' P1' P2' m1' m2' T') as [G' E'].
  rewrite (b_sq x0 y0 sx sy) in E. rewrite (b_sq x0 y0 sx' sy') in E'. assert (B := b_pos x0 y0 sx sy H). assert (B2 := b_sq x0 y0 sx sy).
  set (q := (sx - x0) ^ 2 + (sy - y0) ^ 2) in *. set (q' := (sx' - x0) ^ 2 + (sy' - y0) ^ 2) in *. assert (Q : 0 < q) by (rewrite <- B2; apply sq_pos; lra). assert (R2 : 0 < Rein ^ 2) by (apply sq_pos; lra).
  assert (F : 4 * Rein ^ 4 / (q' * (q' + 4 * Rein ^ 2)) < 4 * Rein ^ 4 / (q * (q + 4 * Rein ^ 2))).
  { unfold Rdiv. apply Rmult_lt_compat_l; [replace (4 * Rein ^ 4) with (4 * (Rein ^ 2 * Rein ^ 2)) by ring; nra|]. apply Rinv_lt_contravar; [apply Rmult_lt_0_compat; nra|nra]. }
  nra.
Qed.
(** the distance from the amplification *)
Lemma distance_of x0 y0 Rein sx sy P1 P2 m1 m2 : 0 < Rein -> (sx, sy) <> (x0, y0) -> two_images x0 y0 Rein sx sy P1 P2 m1 m2 ->
  (sx - x0) ^ 2 + (sy - y0) ^ 2 = 2 * Rein ^ 2 * ((m1 + m2) / sqrt ((m1 + m2) ^ 2 - 1) - 1).
Proof.
  intros HR H T. destruct (amplified x0 y0 Rein sx sy HR H P1 P2 m1 m2 T) as [G E]. rewrite (b_sq x0 y0 sx sy) in E. assert (B := b_pos x0 y0 sx sy H). assert (B2 := b_sq x0 y0 sx sy).
  set (q := (sx - x0) ^ 2 + (sy - y0) ^ 2) in *. assert (Q : 0 < q) by (rewrite <- B2; apply sq_pos; lra). assert (R2 : 0 < Rein ^ 2) by (apply sq_pos; lra). set (A := m1 + m2) in *. set (e := Rein ^ 2) in *.
  assert (E4 : Rein ^ 4 = e * e) by (unfold e; ring). rewrite E4 in E. assert (D : 0 < q * (q + 4 * e)) by nra.
  assert (V : A = (q + 2 * e) / sqrt (q * (q + 4 * e))).
  { assert (S : 0 < sqrt (q * (q + 4 * e))) by (apply sqrt_lt_R0; exact D). apply Rsqr_inj; [lra|apply Rlt_le, Rdiv_lt_0_compat; lra|]. unfold Rsqr. replace (A * A) with (A ^ 2) by ring. rewrite E.
    transitivity ((q + 2 * e) ^ 2 / (sqrt (q * (q + 4 * e)) ^ 2)); [rewrite pow2_sqrt by lra; field; nra|field; lra]. }
  assert (W : sqrt (A ^ 2 - 1) = 2 * e / sqrt (q * (q + 4 * e))).
  { assert (S : 0 < sqrt (q * (q + 4 * e))) by (apply sqrt_lt_R0; exact D). rewrite E. replace (1 + 4 * (e * e) / (q * (q + 4 * e)) - 1) with (Rsqr (2 * e / sqrt (q * (q + 4 * e)))).
    - apply sqrt_Rsqr. apply Rlt_le, Rdiv_lt_0_compat; lra.
    - unfold Rsqr. transitivity (4 * (e * e) / (sqrt (q * (q + 4 * e)) ^ 2)); [field; lra|rewrite pow2_sqrt by lra; field; nra]. }
  rewrite W, V. assert (S : 0 < sqrt (q * (q + 4 * e))) by (apply sqrt_lt_R0; exact D). field. split; lra.
Qed.
Lemma largest_shift Rein q : 0 < Rein -> 0 <= q -> let w := Rein ^ 2 / (q + 2 * Rein ^ 2) in sqrt (w ^ 2 * q) <= Rein / sqrt 8 /\ (sqrt (w ^ 2 * q) = Rein / sqrt 8 <-> q = 2 * Rein ^ 2).
Proof.
  intros HR Hq w. assert (R2 : 0 < Rein ^ 2) by (apply sq_pos; lra). assert (S8 : 0 < sqrt 8) by (apply sqrt_lt_R0; lra). assert (P8 : sqrt 8 ^ 2 = 8) by (rewrite pow2_sqrt; lra).
  assert (Eq : Rein ^ 2 / 8 - w ^ 2 * q = Rein ^ 2 * (q - 2 * Rein ^ 2) ^ 2 / (8 * (q + 2 * Rein ^ 2) ^ 2)) by (unfold w; field; lra).
  assert (Sq : Rein / sqrt 8 = sqrt (Rein ^ 2 / 8)). { replace (Rein ^ 2 / 8) with (Rsqr (Rein / sqrt 8)); [symmetry; apply sqrt_Rsqr; apply Rlt_le, Rdiv_lt_0_compat; lra|]. unfold Rsqr. transitivity (Rein ^ 2 / sqrt 8 ^ 2); [field; lra|rewrite P8; reflexivity]. }
  assert (W : 0 <= w ^ 2 * q) by (apply Rmult_le_pos; [apply pow2_ge_0|exact Hq]). assert (D : 0 < 8 * (q + 2 * Rein ^ 2) ^ 2) by (apply Rmult_lt_0_compat; [lra|apply sq_pos; lra]).
  assert (Z := pow2_ge_0 (q - 2 * Rein ^ 2)). assert (N : 0 <= Rein ^ 2 * (q - 2 * Rein ^ 2) ^ 2 / (8 * (q + 2 * Rein ^ 2) ^ 2)) by (apply Rle_mult_inv_pos; [apply Rmult_le_pos; lra|exact D]).
  rewrite Sq. split; [apply sqrt_le_1_alt; lra|]. split.
  - intros F. apply sqrt_inj in F; [|exact W|lra]. assert (X : Rein ^ 2 * (q - 2 * Rein ^ 2) ^ 2 / (8 * (q + 2 * Rein ^ 2) ^ 2) = 0) by lra. unfold Rdiv in X. apply Rmult_integral in X as [X|X]; [|assert (Y := Rinv_0_lt_compat _ D); lra].
    apply Rmult_integral in X as [X|X]; [lra|]. assert (q - 2 * Rein ^ 2 = 0); [|lra]. apply Rsqr_0_uniq. unfold Rsqr. rewrite <- X. ring.
  - intros F. f_equal. rewrite F in Eq |- *. replace (2 * Rein ^ 2 - 2 * Rein ^ 2) with 0 in Eq by ring. unfold w in *. rewrite F. field. lra.
Qed.
Lemma shift_ellipse Rein b0 t : 0 < Rein -> 0 < b0 -> let w := Rein ^ 2 / (t ^ 2 + b0 ^ 2 + 2 * Rein ^ 2) in let k := b0 ^ 2 + 2 * Rein ^ 2 in let a := Rein ^ 2 / (2 * sqrt k) in let b := b0 * Rein ^ 2 / (2 * k) in
  (w * t / a) ^ 2 + ((w * b0 - b) / b) ^ 2 = 1.
Proof.
  intros HR Hb w k a b. assert (R2 : 0 < Rein ^ 2) by (apply sq_pos; lra). assert (B2 : 0 < b0 ^ 2) by (apply sq_pos; lra). assert (K : 0 < k) by (unfold k; lra). assert (S : 0 < sqrt k) by (apply sqrt_lt_R0; exact K). assert (Q : sqrt k ^ 2 = k) by (rewrite pow2_sqrt; lra).
  assert (T := pow2_ge_0 t). assert (D : t ^ 2 + b0 ^ 2 + 2 * Rein ^ 2 = t ^ 2 + k) by (unfold k; ring). unfold w. rewrite D. unfold a, b. clearbody k.
  transitivity (4 * t ^ 2 * sqrt k ^ 2 / (t ^ 2 + k) ^ 2 + (k - t ^ 2) ^ 2 / (t ^ 2 + k) ^ 2); [field; repeat split; lra|]. rewrite Q. field. lra.
Qed.
Lemma largest_of x0 y0 Rein sx sy P1 P2 m1 m2 : 0 < Rein -> (sx, sy) <> (x0, y0) -> two_images x0 y0 Rein sx sy P1 P2 m1 m2 -> let C := centroid P1 P2 m1 m2 in let d := sqrt ((fst C - sx) ^ 2 + (snd C - sy) ^ 2) in
  d <= Rein / sqrt 8 /\ (d = Rein / sqrt 8 <-> (sx - x0) ^ 2 + (sy - y0) ^ 2 = 2 * Rein ^ 2).
Proof.
  intros HR H T C d. assert (E := centroid_at x0 y0 Rein sx sy HR H P1 P2 m1 m2 T). fold C in E. assert (Q : 0 <= (sx - x0) ^ 2 + (sy - y0) ^ 2) by (assert (U := pow2_ge_0 (sx - x0)); assert (V := pow2_ge_0 (sy - y0)); lra).
  assert (L := largest_shift Rein _ HR Q). cbv zeta in L. assert (D : d = sqrt ((Rein ^ 2 / ((sx - x0) ^ 2 + (sy - y0) ^ 2 + 2 * Rein ^ 2)) ^ 2 * ((sx - x0) ^ 2 + (sy - y0) ^ 2))) by (unfold d; rewrite E; cbn [fst snd]; f_equal; ring).
  rewrite D. exact L.
Qed.
Lemma ellipse_of x0 y0 Rein b0 c s t P1 P2 m1 m2 : 0 < Rein -> 0 < b0 -> c ^ 2 + s ^ 2 = 1 -> let sx := x0 + t * c - b0 * s in let sy := y0 + t * s + b0 * c in two_images x0 y0 Rein sx sy P1 P2 m1 m2 ->
  let C := centroid P1 P2 m1 m2 in let X := (fst C - sx) * c + (snd C - sy) * s in let Y := - (fst C - sx) * s + (snd C - sy) * c in
  let a := Rein ^ 2 / (2 * sqrt (b0 ^ 2 + 2 * Rein ^ 2)) in let b := b0 * Rein ^ 2 / (2 * (b0 ^ 2 + 2 * Rein ^ 2)) in (X / a) ^ 2 + ((Y - b) / b) ^ 2 = 1.
Proof.
  intros HR Hb N sx sy T C X Y a b. assert (Q : (sx - x0) ^ 2 + (sy - y0) ^ 2 = t ^ 2 + b0 ^ 2) by (transitivity ((t ^ 2 + b0 ^ 2) * (c ^ 2 + s ^ 2)); [unfold sx, sy; ring|rewrite N; ring]).
  assert (H : (sx, sy) <> (x0, y0)). { intros F. injection F as F1 F2. rewrite F1, F2 in Q. assert (U := pow2_ge_0 t). assert (V := sq_pos b0). nra. }
  assert (E := centroid_at x0 y0 Rein sx sy HR H P1 P2 m1 m2 T). fold C in E. rewrite Q in E. assert (L := shift_ellipse Rein b0 t HR Hb). cbv zeta in L. fold a b in L. set (w := Rein ^ 2 / (t ^ 2 + b0 ^ 2 + 2 * Rein ^ 2)) in *.
  assert (X' : X = w * t) by (transitivity (w * t * (c ^ 2 + s ^ 2)); [unfold X; rewrite E; cbn [fst snd]; unfold sx, sy; ring|rewrite N; ring]).
  assert (Y' : Y = w * b0) by (transitivity (w * b0 * (c ^ 2 + s ^ 2)); [unfold Y; rewrite E; cbn [fst snd]; unfold sx, sy; ring|rewrite N; ring]).
  rewrite X', Y'. exact L.
Qed.
Lemma images_exist x0 y0 Rein sx sy : 0 < Rein -> (sx, sy) <> (x0, y0) -> exists P1 P2 m1 m2, two_images x0 y0 Rein sx sy P1 P2 m1 m2.
Proof. intros HR H. destruct (our_images x0 y0 Rein sx sy HR H) as (m1 & m2 & T & _). eexists _, _, m1, m2. exact T. Qed.
