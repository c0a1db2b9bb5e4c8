(** * Proofs for C153: every pair of images of unequal fluxes has a lens *)
From Coq Require Import Reals Lra.
From Verif Require Import LensBase_Model LensBasic_Model Images_Proofs Astro_Spec Astro_Proofs Invert_Spec Invert_Proofs.
Local Open Scope R_scope.

Lemma pair_sym alpha x0 y0 k S P1 P2 F1 F2 : seen_pair alpha x0 y0 k S P1 P2 F1 F2 -> seen_pair alpha x0 y0 k S P2 P1 F2 F1.
Proof. intros (D & O1 & O2 & R1 & R2 & m1 & m2 & M1 & M2 & E1 & E2). split; [congruence|]. split; [exact O2|]. split; [exact O1|]. split; [exact R2|]. split; [exact R1|]. exists m2, m1. repeat split; assumption. Qed.
Lemma point_polar x0 y0 Rein b c s k : 0 < Rein -> 0 < b -> c ^ 2 + s ^ 2 = 1 -> let r := sqrt (b ^ 2 + 4 * Rein ^ 2) in
  seen_pair (reduced_deflection_angle_point x0 y0 Rein 0) x0 y0 k (x0 + b * c, y0 + b * s) (x0 + (b + r) / 2 * c, y0 + (b + r) / 2 * s) (x0 + (b - r) / 2 * c, y0 + (b - r) / 2 * s) (k * ((b + r) ^ 2 / (4 * b * r))) (k * ((r - b) ^ 2 / (4 * b * r))).
Proof.
  intros HR Hb N r. assert (Off : forall u, u <> 0 -> x0 + u * c <> x0 \/ y0 + u * s <> y0) by (intros u Hu; apply polar_off; assumption). destruct (point_image_mags x0 y0 Rein HR b c s Hb N) as (n1 & n2 & M1 & M2 & Sm & Df). fold r in M1, M2.
  assert (R2 : 0 < Rein ^ 2) by (apply sq_pos; lra). assert (Rs : r ^ 2 = b ^ 2 + 4 * Rein ^ 2) by (unfold r; rewrite pow2_sqrt; [reflexivity|assert (U := pow2_ge_0 b); lra]). assert (R0 : 0 <= r) by apply sqrt_pos. assert (G : b < r) by nra.
  assert (S' : sqrt ((b / Rein) ^ 2 + 4) = r / Rein). { apply Rsqr_inj; [apply sqrt_pos|apply Rlt_le, Rdiv_lt_0_compat; lra|]. rewrite Rsqr_sqrt by (assert (U := pow2_ge_0 (b / Rein)); lra). unfold Rsqr. transitivity ((b ^ 2 + 4 * Rein ^ 2) / Rein ^ 2); [field; lra|]. rewrite <- Rs. field. lra. }
  rewrite S' in Sm. assert (Sm' : n1 + n2 = (b ^ 2 + 2 * Rein ^ 2) / (b * r)) by (rewrite Sm; field; lra).
  assert (V1 : n1 = (b + r) ^ 2 / (4 * b * r)). { replace n1 with ((n1 + n2 + (n1 - n2)) / 2) by field. rewrite Sm', Df. transitivity ((b ^ 2 + 2 * b * r + (b ^ 2 + 4 * Rein ^ 2)) / (4 * b * r)); [field; lra|]. rewrite <- Rs. field. lra. }
  assert (V2 : n2 = (r - b) ^ 2 / (4 * b * r)). { replace n2 with ((n1 + n2 - (n1 - n2)) / 2) by field. rewrite Sm', Df. transitivity ((b ^ 2 - 2 * b * r + (b ^ 2 + 4 * Rein ^ 2)) / (4 * b * r)); [field; lra|]. rewrite <- Rs. field. lra. }
  rewrite <- V1, <- V2. unfold seen_pair. cbn [fst snd].
  split. { intros E. assert (E1 := f_equal fst E). assert (E2 := f_equal snd E). cbn [fst snd] in E1, E2. assert (c = 0) by (apply (Rmult_eq_reg_l r); lra). assert (s = 0) by (apply (Rmult_eq_reg_l r); lra). nra. }
  split; [intros E; assert (E1 := f_equal fst E); assert (E2 := f_equal snd E); cbn [fst snd] in E1, E2; destruct (Off ((b + r) / 2) ltac:(lra)); contradiction|]. split; [intros E; assert (E1 := f_equal fst E); assert (E2 := f_equal snd E); cbn [fst snd] in E1, E2; destruct (Off ((b - r) / 2) ltac:(lra)); contradiction|].
  split; [apply (point_images x0 y0 Rein HR b c s Hb N _ _ (Off ((b + r) / 2) ltac:(lra))); left; split; reflexivity|]. split; [apply (point_images x0 y0 Rein HR b c s Hb N _ _ (Off ((b - r) / 2) ltac:(lra))); right; split; reflexivity|].
  exists n1, n2. repeat split; assumption.
Qed.
Section Data.
Variables (x1 y1 x2 y2 F1 F2 : R).
Hypothesis HD : (x1, y1) <> (x2, y2).
Hypothesis HF : 0 < F2 < F1.
Let d := separation (x1, y1) (x2, y2).
Let c := (x1 - x2) / d. Let s := (y1 - y2) / d.
Lemma d_pos : 0 < d. Proof. exact (b_pos x2 y2 x1 y1 HD). Qed.
Lemma d_cs : c ^ 2 + s ^ 2 = 1. Proof. exact (cs x2 y2 x1 y1 HD). Qed.
Lemma sis_for : exists x0 y0 Rein k S, 0 < Rein /\ 0 < k /\ seen_pair (reduced_deflection_angle_sis x0 y0 Rein 0) x0 y0 k S (x1, y1) (x2, y2) F1 F2.
Proof.
  assert (P := d_pos). assert (N := d_cs). set (b := (F1 - F2) * d / (2 * (F1 + F2))). set (R := d / 2). set (k := F1 * b / (b + R)).
  assert (Hb : 0 < b) by (unfold b; apply Rdiv_lt_0_compat; [apply Rmult_lt_0_compat; lra|lra]). assert (E1 : b + R = F1 * d / (F1 + F2)) by (unfold b, R; field; lra). assert (E2 : R - b = F2 * d / (F1 + F2)) by (unfold b, R; field; lra).
  assert (L : 0 < R - b) by (rewrite E2; apply Rdiv_lt_0_compat; [apply Rmult_lt_0_compat; lra|lra]). assert (HR : 0 < R) by (unfold R; lra). assert (Hk : 0 < k) by (unfold k; apply Rdiv_lt_0_compat; [apply Rmult_lt_0_compat; lra|lra]).
  assert (T := sis_pair_exists ((F2 * x1 + F1 * x2) / (F1 + F2)) ((F2 * y1 + F1 * y2) / (F1 + F2)) R b c s k HR ltac:(lra) N). eexists _, _, R, k, _. split; [exact HR|]. split; [exact Hk|].
  replace (b - R) with (- (R - b)) in T by ring. replace (k * (R / b + 1)) with F1 in T by (unfold k; field; split; lra).
  replace (k * (R / b - 1)) with F2 in T. 2:{ transitivity (F1 * (R - b) / (b + R)); [rewrite E1, E2; field; repeat split; lra|unfold k; field; split; lra]. }
  rewrite E1, E2 in T. unfold c, s in T.
  replace ((F2 * x1 + F1 * x2) / (F1 + F2) + F1 * d / (F1 + F2) * ((x1 - x2) / d)) with x1 in T by (field; split; lra). replace ((F2 * y1 + F1 * y2) / (F1 + F2) + F1 * d / (F1 + F2) * ((y1 - y2) / d)) with y1 in T by (field; split; lra).
  replace ((F2 * x1 + F1 * x2) / (F1 + F2) + - (F2 * d / (F1 + F2)) * ((x1 - x2) / d)) with x2 in T by (field; split; lra). replace ((F2 * y1 + F1 * y2) / (F1 + F2) + - (F2 * d / (F1 + F2)) * ((y1 - y2) / d)) with y2 in T by (field; split; lra).
  exact T.
Qed.
Lemma point_for : exists x0 y0 Rein k S, 0 < Rein /\ 0 < k /\ seen_pair (reduced_deflection_angle_point x0 y0 Rein 0) x0 y0 k S (x1, y1) (x2, y2) F1 F2.
Proof.
  assert (P := d_pos). assert (N := d_cs). set (p := sqrt F1). set (q := sqrt F2). assert (Hq : 0 < q) by (apply sqrt_lt_R0; lra). assert (Hpq : q < p) by (apply sqrt_lt_1; lra). assert (P2 : p ^ 2 = F1) by (unfold p; rewrite pow2_sqrt; lra). assert (Q2 : q ^ 2 = F2) by (unfold q; rewrite pow2_sqrt; lra). clearbody p q.
  set (a1 := p * d / (p + q)). set (a2 := q * d / (p + q)). assert (A1 : 0 < a1) by (unfold a1; apply Rdiv_lt_0_compat; [apply Rmult_lt_0_compat; lra|lra]). assert (A2 : 0 < a2) by (unfold a2; apply Rdiv_lt_0_compat; [apply Rmult_lt_0_compat; lra|lra]).
  assert (A3 : a1 + a2 = d) by (unfold a1, a2; field; lra). assert (A4 : a1 - a2 = (p - q) * d / (p + q)) by (unfold a1, a2; field; lra). set (b := a1 - a2). assert (Hb : 0 < b) by (unfold b; rewrite A4; apply Rdiv_lt_0_compat; [apply Rmult_lt_0_compat; lra|lra]).
  set (R := sqrt (a1 * a2)). assert (HR : 0 < R) by (apply sqrt_lt_R0, Rmult_lt_0_compat; assumption). assert (R2 : R ^ 2 = a1 * a2) by (unfold R; rewrite pow2_sqrt; [reflexivity|nra]).
  assert (W : sqrt (b ^ 2 + 4 * R ^ 2) = d). { rewrite R2. replace (b ^ 2 + 4 * (a1 * a2)) with (Rsqr d) by (rewrite <- A3; unfold b, Rsqr; ring). apply sqrt_Rsqr. lra. }
  set (k := F1 * b * d / a1 ^ 2). assert (Hk : 0 < k) by (unfold k; apply Rdiv_lt_0_compat; [repeat apply Rmult_lt_0_compat; lra|apply sq_pos; lra]).
  assert (T := point_polar ((q * x1 + p * x2) / (p + q)) ((q * y1 + p * y2) / (p + q)) R b c s k HR Hb N). cbv zeta in T. rewrite W in T. eexists _, _, R, k, _. split; [exact HR|]. split; [exact Hk|].
  assert (B1 : (b + d) / 2 = a1) by (rewrite <- A3; unfold b; field). assert (B2 : (b - d) / 2 = - a2) by (rewrite <- A3; unfold b; field). rewrite B1, B2 in T.
  replace (b + d) with (2 * a1) in T by lra. replace (d - b) with (2 * a2) in T by lra.
  replace (k * ((2 * a1) ^ 2 / (4 * b * d))) with F1 in T by (unfold k; field; repeat split; lra).
  replace (k * ((2 * a2) ^ 2 / (4 * b * d))) with F2 in T. 2:{ transitivity (F1 * (a2 / a1) ^ 2); [|unfold k; field; repeat split; lra]. replace (a2 / a1) with (q / p) by (unfold a1, a2; field; repeat split; lra). rewrite <- P2, <- Q2. field. lra. }
  unfold c, s, a1, a2 in T.
  replace ((q * x1 + p * x2) / (p + q) + p * d / (p + q) * ((x1 - x2) / d)) with x1 in T by (field; split; lra). replace ((q * y1 + p * y2) / (p + q) + p * d / (p + q) * ((y1 - y2) / d)) with y1 in T by (field; split; lra).
  replace ((q * x1 + p * x2) / (p + q) + - (q * d / (p + q)) * ((x1 - x2) / d)) with x2 in T by (field; split; lra). replace ((q * y1 + p * y2) / (p + q) + - (q * d / (p + q)) * ((y1 - y2) / d)) with y2 in T by (field; split; lra).
  exact T.
Qed.
End Data.
Lemma sis_unequal x0 y0 Rein k S P1 P2 F1 F2 : 0 < Rein -> 0 < k -> seen_pair (reduced_deflection_angle_sis x0 y0 Rein 0) x0 y0 k S P1 P2 F1 F2 -> F1 <> F2.
Proof.
  intros HR Hk T E. destruct (sis_read x0 y0 Rein HR k S P1 P2 F1 F2 Hk T) as (G1 & G2 & A & _ & X & Y). destruct T as (_ & O1 & _ & R1 & _ & m1 & m2 & M1 & _). rewrite E in X, Y.
  assert (X' : (fst P1 + fst P2) / 2 = x0) by (rewrite X; field; lra). assert (Y' : (snd P1 + snd P2) / 2 = y0) by (rewrite Y; field; lra). rewrite X', Y' in A. rewrite A in R1. rewrite (sis_ring_src x0 y0 Rein _ _ (neq_or _ _ _ O1) R1) in M1. discriminate.
Qed.
Lemma point_unequal x0 y0 Rein k S P1 P2 F1 F2 : 0 < Rein -> 0 < k -> seen_pair (reduced_deflection_angle_point x0 y0 Rein 0) x0 y0 k S P1 P2 F1 F2 -> F1 <> F2.
Proof.
  intros HR Hk T E. destruct (point_read x0 y0 Rein HR k S P1 P2 F1 F2 Hk T) as (G1 & G2 & X & Y & _ & A). destruct T as (_ & O1 & _ & R1 & _ & m1 & m2 & M1 & _). rewrite E in X, Y. assert (Q := sqrt_lt_R0 F2 G2).
  assert (X' : fst P1 + fst P2 - x0 = x0) by (assert (x0 = (fst P1 + fst P2) / 2) by (rewrite X; field; lra); lra). assert (Y' : snd P1 + snd P2 - y0 = y0) by (assert (y0 = (snd P1 + snd P2) / 2) by (rewrite Y; field; lra); lra). rewrite X', Y' in A. rewrite A in R1. rewrite (point_ring_src x0 y0 Rein HR _ _ (neq_or _ _ _ O1) R1) in M1. discriminate.
Qed.
Lemma both_fit P1 P2 F1 F2 : P1 <> P2 -> 0 < F1 -> 0 < F2 -> F1 <> F2 ->
  (exists x0 y0 Rein k S, 0 < Rein /\ 0 < k /\ seen_pair (reduced_deflection_angle_sis x0 y0 Rein 0) x0 y0 k S P1 P2 F1 F2) /\ (exists x0 y0 Rein k S, 0 < Rein /\ 0 < k /\ seen_pair (reduced_deflection_angle_point x0 y0 Rein 0) x0 y0 k S P1 P2 F1 F2).
Proof.
  intros D H1 H2 E. destruct P1 as [x1 y1], P2 as [x2 y2]. destruct (Rlt_or_le F2 F1) as [L|L].
  - split; [apply sis_for|apply point_for]; try assumption; lra.
  - assert (D' : (x2, y2) <> (x1, y1)) by congruence. split.
    + destruct (sis_for x2 y2 x1 y1 F2 F1 D' ltac:(lra)) as (x0 & y0 & R & k & S & HR & Hk & T). exists x0, y0, R, k, S. split; [exact HR|]. split; [exact Hk|apply pair_sym, T].
    + destruct (point_for x2 y2 x1 y1 F2 F1 D' ltac:(lra)) as (x0 & y0 & R & k & S & HR & Hk & T). exists x0, y0, R, k, S. split; [exact HR|]. split; [exact Hk|apply pair_sym, T].
Qed.
Lemma fits_apart x0 y0 Rein k S x0' y0' Rein' k' S' P1 P2 F1 F2 : 0 < Rein -> 0 < Rein' -> 0 < k -> 0 < k' -> seen_pair (reduced_deflection_angle_sis x0 y0 Rein 0) x0 y0 k S P1 P2 F1 F2 -> seen_pair (reduced_deflection_angle_point x0' y0' Rein' 0) x0' y0' k' S' P1 P2 F1 F2 -> (x0, y0) <> (x0', y0').
Proof.
  intros H H' K K' T T'. assert (Ne := sis_unequal _ _ _ _ _ _ _ _ _ H K T). destruct (sis_read x0 y0 Rein H k S P1 P2 F1 F2 K T) as (G1 & G2 & _ & _ & X & Y). destruct (point_read x0' y0' Rein' H' k' S' P1 P2 F1 F2 K' T') as (_ & _ & X' & Y' & _). destruct T as (D & _).
  assert (A1 := sqrt_lt_R0 F1 G1). assert (A2 := sqrt_lt_R0 F2 G2). assert (Q1 : sqrt F1 ^ 2 = F1) by (rewrite pow2_sqrt; lra). assert (Q2 : sqrt F2 ^ 2 = F2) by (rewrite pow2_sqrt; lra). set (f1 := sqrt F1) in *. set (f2 := sqrt F2) in *.
  assert (Nf : f1 - f2 <> 0) by (intros Z; apply Ne; rewrite <- Q1, <- Q2; replace f1 with f2 by lra; reflexivity). clearbody f1 f2. subst F1 F2. assert (S1 : 0 < f1 ^ 2) by (apply sq_pos; lra). assert (S2 : 0 < f2 ^ 2) by (apply sq_pos; lra).
  assert (Cf : f1 * f2 * (f1 - f2) / ((f1 ^ 2 + f2 ^ 2) * (f1 + f2)) <> 0). { intros Z. unfold Rdiv in Z. apply Rmult_integral in Z as [Z|Z]; [apply Rmult_integral in Z as [Z|Z]; [nra|contradiction]|]. revert Z. apply Rinv_neq_0_compat. nra. }
  assert (U : forall a b, (f2 * a + f1 * b) / (f1 + f2) - (f2 ^ 2 * a + f1 ^ 2 * b) / (f1 ^ 2 + f2 ^ 2) = f1 * f2 * (f1 - f2) / ((f1 ^ 2 + f2 ^ 2) * (f1 + f2)) * (a - b)) by (intros a b; field; split; lra).
  intros E. assert (E1 := f_equal fst E). assert (E2 := f_equal snd E). cbn [fst snd] in E1, E2. assert (U1 := U (fst P1) (fst P2)). assert (U2 := U (snd P1) (snd P2)). rewrite <- X, <- X', E1 in U1. rewrite <- Y, <- Y', E2 in U2.
  assert (Z1 : fst P1 - fst P2 = 0) by (destruct (Rmult_integral _ _ (eq_sym (eq_trans (eq_sym (Rminus_diag_eq x0' x0' eq_refl)) U1))) as [Z|Z]; [contradiction|exact Z]).
  assert (Z2 : snd P1 - snd P2 = 0) by (destruct (Rmult_integral _ _ (eq_sym (eq_trans (eq_sym (Rminus_diag_eq y0' y0' eq_refl)) U2))) as [Z|Z]; [contradiction|exact Z]).
  apply D. destruct P1 as [a b], P2 as [a' b']. cbn [fst snd] in Z1, Z2. apply f_equal2; lra.
Qed.
