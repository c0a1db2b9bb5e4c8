(** * An elliptical isothermal lens makes at most four images *)
From Coq Require Import Reals Lra Lia Psatz List.
From Coquelicot Require Import Coquelicot.
From Verif Require Import RealFun Calc2 Geo_Model Lens_Lib LensBasic_Model LensBasic_Proofs LensBase_Model First_Spec First_Proofs First2_Proofs First3_Proofs First4_Proofs Round_Proofs Four_Spec.
Import ListNotations.
Local Open Scope R_scope.

(** strictly monotone where the derivative has a sign inside *)
Lemma rises (g g' : R -> R) a b : a < b -> (forall t, is_derive g t (g' t)) -> (forall t, a < t < b -> 0 < g' t) -> g a < g b.
Proof.
  intros L D P. destruct (MVT_cor2 g g' a b L) as (c & E & C); [intros c _; apply is_derive_Reals, D|]. assert (Q := P c C). nra.
Qed.
Lemma falls (g g' : R -> R) a b : a < b -> (forall t, is_derive g t (g' t)) -> (forall t, a < t < b -> g' t < 0) -> g b < g a.
Proof.
  intros L D P. destruct (MVT_cor2 g g' a b L) as (c & E & C); [intros c _; apply is_derive_Reals, D|]. assert (Q := P c C). nra.
Qed.
Lemma atan_gap u v : 0 <= u < v -> atan v - v < atan u - u.
Proof.
  intros [U V]. apply (falls (fun t => atan t - t) (fun t => / (1 + t ^ 2) - 1) u v V).
  - intros t. apply (is_derive_minus atan (fun t => t)); [rewrite <- Rsqr_pow2; apply is_derive_atan|apply (is_derive_id (K := R_AbsRing))].
  - intros t T. assert (P : 0 < t ^ 2) by (apply pow_lt; lra). assert (I : / (1 + t ^ 2) < / 1) by (apply Rinv_lt_contravar; lra). rewrite Rinv_1 in I. lra.
Qed.
Section Four.
Variables q Rein : R.
Hypothesis Hq : 0 < q < 1.
Hypothesis HR : 0 < Rein.
Let f := sqrt (1 - q ^ 2).
Let K := Rein * sqrt q / f.
Let psi (x y : R) := sqrt (q ^ 2 * (x ^ 2 + 0 ^ 2) + y ^ 2).
Let ax (x y : R) := K * atan (f * x / (psi x y + 0)).
Let ay (x y : R) := K * atanh (f * y / (psi x y + q ^ 2 * 0)).
Let S (t : R) := sqrt (q ^ 2 + t ^ 2).
Let A (t : R) := K * atan (f / S t).
Let B (t : R) := K * atanh (f * t / S t).
Let H (t : R) := K * (atan (f / S t) - f / S t).
Lemma f01 : 0 < f < 1. Proof. apply (f_range q Hq). Qed.
Lemma f2 : f ^ 2 = 1 - q ^ 2. Proof. unfold f. rewrite pow2_sqrt; [reflexivity|nra]. Qed.
Lemma K0 : 0 < K. Proof. apply (K_pos q Rein Hq HR). Qed.
Lemma S_sq t : S t ^ 2 = q ^ 2 + t ^ 2. Proof. unfold S. rewrite pow2_sqrt; [reflexivity|assert (P := pow2_ge_0 t); nra]. Qed.
Lemma S_pos t : 0 < S t. Proof. unfold S. apply sqrt_lt_R0. assert (P := pow2_ge_0 t). nra. Qed.
Lemma S_less t u : Rabs t < Rabs u -> S t < S u.
Proof.
  intros L. unfold S. apply sqrt_lt_1_alt. assert (P := pow2_ge_0 t). assert (E : forall t, t ^ 2 = Rabs t ^ 2) by (intros w; rewrite RPow_abs, Rabs_right; [reflexivity|apply Rle_ge, pow2_ge_0]). assert (P' := Rabs_pos t). rewrite (E t) in *. rewrite (E u). nra.
Qed.
Lemma psi_pos_x x y : x <> 0 -> psi x y = Rabs x * S (y / x).
Proof.
  intros N. unfold psi, S. rewrite <- (sqrt_pow2 (Rabs x)) by apply Rabs_pos. assert (Q := pow2_ge_0 (y / x)). rewrite <- sqrt_mult; [|apply pow2_ge_0|nra]. f_equal. rewrite RPow_abs, Rabs_right by (apply Rle_ge, pow2_ge_0). field. exact N.
Qed.
Lemma a_right x y : 0 < x -> ax x y = A (y / x) /\ ay x y = B (y / x).
Proof.
  intros P. assert (Q := S_pos (y / x)). unfold ax, ay, A, B. rewrite psi_pos_x, Rabs_right by lra. rewrite Rmult_0_r, !Rplus_0_r. split; f_equal; f_equal; field; split; lra.
Qed.
Lemma ratio_le t : Rabs (f * t / S t) <= f.
Proof.
  assert (F := f01). assert (P := S_pos t). assert (T : Rabs t <= S t). { rewrite <- sqrt_Rsqr_abs. unfold S. apply sqrt_le_1_alt. rewrite Rsqr_pow2. nra. }
  unfold Rdiv. rewrite !Rabs_mult, (Rabs_right f) by lra. rewrite Rabs_inv, (Rabs_right (S t)) by lra. rewrite Rmult_assoc. rewrite <- (Rmult_1_r f) at 2. apply Rmult_le_compat_l; [lra|].
  apply (Rmult_le_reg_r (S t)); [exact P|]. rewrite Rmult_assoc, Rinv_l by lra. lra.
Qed.
Lemma a_left x y : x < 0 -> ax x y = - A (y / x) /\ ay x y = - B (y / x).
Proof.
  intros P. assert (Q := S_pos (y / x)). assert (L := ratio_le (y / x)). assert (F := f01). apply Rabs_le_between in L. unfold ax, ay, A, B. rewrite psi_pos_x, Rabs_left by lra. rewrite Rmult_0_r, !Rplus_0_r. split.
  - replace (f * x / (- x * S (y / x))) with (- (f / S (y / x))) by (field; split; lra). rewrite atan_opp. ring.
  - replace (f * y / (- x * S (y / x))) with (- (f * (y / x) / S (y / x))) by (field; split; lra). rewrite atanh_odd by lra. ring.
Qed.
Lemma S_derive t : is_derive S t (t / S t).
Proof.
  unfold S. assert (P := pow2_ge_0 t). assert (0 < q ^ 2) by nra. auto_derive; [lra|]. replace (q * (q * 1) + t * (t * 1)) with (q ^ 2 + t ^ 2) by ring. assert (Q := S_pos t). unfold S in Q. field. lra.
Qed.
Lemma A_derive t : is_derive A t (- K * f * t / (S t * (1 + t ^ 2))).
Proof.
  assert (P := S_pos t). assert (Q := S_sq t). assert (F := f2). assert (T := pow2_ge_0 t).
  replace (- K * f * t / (S t * (1 + t ^ 2))) with (K * (- f * t / (S t) ^ 3 * / (1 + (f / S t) ^ 2))).
  - unfold A. apply (is_derive_scal (fun t => atan (f / S t))). apply (is_derive_comp atan (fun t => f / S t)); [rewrite <- Rsqr_pow2; apply is_derive_atan|].
    evar (l : R). assert (D : is_derive (fun t => f / S t) t l); [unfold l; apply (is_derive_scal (fun t => / S t)); apply (is_derive_inv S); [apply S_derive|lra]|]. replace (- f * t / S t ^ 3) with l; [exact D|]. unfold l. field. lra.
  - replace (1 + (f / S t) ^ 2) with ((1 + t ^ 2) / S t ^ 2). { field. lra. } replace (1 + t ^ 2) with (S t ^ 2 + f ^ 2) by lra. field. lra.
Qed.
Lemma B_derive t : is_derive B t (K * f / (S t * (1 + t ^ 2))).
Proof.
  assert (P := S_pos t). assert (Q := S_sq t). assert (F := f2). assert (T := pow2_ge_0 t). assert (L := ratio_le t). assert (F1 := f01). apply Rabs_le_between in L.
  assert (N : 1 - (f * t / S t) ^ 2 = q ^ 2 * (1 + t ^ 2) / S t ^ 2). { replace (1 - (f * t / S t) ^ 2) with ((S t ^ 2 - f ^ 2 * t ^ 2) / S t ^ 2) by (field; lra). f_equal. rewrite Q, F. ring. }
  replace (K * f / (S t * (1 + t ^ 2))) with (K * (f * q ^ 2 / S t ^ 3 * / (1 - (f * t / S t) ^ 2))) by (rewrite N; field; repeat split; nra).
  unfold B. apply (is_derive_scal (fun t => atanh (f * t / S t))). apply (is_derive_comp atanh (fun t => f * t / S t)); [apply is_derive_atanh; lra|].
  assert (D := is_derive_mult (fun t => f * t) (fun t => / S t) t f (- (t / S t) / S t ^ 2) ltac:(auto_derive; auto; ring) ltac:(apply (is_derive_inv S); [apply S_derive|lra]) Rmult_comm).
  unfold plus, mult in D. simpl in D. unfold Rdiv at 1. replace (f * q ^ 2 / S t ^ 3) with (f * / S t + f * t * (- (t / S t) / (S t * (S t * 1)))); [exact D|]. replace (q ^ 2) with (S t ^ 2 - t ^ 2) by lra. field. lra.
Qed.
Lemma H_less t u : Rabs t < Rabs u -> H t < H u.
Proof.
  intros L. unfold H. apply Rmult_lt_compat_l; [exact K0|]. assert (F := f01). assert (P := S_pos t). assert (Q := S_less t u L). apply atan_gap. split; [apply Rlt_le, Rdiv_lt_0_compat; lra|]. apply Rmult_lt_compat_l; [lra|]. apply Rinv_lt_contravar; [apply Rmult_lt_0_compat; lra|exact Q].
Qed.
Lemma H_neg t : H t < 0.
Proof.
  unfold H. assert (F := f01). assert (P := S_pos t). assert (G := atan_gap 0 (f / S t) (conj (Rle_refl _) (Rdiv_lt_0_compat _ _ (proj1 F) P))). rewrite atan_0 in G. assert (Kp := K0). nra.
Qed.
Variables bx by_ : R.
(** images to the right (e = 1) and to the left (e = -1) along the slope t *)
Let G (e t : R) := t * (bx + e * A t) - (by_ + e * B t).
Lemma G_derive e t : is_derive (G e) t (bx + e * H t).
Proof.
  assert (P := S_pos t). assert (T := pow2_ge_0 t).
  assert (D1 : is_derive (fun t => bx + e * A t) t (e * (- K * f * t / (S t * (1 + t ^ 2))))).
  { assert (D := is_derive_plus (fun _ => bx) (fun t => e * A t) t 0 _ (is_derive_const (K := R_AbsRing) (V := R_NormedModule) bx t) (is_derive_scal A t e _ (A_derive t))). unfold plus in D. simpl in D. rewrite Rplus_0_l in D. exact D. }
  assert (D2 : is_derive (fun t => by_ + e * B t) t (e * (K * f / (S t * (1 + t ^ 2))))).
  { assert (D := is_derive_plus (fun _ => by_) (fun t => e * B t) t 0 _ (is_derive_const (K := R_AbsRing) (V := R_NormedModule) by_ t) (is_derive_scal B t e _ (B_derive t))). unfold plus in D. simpl in D. rewrite Rplus_0_l in D. exact D. }
  assert (D3 := is_derive_mult (fun t => t) (fun t => bx + e * A t) t 1 _ (is_derive_id (K := R_AbsRing) t) D1 Rmult_comm). assert (D4 := is_derive_minus _ _ t _ _ D3 D2). unfold minus, plus, opp, mult in D4. simpl in D4.
  replace (bx + e * H t) with (1 * (bx + e * A t) + t * (e * (- K * f * t / (S t * (1 + t * (t * 1))))) + - (e * (K * f / (S t * (1 + t * (t * 1)))))); [exact D4|]. unfold H, A. field. split; [nra|lra].
Qed.
Definition lab (p : R * R) : nat :=
  let t := snd p / fst p in
  if Rlt_dec 0 (fst p) then (if Rle_dec (bx + 1 * H t) 0 then 1 else if Rle_dec 0 t then 2 else 3)%nat
  else if Rlt_dec (fst p) 0 then (if Rle_dec 0 (bx + -1 * H t) then 4 else if Rle_dec 0 t then 5 else 6)%nat
  else (if Rlt_dec 0 (snd p) then 7 else 8)%nat.
Let hit (p : R * R) : Prop := (fst p <> 0 \/ snd p <> 0) /\ fst p - ax (fst p) (snd p) = bx /\ snd p - ay (fst p) (snd p) = by_.
Lemma hit_G e p : hit p -> (e = 1 /\ 0 < fst p \/ e = -1 /\ fst p < 0) -> G e (snd p / fst p) = 0 /\ fst p = bx + e * A (snd p / fst p) /\ snd p = by_ + e * B (snd p / fst p).
Proof.
  intros (N & X & Y) E. assert (XE : fst p = bx + e * A (snd p / fst p) /\ snd p = by_ + e * B (snd p / fst p) /\ fst p <> 0).
  { destruct E as [[-> P]|[-> P]]; [destruct (a_right _ (snd p) P) as [U V]|destruct (a_left _ (snd p) P) as [U V]]; rewrite U in X; rewrite V in Y; repeat split; lra. }
  destruct XE as (X' & Y' & Nz). split; [|split; assumption]. unfold G. rewrite <- X', <- Y'. field. exact Nz.
Qed.
Lemma same_slope e p r : hit p -> hit r -> (e = 1 /\ 0 < fst p \/ e = -1 /\ fst p < 0) -> (e = 1 /\ 0 < fst r \/ e = -1 /\ fst r < 0) -> snd p / fst p = snd r / fst r -> p = r.
Proof.
  intros Hp Hr Ep Er E. destruct (hit_G e p Hp Ep) as (_ & X & Y). destruct (hit_G e r Hr Er) as (_ & X' & Y'). rewrite E in X, Y. rewrite (surjective_pairing p), (surjective_pairing r). f_equal; lra.
Qed.
(** two zeros of G between which the derivative has a sign *)
Lemma no_two e p r : hit p -> hit r -> (e = 1 /\ 0 < fst p \/ e = -1 /\ fst p < 0) -> (e = 1 /\ 0 < fst r \/ e = -1 /\ fst r < 0) ->
  ((forall t, Rmin (snd p / fst p) (snd r / fst r) < t < Rmax (snd p / fst p) (snd r / fst r) -> 0 < bx + e * H t) \/ (forall t, Rmin (snd p / fst p) (snd r / fst r) < t < Rmax (snd p / fst p) (snd r / fst r) -> bx + e * H t < 0)) -> p = r.
Proof.
  intros Hp Hr Ep Er Si. apply (same_slope e); try assumption. destruct (hit_G e p Hp Ep) as (Z & _). destruct (hit_G e r Hr Er) as (Z' & _). set (a := snd p / fst p) in *. set (b := snd r / fst r) in *. clearbody a b.
  destruct (Rtotal_order a b) as [L|[L|L]]; [exfalso|exact L|exfalso].
  - rewrite Rmin_left, Rmax_right in Si by lra. destruct Si as [Si|Si]; [assert (Q := rises (G e) _ a b L (G_derive e) Si)|assert (Q := falls (G e) _ a b L (G_derive e) Si)]; lra.
  - rewrite Rmin_right, Rmax_left in Si by lra. destruct Si as [Si|Si]; [assert (Q := rises (G e) _ b a L (G_derive e) Si)|assert (Q := falls (G e) _ b a L (G_derive e) Si)]; lra.
Qed.
Lemma between_abs a b t : Rmin a b < t < Rmax a b -> Rabs t < Rabs a \/ Rabs t < Rabs b.
Proof. unfold Rmin, Rmax, Rabs. destruct (Rle_dec a b), (Rcase_abs t), (Rcase_abs a), (Rcase_abs b); lra. Qed.
Lemma between_pos a b t : 0 <= a -> 0 <= b -> Rmin a b < t < Rmax a b -> Rabs a < Rabs t \/ Rabs b < Rabs t.
Proof. intros P Q. unfold Rmin, Rmax. rewrite (Rabs_right a), (Rabs_right b) by lra. intros T. rewrite Rabs_right by (destruct (Rle_dec a b); lra). destruct (Rle_dec a b); lra. Qed.
Lemma between_neg a b t : a < 0 -> b < 0 -> Rmin a b < t < Rmax a b -> Rabs a < Rabs t \/ Rabs b < Rabs t.
Proof. intros P Q. unfold Rmin, Rmax. rewrite (Rabs_left a), (Rabs_left b) by lra. intros T. rewrite Rabs_left by (destruct (Rle_dec a b); lra). destruct (Rle_dec a b); lra. Qed.
Lemma lab_inj p r : hit p -> hit r -> lab p = lab r -> p = r.
Proof.
  intros Hp Hr. unfold lab. cbv zeta. set (t := snd p / fst p). set (u := snd r / fst r).
  destruct (Rlt_dec 0 (fst p)) as [P|P]; [|destruct (Rlt_dec (fst p) 0) as [P'|P']].
  - assert (Ep : 1 = 1 /\ 0 < fst p \/ 1 = -1 /\ fst p < 0) by (left; split; [reflexivity|exact P]).
    destruct (Rlt_dec 0 (fst r)) as [Q|Q]; [|destruct (Rlt_dec (fst r) 0); repeat destruct (Rle_dec _ _); try destruct (Rlt_dec 0 (snd r)); discriminate].
    assert (Er : 1 = 1 /\ 0 < fst r \/ 1 = -1 /\ fst r < 0) by (left; split; [reflexivity|exact Q]).
    destruct (Rle_dec (bx + 1 * H t) 0) as [C|C], (Rle_dec (bx + 1 * H u) 0) as [D|D]; try (destruct (Rle_dec 0 t); discriminate); try (destruct (Rle_dec 0 u); discriminate).
    + intros _. apply (no_two 1 p r Hp Hr Ep Er). right. fold t u. intros s Hs. destruct (between_abs _ _ _ Hs) as [L|L]; apply H_less in L; lra.
    + destruct (Rle_dec 0 t) as [T|T], (Rle_dec 0 u) as [U|U]; try discriminate; intros _; apply (no_two 1 p r Hp Hr Ep Er); left; fold t u; intros s Hs;
        [destruct (between_pos _ _ _ T U Hs) as [L|L]|destruct (between_neg _ _ _ (Rnot_le_lt _ _ T) (Rnot_le_lt _ _ U) Hs) as [L|L]]; apply H_less in L; lra.
  - assert (Ep : -1 = 1 /\ 0 < fst p \/ -1 = -1 /\ fst p < 0) by (right; split; [reflexivity|exact P']).
    destruct (Rlt_dec 0 (fst r)) as [Q|Q]; [repeat destruct (Rle_dec _ _); discriminate|]. destruct (Rlt_dec (fst r) 0) as [Q'|Q']; [|repeat destruct (Rle_dec _ _); destruct (Rlt_dec 0 (snd r)); discriminate].
    assert (Er : -1 = 1 /\ 0 < fst r \/ -1 = -1 /\ fst r < 0) by (right; split; [reflexivity|exact Q']).
    destruct (Rle_dec 0 (bx + -1 * H t)) as [C|C], (Rle_dec 0 (bx + -1 * H u)) as [D|D]; try (destruct (Rle_dec 0 t); discriminate); try (destruct (Rle_dec 0 u); discriminate).
    + intros _. apply (no_two (-1) p r Hp Hr Ep Er). left. fold t u. intros s Hs. destruct (between_abs _ _ _ Hs) as [L|L]; apply H_less in L; lra.
    + destruct (Rle_dec 0 t) as [T|T], (Rle_dec 0 u) as [U|U]; try discriminate; intros _; apply (no_two (-1) p r Hp Hr Ep Er); right; fold t u; intros s Hs;
        [destruct (between_pos _ _ _ T U Hs) as [L|L]|destruct (between_neg _ _ _ (Rnot_le_lt _ _ T) (Rnot_le_lt _ _ U) Hs) as [L|L]]; apply H_less in L; lra.
  - destruct (Rlt_dec 0 (fst r)) as [Q|Q]; [destruct (Rlt_dec 0 (snd p)); repeat destruct (Rle_dec _ _); discriminate|]. destruct (Rlt_dec (fst r) 0) as [Q'|Q']; [destruct (Rlt_dec 0 (snd p)); repeat destruct (Rle_dec _ _); discriminate|].
    assert (X : fst p = 0) by lra. assert (X' : fst r = 0) by lra. destruct Hp as (N & _ & Y). destruct Hr as (N' & _ & Y'). rewrite X in N, Y. rewrite X' in N', Y'. intros E.
    assert (W : forall v, v <> 0 -> ay 0 v = K * atanh (f * (v / Rabs v))).
    { intros v V. unfold ay, psi. rewrite Rmult_0_r, Rplus_0_r. replace (q ^ 2 * (0 ^ 2 + 0 ^ 2) + v ^ 2) with (Rsqr v) by (unfold Rsqr; ring). rewrite sqrt_Rsqr_abs. f_equal. f_equal. field. apply Rabs_no_R0, V. }
    assert (V : snd p <> 0) by tauto. assert (V' : snd r <> 0) by tauto. rewrite (W _ V) in Y. rewrite (W _ V') in Y'.
    assert (Sg : snd p / Rabs (snd p) = snd r / Rabs (snd r)).
    { destruct (Rlt_dec 0 (snd p)) as [a|a], (Rlt_dec 0 (snd r)) as [b|b]; try discriminate.
      - rewrite !Rabs_right by lra. field. lra.
      - rewrite !Rabs_left by lra. field. lra. }
    rewrite Sg in Y. rewrite (surjective_pairing p), (surjective_pairing r). f_equal; lra.
Qed.
Lemma lab_four p : hit p -> In (lab p) (if Rlt_dec 0 bx then [1; 2; 3; 4] else if Rlt_dec bx 0 then [1; 4; 5; 6] else [1; 4; 7; 8])%nat.
Proof.
  intros Hp. unfold lab. cbv zeta. assert (N := H_neg (snd p / fst p)). set (t := snd p / fst p) in *.
  assert (Ax : fst p = 0 -> bx = 0). { intros E. destruct Hp as (_ & X & _). unfold ax in X. rewrite E in X. unfold Rdiv in X. rewrite Rmult_0_r, Rmult_0_l, atan_0 in X. lra. }
  destruct (Rlt_dec 0 bx) as [b|b]; [|destruct (Rlt_dec bx 0) as [c|c]].
  - destruct (Rlt_dec 0 (fst p)); [repeat destruct (Rle_dec _ _); cbn; tauto|]. destruct (Rlt_dec (fst p) 0); [|exfalso; assert (bx = 0) by (apply Ax; lra); lra]. destruct (Rle_dec 0 (bx + -1 * H t)); [cbn; tauto|exfalso; lra].
  - destruct (Rlt_dec 0 (fst p)); [destruct (Rle_dec (bx + 1 * H t) 0); [cbn; tauto|exfalso; lra]|]. destruct (Rlt_dec (fst p) 0); [|exfalso; assert (bx = 0) by (apply Ax; lra); lra]. repeat destruct (Rle_dec _ _); cbn; tauto.
  - destruct (Rlt_dec 0 (fst p)); [destruct (Rle_dec (bx + 1 * H t) 0); [cbn; tauto|exfalso; lra]|]. destruct (Rlt_dec (fst p) 0); [destruct (Rle_dec 0 (bx + -1 * H t)); [cbn; tauto|exfalso; lra]|]. destruct (Rlt_dec 0 (snd p)); cbn; tauto.
Qed.
Lemma at_most_four l : NoDup l -> (forall p, In p l -> hit p) -> (length l <= 4)%nat.
Proof.
  intros N I. rewrite <- (map_length lab). set (four := (if Rlt_dec 0 bx then [1; 2; 3; 4] else if Rlt_dec bx 0 then [1; 4; 5; 6] else [1; 4; 7; 8])%nat).
  assert (L4 : length four = 4%nat) by (unfold four; destruct (Rlt_dec 0 bx); [|destruct (Rlt_dec bx 0)]; reflexivity). rewrite <- L4. apply NoDup_incl_length.
  - clear four L4. induction N as [|p l P N IH]; cbn [map]; constructor; [|apply IH; intros r J; apply I; right; exact J]. intros J. apply in_map_iff in J. destruct J as (r & E & J). apply P. rewrite <- (lab_inj r p); [exact J|apply I; right; exact J|apply I; left; reflexivity|exact E].
  - intros n J. apply in_map_iff in J. destruct J as (p & <- & J). apply lab_four, I, J.
Qed.
End Four.
(** ** any position and orientation *)
Definition frame (x0 y0 phi : R) (p : R * R) : R * R := ((fst p - x0) * cos phi + (snd p - y0) * sin phi, (snd p - y0) * cos phi - (fst p - x0) * sin phi).
Lemma frame_along x0 y0 phi p : along x0 y0 phi (fst (frame x0 y0 phi p)) (snd (frame x0 y0 phi p)) = p.
Proof.
  assert (U := sin2_cos2 phi). unfold Rsqr in U. rewrite (surjective_pairing p) at 3. unfold along, frame. cbn [fst snd]. f_equal.
  - transitivity (x0 + (fst p - x0) * (sin phi * sin phi + cos phi * cos phi)); [ring|rewrite U; ring].
  - transitivity (y0 + (snd p - y0) * (sin phi * sin phi + cos phi * cos phi)); [ring|rewrite U; ring].
Qed.
Lemma along_frame x0 y0 phi u v : frame x0 y0 phi (along x0 y0 phi u v) = (u, v).
Proof.
  assert (U := sin2_cos2 phi). unfold Rsqr in U. unfold along, frame. cbn [fst snd]. f_equal.
  - transitivity (u * (sin phi * sin phi + cos phi * cos phi)); [ring|rewrite U; ring].
  - transitivity (v * (sin phi * sin phi + cos phi * cos phi)); [ring|rewrite U; ring].
Qed.
Lemma frame_inj x0 y0 phi p r : frame x0 y0 phi p = frame x0 y0 phi r -> p = r.
Proof. intros H. rewrite <- (frame_along x0 y0 phi p), <- (frame_along x0 y0 phi r), H. reflexivity. Qed.
Lemma frame_off x0 y0 phi p : (fst p <> x0 \/ snd p <> y0) <-> (fst (frame x0 y0 phi p) <> 0 \/ snd (frame x0 y0 phi p) <> 0).
Proof.
  assert (U := sin2_cos2 phi). unfold Rsqr in U.
  assert (E : fst (frame x0 y0 phi p) ^ 2 + snd (frame x0 y0 phi p) ^ 2 = (fst p - x0) ^ 2 + (snd p - y0) ^ 2).
  { unfold frame. cbn [fst snd]. transitivity (((fst p - x0) ^ 2 + (snd p - y0) ^ 2) * (sin phi * sin phi + cos phi * cos phi)); [ring|rewrite U; ring]. }
  set (a := fst (frame x0 y0 phi p)) in *. set (b := snd (frame x0 y0 phi p)) in *. clearbody a b.
  assert (Z : forall u v : R, u ^ 2 + v ^ 2 = 0 -> u = 0 /\ v = 0). { intros u v H. assert (A := pow2_ge_0 u). assert (B := pow2_ge_0 v). split; apply Rsqr_0_uniq; rewrite Rsqr_pow2; lra. }
  split; intros H.
  - destruct (Req_dec a 0) as [A|A]; [|left; exact A]. destruct (Req_dec b 0) as [B|B]; [|right; exact B]. exfalso. rewrite A, B in E. destruct (Z (fst p - x0) (snd p - y0)) as [C D]; [lra|]. lra.
  - destruct (Req_dec (fst p) x0) as [A|A]; [|left; exact A]. destruct (Req_dec (snd p) y0) as [B|B]; [|right; exact B]. exfalso. rewrite A, B in E. destruct (Z a b) as [C D]; [rewrite E; ring|]. lra.
Qed.
Definition used_q (q : R) : R := if Req_EM_T q 1 then q - 1 / 10 ^ 6 else q.
Lemma used_range q : 0 < q <= 1 -> 0 < used_q q < 1.
Proof. intros H. unfold used_q. destruct (Req_EM_T q 1); lra. Qed.
Section Seen.
Variables x0 y0 q phi Rein bx by_ : R.
Let q' := used_q q.
Let f := sqrt (1 - q' ^ 2).
Let K := Rein * sqrt q' / f.
Let psi (x y : R) := sqrt (q' ^ 2 * (x ^ 2 + 0 ^ 2) + y ^ 2).
Let ax (x y : R) := K * atan (f * x / (psi x y + 0)).
Let ay (x y : R) := K * atanh (f * y / (psi x y + q' ^ 2 * 0)).
Let hit (p : R * R) : Prop := (fst p <> 0 \/ snd p <> 0) /\ fst p - ax (fst p) (snd p) = fst (frame x0 y0 phi (bx, by_)) /\ snd p - ay (fst p) (snd p) = snd (frame x0 y0 phi (bx, by_)).
Lemma seen_hit p : seen_at x0 y0 q phi Rein bx by_ p <-> hit (frame x0 y0 phi p).
Proof.
  unfold seen_at, hit. rewrite (frame_off x0 y0 phi p). set (X := fst (frame x0 y0 phi p)). set (Y := snd (frame x0 y0 phi p)).
  assert (E : reduced_deflection_angle_sie x0 y0 q phi Rein 0 (fst p) (snd p) = derotate (ax X Y) (ay X Y) (Some phi)) by reflexivity.
  unfold raytrace. rewrite E. unfold derotate. cbv zeta. assert (U := sin2_cos2 phi). unfold Rsqr in U. set (a := ax X Y). set (b := ay X Y). clearbody a b. clear E.
  assert (XE : X = (fst p - x0) * cos phi + (snd p - y0) * sin phi) by reflexivity. assert (YE : Y = (snd p - y0) * cos phi - (fst p - x0) * sin phi) by reflexivity. clearbody X Y. unfold frame. cbn [fst snd].
  split; intros [N H]; (split; [exact N|]).
  - injection H as H1 H2. rewrite XE, YE, <- H1, <- H2. split.
    + transitivity ((fst p - x0) * cos phi + (snd p - y0) * sin phi - a * (sin phi * sin phi + cos phi * cos phi)); [rewrite U; ring|ring].
    + transitivity ((snd p - y0) * cos phi - (fst p - x0) * sin phi - b * (sin phi * sin phi + cos phi * cos phi)); [rewrite U; ring|ring].
  - destruct H as [H1 H2]. rewrite XE in H1. rewrite YE in H2. assert (A : a = (fst p - bx) * cos phi + (snd p - by_) * sin phi) by lra. assert (B : b = (snd p - by_) * cos phi - (fst p - bx) * sin phi) by lra. rewrite A, B. f_equal.
    + transitivity (fst p - (fst p - bx) * (sin phi * sin phi + cos phi * cos phi)); [ring|rewrite U; ring].
    + transitivity (snd p - (snd p - by_) * (sin phi * sin phi + cos phi * cos phi)); [ring|rewrite U; ring].
Qed.
Hypothesis Hq : 0 < q <= 1.
Hypothesis HR : 0 < Rein.
Lemma four l : NoDup l -> (forall p, In p l -> seen_at x0 y0 q phi Rein bx by_ p) -> (length l <= 4)%nat.
Proof.
  intros N I. rewrite <- (map_length (frame x0 y0 phi)). apply (at_most_four q' Rein (used_range q Hq) HR (fst (frame x0 y0 phi (bx, by_))) (snd (frame x0 y0 phi (bx, by_)))).
  - clear I. induction N as [|p l P N IH]; cbn [map]; constructor; [|exact IH]. intros J. apply in_map_iff in J. destruct J as (r & E & J). apply frame_inj in E. subst r. exact (P J).
  - intros p J. apply in_map_iff in J. destruct J as (r & <- & J). apply (proj1 (seen_hit r)), I, J.
Qed.
End Seen.
(** ** the source behind the centre *)
Section Centre.
Variables x0 y0 q phi Rein : R.
Hypothesis Hq : 0 < q < 1.
Hypothesis HR : 0 < Rein.
Let f := sqrt (1 - q ^ 2).
Let a := Rein * sqrt q / f * atan (f / q).
Let b := Rein * sqrt q / f * atanh f.
Let cross := [along x0 y0 phi a 0; along x0 y0 phi (- a) 0; along x0 y0 phi 0 b; along x0 y0 phi 0 (- b)].
Lemma a_pos : 0 < a /\ 0 < b.
Proof.
  assert (F := f_range q Hq). assert (KP := K_pos q Rein Hq HR). fold f in F. split; apply Rmult_lt_0_compat; try exact KP.
  - rewrite <- atan_0. apply atan_increasing. apply Rdiv_lt_0_compat; lra.
  - unfold atanh. apply Rmult_lt_0_compat; [lra|]. rewrite <- ln_1. apply ln_increasing; [lra|]. apply (Rmult_lt_reg_r (1 - f)); [lra|]. unfold Rdiv. rewrite Rmult_assoc, Rinv_l by lra. lra.
Qed.
Lemma cross_seen p : In p cross -> seen_at x0 y0 q phi Rein x0 y0 p.
Proof.
  destruct a_pos as [A B]. assert (F := f_range q Hq). fold f in F. intros I. apply seen_hit.
  assert (E : used_q q = q) by (unfold used_q; destruct (Req_EM_T q 1); [lra|reflexivity]). rewrite E. fold f.
  assert (C : frame x0 y0 phi (x0, y0) = (0, 0)) by (unfold frame; cbn [fst snd]; f_equal; ring). rewrite C. cbn [fst snd].
  assert (W1 : forall u, sqrt (q ^ 2 * (u ^ 2 + 0 ^ 2) + 0 ^ 2) = q * Rabs u). { intros u. replace (q ^ 2 * (u ^ 2 + 0 ^ 2) + 0 ^ 2) with (Rsqr (q * u)) by (unfold Rsqr; ring). rewrite sqrt_Rsqr_abs, Rabs_mult, (Rabs_right q) by lra. reflexivity. }
  assert (W2 : forall v, sqrt (q ^ 2 * (0 ^ 2 + 0 ^ 2) + v ^ 2) = Rabs v). { intros v. replace (q ^ 2 * (0 ^ 2 + 0 ^ 2) + v ^ 2) with (Rsqr v) by (unfold Rsqr; ring). apply sqrt_Rsqr_abs. }
  assert (T0 : atanh 0 = 0) by (unfold atanh; replace ((1 + 0) / (1 - 0)) with 1 by field; rewrite ln_1; ring).
  assert (Z : forall w, f * 0 / w = 0) by (intros w; unfold Rdiv; ring).
  destruct I as [<-|[<-|[<-|[<-|[]]]]]; rewrite along_frame; cbn [fst snd]; (split; [lra|]); rewrite ?W1, ?W2, !Z, ?atan_0, ?T0, ?Rmult_0_r, ?Rplus_0_r; rewrite ?(Rabs_Ropp), ?(Rabs_right a), ?(Rabs_right b) by lra.
  - replace (f * a / (q * a)) with (f / q) by (field; lra). fold a. split; lra.
  - replace (f * - a / (q * a)) with (- (f / q)) by (field; lra). rewrite atan_opp. split; [|lra]. unfold a. ring.
  - replace (f * b / b) with f by (field; lra). fold b. split; lra.
  - replace (f * - b / b) with (- f) by (field; lra). rewrite atanh_odd by lra. split; [lra|]. unfold b. ring.
Qed.
Lemma cross_nodup : NoDup cross.
Proof.
  destruct a_pos as [A B].
  assert (D : forall u v u' v', along x0 y0 phi u v = along x0 y0 phi u' v' -> u = u' /\ v = v'). { intros u v u' v' E. apply (f_equal (frame x0 y0 phi)) in E. rewrite !along_frame in E. injection E as E1 E2. split; assumption. }
  unfold cross. repeat constructor; cbn [In]; intros H; repeat (destruct H as [H|H]; [apply D in H; lra|]); exact H.
Qed.
Lemma cross_exact p : seen_at x0 y0 q phi Rein x0 y0 p <-> In p cross.
Proof.
  split; [|apply cross_seen]. intros S. assert (Dec : forall u v : R * R, {u = v} + {u <> v}). { intros [u1 u2] [v1 v2]. destruct (Req_EM_T u1 v1) as [->|N]; [destruct (Req_EM_T u2 v2) as [->|N]; [left; reflexivity|right; congruence]|right; congruence]. }
  destruct (in_dec Dec p cross) as [I|I]; [exact I|exfalso].
  assert (L := four x0 y0 q phi Rein x0 y0 ltac:(lra) HR (p :: cross) (NoDup_cons p I cross_nodup)). cbn [length cross] in L. enough (5 <= 4)%nat by lia. apply L. intros r [<-|J]; [exact S|apply cross_seen, J].
Qed.
End Centre.
Lemma centre_four x0 y0 q phi Rein : 0 < q < 1 -> 0 < Rein -> let f := sqrt (1 - q ^ 2) in let a := Rein * sqrt q / f * atan (f / q) in let b := Rein * sqrt q / f * atanh f in
  let cross := [along x0 y0 phi a 0; along x0 y0 phi (- a) 0; along x0 y0 phi 0 b; along x0 y0 phi 0 (- b)] in NoDup cross /\ forall p, seen_at x0 y0 q phi Rein x0 y0 p <-> In p cross.
Proof. intros Hq HR f a b cross. split; [exact (cross_nodup x0 y0 q phi Rein Hq HR)|exact (cross_exact x0 y0 q phi Rein Hq HR)]. Qed.
(** ** a round lens, as the code computes it *)
Lemma round_shift x0 y0 phi Rein bx by_ p : seen_at x0 y0 1 phi Rein bx by_ p <-> seen_at x0 y0 (1 - / 1000000) phi Rein bx by_ p.
Proof.
  unfold seen_at. assert (E : reduced_deflection_angle_sie x0 y0 1 phi Rein 0 = reduced_deflection_angle_sie x0 y0 (1 - / 1000000) phi Rein 0); [|rewrite E; tauto].
  apply FunctionalExtensionality.functional_extensionality. intros x. apply FunctionalExtensionality.functional_extensionality. intros y. unfold reduced_deflection_angle_sie.
  destruct (Req_EM_T 1 1) as [_|N]; [|lra]. destruct (Req_EM_T (1 - / 1000000) 1) as [N|_]; [lra|]. replace (1 - 1 / 10 ^ 6) with (1 - / 1000000) by lra. reflexivity.
Qed.
Lemma round_four x0 y0 phi Rein : 0 < Rein -> exists l, length l = 4%nat /\ NoDup l /\ forall p, seen_at x0 y0 1 phi Rein x0 y0 p <-> In p l.
Proof.
  intros HR. destruct (centre_four x0 y0 (1 - / 1000000) phi Rein ltac:(lra) HR) as [N E]. eexists. split; [|split; [exact N|]]; [reflexivity|]. intros p. rewrite round_shift. apply E.
Qed.
