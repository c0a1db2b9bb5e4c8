(** * Proofs for C143: how many images a source on an axis of an SIE has *)
From Coq Require Import Reals Lra Lia Psatz List.
From Coquelicot Require Import Coquelicot.
From Verif Require Import RealFun LensBasic_Model LensBase_Model First_Spec LensBasic_Proofs Round_Proofs First3_Proofs First4_Proofs Four_Spec Four_Proofs Cross_Proofs.
Import ListNotations.
Local Open Scope R_scope.

Lemma atan_low x : 0 < x -> x / (1 + x ^ 2) < atan x.
Proof.
  intros X. assert (E := rises (fun t => atan t - t / (1 + t ^ 2)) (fun t => 2 * t ^ 2 / (1 + t ^ 2) ^ 2) 0 x X). cbv beta in E. rewrite atan_0 in E.
  assert (Z : 0 / (1 + 0 ^ 2) = 0) by (unfold Rdiv; ring). rewrite Z in E. enough (0 - 0 < atan x - x / (1 + x ^ 2)) by lra. apply E.
  - intros t. assert (T := pow2_ge_0 t). cbn [pow] in T. auto_derive; [lra|]. field. lra.
  - intros t Ht. assert (0 < t ^ 2) by (apply pow_lt; lra). apply Rdiv_lt_0_compat; [lra|apply pow_lt; lra].
Qed.
Lemma atanh_rises u v : 0 <= u -> u < v -> v < 1 -> atanh u < atanh v.
Proof.
  intros U L V. unfold atanh. apply Rmult_lt_compat_l; [lra|]. apply ln_increasing; [apply Rdiv_lt_0_compat; lra|].
  apply (Rmult_lt_reg_r ((1 - u) * (1 - v))); [apply Rmult_lt_0_compat; lra|]. replace ((1 + u) / (1 - u) * ((1 - u) * (1 - v))) with ((1 + u) * (1 - v)) by (field; lra). replace ((1 + v) / (1 - v) * ((1 - u) * (1 - v))) with ((1 + v) * (1 - u)) by (field; lra). lra.
Qed.
Section Axis.
Variables q Rein : R.
Hypothesis Hq : 0 < q < 1.
Hypothesis HR : 0 < Rein.
Let f := sqrt (1 - q ^ 2).
Let K := Rein * sqrt q / f.
Let psi (x y : R) := sqrt (q ^ 2 * (x ^ 2 + 0 ^ 2) + y ^ 2).
Let ax (x y : R) := K * atan (f * x / (psi x y + 0)).
Let ay (x y : R) := K * atanh (f * y / (psi x y + q ^ 2 * 0)).
Let S (t : R) := sqrt (q ^ 2 + t ^ 2).
Let A (t : R) := K * atan (f / S t).
Let B (t : R) := K * atanh (f * t / S t).
Let H (t : R) := K * (atan (f / S t) - f / S t).
Let G (bx by_ e t : R) := t * (bx + e * A t) - (by_ + e * B t).
Let hit (bx by_ : R) (p : R * R) : Prop := (fst p <> 0 \/ snd p <> 0) /\ fst p - ax (fst p) (snd p) = bx /\ snd p - ay (fst p) (snd p) = by_.
Lemma aF : 0 < f < 1. Proof. exact (f01 q Hq). Qed.
Lemma aK : 0 < K. Proof. exact (K0 q Rein Hq HR). Qed.
Lemma aS t : 0 < S t. Proof. exact (S_pos q Hq t). Qed.
Lemma aG bx by_ e t : is_derive (G bx by_ e) t (bx + e * H t). Proof. exact (G_derive q Rein Hq bx by_ e t). Qed.
Lemma aHneg t : H t < 0. Proof. exact (H_neg q Rein Hq HR t). Qed.
Lemma aHless t u : Rabs t < Rabs u -> H t < H u. Proof. exact (H_less q Rein Hq HR t u). Qed.
Lemma A_even t : A (- t) = A t. Proof. unfold A, S. replace ((- t) ^ 2) with (t ^ 2) by ring. reflexivity. Qed.
Lemma S_even t : S (- t) = S t. Proof. unfold S. replace ((- t) ^ 2) with (t ^ 2) by ring. reflexivity. Qed.
Lemma aR t : Rabs (f * t / S t) <= f. Proof. exact (ratio_le q Hq t). Qed.
Lemma B_odd t : B (- t) = - B t.
Proof. unfold B. rewrite S_even. assert (L := aR t). assert (F := aF). apply Rabs_le_between in L. replace (f * - t / S t) with (- (f * t / S t)) by (unfold Rdiv; ring). rewrite atanh_odd by lra. ring. Qed.
Lemma A_pos t : 0 < A t.
Proof. unfold A. apply Rmult_lt_0_compat; [exact aK|]. rewrite <- atan_0. apply atan_increasing, Rdiv_lt_0_compat; [apply aF|apply aS]. Qed.
Lemma S_0 : S 0 = q. Proof. unfold S. replace (q ^ 2 + 0 ^ 2) with (Rsqr q) by (unfold Rsqr; ring). apply sqrt_Rsqr. lra. Qed.
Lemma A_0 : A 0 = K * atan (f / q). Proof. unfold A. rewrite S_0. reflexivity. Qed.
Lemma B_0 : B 0 = 0. Proof. unfold B. replace (f * 0 / S 0) with 0 by (unfold Rdiv; ring). rewrite atanh_zero. ring. Qed.
Lemma B_pos t : 0 < t -> 0 < B t.
Proof.
  intros T. unfold B. apply Rmult_lt_0_compat; [exact aK|]. assert (P := aS t). assert (F := aF). rewrite <- atanh_zero. apply atanh_rises; [lra|apply Rdiv_lt_0_compat; [apply Rmult_lt_0_compat; lra|exact P]|].
  assert (L := aR t). apply Rabs_le_between in L. lra.
Qed.
Lemma ratio_lt t : 0 < t -> f * t / S t < f.
Proof.
  intros T. assert (P := aS t). assert (F := aF). assert (L : t < S t). { unfold S. rewrite <- (sqrt_Rsqr t) at 1 by lra. apply sqrt_lt_1_alt. unfold Rsqr. split; [nra|]. assert (0 < q ^ 2) by (apply pow_lt; lra). lra. }
  apply (Rmult_lt_reg_r (S t)); [exact P|]. replace (f * t / S t * S t) with (f * t) by (field; lra). apply Rmult_lt_compat_l; lra.
Qed.
Lemma B_bound t : 0 < t -> B t < K * atanh f.
Proof.
  intros T. unfold B. apply Rmult_lt_compat_l; [exact aK|]. assert (P := aS t). assert (F := aF). apply atanh_rises; [left; apply Rdiv_lt_0_compat; [apply Rmult_lt_0_compat; lra|exact P]|apply ratio_lt, T|lra].
Qed.
(** ** which positions are images *)
Lemma hit_right bx by_ x y : 0 < x -> (hit bx by_ (x, y) <-> x = bx + A (y / x) /\ y = by_ + B (y / x)).
Proof.
  intros P. destruct (a_right q Rein Hq x y P) as [U V]. unfold hit. cbn [fst snd]. change (ax x y = A (y / x)) in U. change (ay x y = B (y / x)) in V. rewrite U, V. split; [intros (_ & E1 & E2)|intros (E1 & E2)]; repeat split; lra.
Qed.
Lemma hit_left bx by_ x y : x < 0 -> (hit bx by_ (x, y) <-> x = bx - A (y / x) /\ y = by_ - B (y / x)).
Proof.
  intros P. destruct (a_left q Rein Hq x y P) as [U V]. unfold hit. cbn [fst snd]. change (ax x y = - A (y / x)) in U. change (ay x y = - B (y / x)) in V. rewrite U, V. split; [intros (_ & E1 & E2)|intros (E1 & E2)]; repeat split; lra.
Qed.
Lemma hit_mid bx by_ y : hit bx by_ (0, y) <-> y <> 0 /\ bx = 0 /\ y - K * atanh (f * y / Rabs y) = by_.
Proof.
  unfold hit, ax, ay, psi. cbn [fst snd]. replace (q ^ 2 * (0 ^ 2 + 0 ^ 2) + y ^ 2) with (Rsqr y) by (unfold Rsqr; ring). rewrite sqrt_Rsqr_abs. replace (f * 0 / (Rabs y + 0)) with 0 by (unfold Rdiv; ring). rewrite atan_0, !Rmult_0_r, !Rplus_0_r. split.
  - intros ([N|N] & E1 & E2); [lra|]. split; [exact N|]. split; [lra|exact E2].
  - intros (N & E1 & E2). split; [right; exact N|]. split; [lra|exact E2].
Qed.
(** ** a source on the major axis *)
Section Major.
Variable bx : R.
Hypothesis Hb : 0 < bx.
Let a := K * atan (f / q).
Let cusp := K * (f / q - atan (f / q)).
Lemma H_0 : H 0 = - cusp. Proof. unfold H, cusp. rewrite S_0. ring. Qed.
Lemma right_zero p : 0 < fst p -> hit bx 0 p -> G bx 0 1 (snd p / fst p) = 0 /\ p = (bx + A (snd p / fst p), B (snd p / fst p)).
Proof.
  intros P I. rewrite (surjective_pairing p) in I. apply (hit_right bx 0 _ _ P) in I. destruct I as [E1 E2]. split.
  - unfold G. rewrite Rmult_1_l, <- E1. rewrite Rmult_1_l, <- E2. field. lra.
  - rewrite (surjective_pairing p) at 1. f_equal; lra.
Qed.
Lemma right_hit t : G bx 0 1 t = 0 -> hit bx 0 (bx + A t, B t).
Proof.
  intros E. unfold G in E. assert (P := A_pos t). apply hit_right; [lra|]. replace (B t / (bx + A t)) with t; [split; ring|]. apply Rmult_eq_reg_r with (bx + A t); [|lra]. unfold Rdiv. rewrite Rmult_assoc, Rinv_l by lra. lra.
Qed.
Lemma G_at0 : G bx 0 1 0 = 0. Proof. unfold G. rewrite B_0. ring. Qed.
Lemma G_odd t : G bx 0 1 (- t) = - G bx 0 1 t. Proof. unfold G. rewrite A_even, B_odd. ring. Qed.
Lemma left_only p : fst p < 0 -> hit bx 0 p <-> bx < a /\ p = (bx - a, 0).
Proof.
  intros P. split.
  - intros I. rewrite (surjective_pairing p) in I. apply (hit_left bx 0 _ _ P) in I. destruct I as [E1 E2]. set (t := snd p / fst p) in *. assert (E : snd p = t * fst p) by (unfold t; field; lra).
    assert (Z : G bx 0 (-1) t = 0) by (unfold G; replace (bx + -1 * A t) with (fst p) by lra; rewrite <- E; lra).
    assert (Z0 : G bx 0 (-1) 0 = 0) by (unfold G; rewrite B_0; ring).
    assert (T : t = 0). { assert (D : forall s, 0 < bx + -1 * H s) by (intros s; assert (N := aHneg s); lra). destruct (Rtotal_order t 0) as [L|[L|L]]; [exfalso|exact L|exfalso].
      - assert (Q := rises _ _ t 0 L (aG bx 0 (-1)) (fun s _ => D s)). lra.
      - assert (Q := rises _ _ 0 t L (aG bx 0 (-1)) (fun s _ => D s)). lra. }
    rewrite T, A_0 in E1. fold a in E1. rewrite T, B_0 in E2. split; [lra|]. rewrite (surjective_pairing p). f_equal; lra.
  - intros [L ->]. cbn [fst] in P. apply hit_left; [exact P|]. replace (0 / (bx - a)) with 0 by (unfold Rdiv; ring). rewrite A_0, B_0. fold a. split; ring.
Qed.
Lemma mid_none y : ~ hit bx 0 (0, y).
Proof. intros I. apply hit_mid in I. lra. Qed.
Lemma outside_cusp t : cusp <= bx -> G bx 0 1 t = 0 -> t = 0.
Proof.
  intros L E. assert (D : forall s, s <> 0 -> 0 < bx + 1 * H s). { intros s N. assert (W := aHless 0 s). rewrite Rabs_R0, H_0 in W. assert (W' := W (Rabs_pos_lt s N)). lra. } assert (Z := G_at0).
  destruct (Rtotal_order t 0) as [M|[M|M]]; [exfalso|exact M|exfalso].
  - assert (Q := rises _ _ t 0 M (aG bx 0 1) (fun s Hs => D s ltac:(lra))). lra.
  - assert (Q := rises _ _ 0 t M (aG bx 0 1) (fun s Hs => D s ltac:(lra))). lra.
Qed.
Lemma inside_unique t u : 0 < t -> 0 < u -> G bx 0 1 t = 0 -> G bx 0 1 u = 0 -> t = u.
Proof.
  assert (W : forall t u, 0 < t -> t < u -> G bx 0 1 t = 0 -> G bx 0 1 u = 0 -> False).
  { intros s w P L E1 E2. assert (Z := G_at0).
    destruct (MVT_cor2 (G bx 0 1) (fun r => bx + 1 * H r) 0 s P) as (c1 & F1 & C1); [intros r _; apply is_derive_Reals, aG|].
    destruct (MVT_cor2 (G bx 0 1) (fun r => bx + 1 * H r) s w L) as (c2 & F2 & C2); [intros r _; apply is_derive_Reals, aG|].
    rewrite E1, Z in F1. rewrite E1, E2 in F2. assert (H1 : bx + 1 * H c1 = 0) by nra. assert (H2 : bx + 1 * H c2 = 0) by nra. assert (Q := aHless c1 c2). rewrite !Rabs_right in Q by lra. lra. }
  intros Pt Pu Et Eu. destruct (Rtotal_order t u) as [M|[M|M]]; [destruct (W t u Pt M Et Eu)|exact M|destruct (W u t Pu M Eu Et)].
Qed.
Lemma inside_exists : bx < cusp -> exists t, 0 < t /\ G bx 0 1 t = 0.
Proof.
  intros L. assert (F := aF). assert (Kp := aK). assert (Z := G_at0).
  assert (Neg : exists s, 0 < s /\ G bx 0 1 s < 0).
  { assert (D := aG bx 0 1 0). rewrite H_0 in D. apply is_derive_Reals in D. destruct (D ((cusp - bx) / 2)) as (d & Dd); [lra|]. exists (d / 2). assert (Pd := cond_pos d). split; [lra|].
    assert (W := Dd (d / 2) ltac:(lra) ltac:(rewrite Rabs_right; lra)). rewrite Rplus_0_l, Z in W. apply Rabs_def2 in W. destruct W as [W _].
    set (g := G bx 0 1 (d / 2)) in *. assert (Q : (g - 0) / (d / 2) < 0) by lra. apply Rnot_le_lt. intros N. assert (0 <= (g - 0) / (d / 2)); [|lra]. apply Rle_mult_inv_pos; lra. }
  destruct Neg as (s & Ps & Ns). set (T := s + K * atanh f / bx).
  assert (AP : 0 < atanh f) by (assert (U := atanh_gt f F); lra). assert (Pq : 0 < K * atanh f / bx) by (apply Rdiv_lt_0_compat; [apply Rmult_lt_0_compat; lra|exact Hb]).
  assert (PT : s < T) by (unfold T; lra).
  assert (Pos : 0 < G bx 0 1 T). { unfold G. assert (BB := B_bound T ltac:(lra)). assert (PA := A_pos T). assert (E : T * bx = s * bx + K * atanh f) by (unfold T; field; lra). assert (0 < T * A T) by (apply Rmult_lt_0_compat; lra). assert (0 < s * bx) by (apply Rmult_lt_0_compat; lra). lra. }
  destruct (IVT (G bx 0 1) s T) as (t & Ht & E); [intros r; apply derivable_continuous_pt; exists (bx + 1 * H r); apply is_derive_Reals, aG|exact PT|exact Ns|exact Pos|]. exists t. split; [lra|exact E].
Qed.
Lemma major_list : exists l, NoDup l /\ (forall p, hit bx 0 p <-> In p l) /\ length l = (1 + (if Rlt_dec bx a then 1 else 0) + (if Rlt_dec bx cusp then 2 else 0))%nat.
Proof.
  assert (PA : 0 < a) by (unfold a; rewrite <- A_0; apply A_pos).
  assert (Z : (bx + a, 0) = (bx + A 0, B 0)) by (rewrite A_0, B_0; reflexivity).
  assert (Cen : hit bx 0 (bx + a, 0)) by (rewrite Z; apply right_hit, G_at0).
  set (lft := if Rlt_dec bx a then [(bx - a, 0)] else []).
  assert (Lft : forall p, In p lft <-> fst p < 0 /\ hit bx 0 p).
  { intros p. unfold lft. destruct (Rlt_dec bx a) as [L|L]; split.
    - intros [<-|[]]. cbn [fst]. split; [lra|]. apply left_only; [cbn [fst]; lra|]. split; [exact L|reflexivity].
    - intros [P I]. apply (left_only p P) in I. left. symmetry. apply I.
    - intros [].
    - intros [P I]. apply (left_only p P) in I. destruct (L (proj1 I)). }
  assert (NL : NoDup lft) by (unfold lft; destruct (Rlt_dec bx a); [constructor; [intros []|constructor]|constructor]).
  assert (Len : length lft = (if Rlt_dec bx a then 1 else 0)%nat) by (unfold lft; destruct (Rlt_dec bx a); reflexivity).
  assert (Tri : forall p, hit bx 0 p -> 0 < fst p \/ fst p < 0).
  { intros [x y] I. cbn [fst]. destruct (Rtotal_order x 0) as [M|[M|M]]; [right; exact M|subst x; destruct (mid_none y I)|left; lra]. }
  rewrite <- Len. destruct (Rlt_dec bx cusp) as [C|C].
  - destruct (inside_exists C) as (t & Pt & Et). assert (Et' : G bx 0 1 (- t) = 0) by (rewrite G_odd, Et; ring). assert (PB := B_pos t Pt). assert (PAt := A_pos t).
    exists ((bx + a, 0) :: (bx + A t, B t) :: (bx + A t, - B t) :: lft). split; [|split].
    + assert (No : forall p, 0 < fst p -> ~ In p lft) by (intros p P I; apply Lft in I; lra).
      constructor; [|constructor; [|constructor; [|exact NL]]].
      * intros [E|[E|I]]; [injection E as _ E; lra|injection E as _ E; lra|apply (No (bx + a, 0)); [cbn [fst]; lra|exact I]].
      * intros [E|I]; [injection E as E; lra|apply (No (bx + A t, B t)); [cbn [fst]; lra|exact I]].
      * apply No. cbn [fst]. lra.
    + intros p. split.
      * intros I. destruct (Tri p I) as [P|P]; [|do 3 right; apply Lft; split; assumption]. destruct (right_zero p P I) as [E Q]. set (w := snd p / fst p) in *. destruct (Rtotal_order w 0) as [M|[M|M]].
        -- assert (W : - w = t) by (apply inside_unique; try assumption; [lra|rewrite G_odd, E; ring]). right. right. left. rewrite Q, <- W, A_even, B_odd. f_equal. ring.
        -- left. rewrite Q, M. exact Z.
        -- assert (W : w = t) by (apply inside_unique; assumption). right. left. rewrite Q, W. reflexivity.
      * intros [<-|[<-|[<-|I]]]; [exact Cen|apply right_hit, Et| |apply Lft, I]. rewrite <- A_even, <- B_odd. apply right_hit, Et'.
    + cbn [length]. lia.
  - exists ((bx + a, 0) :: lft). split; [|split].
    + constructor; [|exact NL]. intros I. apply Lft in I. cbn [fst] in I. lra.
    + intros p. split.
      * intros I. destruct (Tri p I) as [P|P]; [|right; apply Lft; split; assumption]. destruct (right_zero p P I) as [E Q]. left. rewrite Q, (outside_cusp _ ltac:(lra) E). exact Z.
      * intros [<-|I]; [exact Cen|apply Lft, I].
    + cbn [length]. lia.
Qed.
End Major.
(** ** a source on the minor axis *)
Section Minor.
Variable by_ : R.
Hypothesis Hb : 0 < by_.
Let b := K * atanh f.
Let cusp := K * (atanh f - f).
Let g (t : R) := B t - t * A t.
Lemma g_derive t : is_derive g t (- H t).
Proof.
  assert (D := aG 0 0 (-1) t). replace (- H t) with (0 + -1 * H t) by ring. apply (is_derive_ext (G 0 0 (-1))); [|exact D]. intros r. change (G 0 0 (-1) r = g r). change R in r. unfold G, g. ring.
Qed.
Lemma g_rises t u : t < u -> g t < g u.
Proof. intros L. apply (rises g (fun r => - H r) t u L g_derive). intros r _. assert (N := aHneg r). lra. Qed.
Lemma g_0 : g 0 = 0. Proof. unfold g. rewrite B_0. ring. Qed.
Lemma g_odd t : g (- t) = - g t. Proof. unfold g. rewrite A_even, B_odd. ring. Qed.
Lemma g_near T : 0 < T -> g T <= cusp + K * f / (T ^ 2 + 1).
Proof.
  intros P. assert (F := aF). assert (Kp := aK). assert (Sp := aS T). assert (BB := B_bound T P). assert (S2 : S T ^ 2 = q ^ 2 + T ^ 2) by exact (S_sq q T). assert (F2 : f ^ 2 = 1 - q ^ 2) by exact (f2 q Hq).
  assert (LO := atan_low (f / S T) ltac:(apply Rdiv_lt_0_compat; lra)). assert (T2 := pow2_ge_0 T).
  replace (f / S T / (1 + (f / S T) ^ 2)) with (f * S T / (T ^ 2 + 1)) in LO; [|replace (T ^ 2 + 1) with (S T ^ 2 + f ^ 2) by lra; field; split; [|lra]; assert (0 < S T ^ 2) by (apply pow_lt; lra); assert (0 <= f ^ 2) by apply pow2_ge_0; lra].
  assert (TS : T <= S T). { apply Rsqr_incr_0_var; [|lra]. rewrite !Rsqr_pow2, S2. assert (0 <= q ^ 2) by apply pow2_ge_0. lra. }
  assert (L2 : f - f / (T ^ 2 + 1) <= T * atan (f / S T)).
  { apply Rle_trans with (T * (f * S T / (T ^ 2 + 1))); [|apply Rmult_le_compat_l; lra]. replace (f - f / (T ^ 2 + 1)) with (f * (T * T) / (T ^ 2 + 1)) by (field; lra). replace (T * (f * S T / (T ^ 2 + 1))) with (f * (T * S T) / (T ^ 2 + 1)) by (field; lra).
    apply Rmult_le_compat_r; [left; apply Rinv_0_lt_compat; lra|]. apply Rmult_le_compat_l; [lra|]. apply Rmult_le_compat_l; lra. }
  unfold g, cusp. assert (L3 := Rmult_le_compat_l K _ _ (Rlt_le _ _ Kp) L2). replace (T * A T) with (K * (T * atan (f / S T))) by (unfold A; ring). replace (K * f / (T ^ 2 + 1)) with (K * (f / (T ^ 2 + 1))) by (field; lra). lra.
Qed.
Lemma g_below t : g t < cusp.
Proof.
  assert (Kp := aK). assert (F := aF). set (t1 := Rabs t + 1). assert (T1 : t < t1) by (unfold t1; assert (W := Rle_abs t); lra). assert (P1 : 0 < t1) by (unfold t1; assert (W := Rabs_pos t); lra). apply Rlt_le_trans with (g t1); [apply g_rises, T1|].
  apply Rnot_lt_le. intros L. set (e := g t1 - cusp). assert (Pe : 0 < e) by (unfold e; lra). set (T := t1 + K * f / e + 1). assert (PT : 0 < K * f / e) by (apply Rdiv_lt_0_compat; [apply Rmult_lt_0_compat; lra|exact Pe]).
  assert (W := g_rises t1 T ltac:(unfold T; lra)). assert (N := g_near T ltac:(unfold T; lra)).
  assert (Q : K * f / (T ^ 2 + 1) < e). { apply (Rmult_lt_reg_r (T ^ 2 + 1)); [assert (Z := pow2_ge_0 T); lra|]. unfold Rdiv at 1. assert (T0 : 1 <= T) by (unfold T; lra). assert (T2 : T <= T ^ 2) by (simpl; nra). rewrite Rmult_assoc, Rinv_l by lra. apply Rlt_le_trans with (e * T); [|apply Rmult_le_compat_l; lra]. assert (E : K * f = e * (K * f / e)) by (field; lra). rewrite Rmult_1_r. rewrite E at 1. apply Rmult_lt_compat_l; [exact Pe|]. unfold T. lra. }
  unfold e in Q. lra.
Qed.
Lemma g_reach : by_ < cusp -> exists t, 0 < t /\ g t = by_.
Proof.
  intros L. assert (Kp := aK). assert (F := aF). assert (F2 : f ^ 2 = 1 - q ^ 2) by exact (f2 q Hq).
  assert (Near : exists w, 0 < w < f /\ by_ < K * (atanh w - w)).
  { assert (C : continuity_pt (fun w => K * (atanh w - w)) f). { apply derivable_continuous_pt. exists (K * (/ (1 - f ^ 2) - 1)). apply is_derive_Reals. apply (is_derive_scal (fun w => atanh w - w)). apply (is_derive_minus atanh (fun w => w)); [apply is_derive_atanh; lra|apply (is_derive_id (K := R_AbsRing))]. }
    assert (Pe : 0 < cusp - by_) by lra. destruct (C (cusp - by_) Pe) as (d & Pd & Dd). set (w := Rmax (f / 2) (f - d / 2)). exists w.
    assert (W : f / 2 <= w /\ f - d / 2 <= w /\ w < f) by (unfold w; split; [apply Rmax_l|split; [apply Rmax_r|apply Rmax_lub_lt; lra]]). split; [lra|].
    assert (Q := Dd w). unfold dist in Q. simpl in Q. unfold R_dist in Q. assert (Q' : Rabs (K * (atanh w - w) - K * (atanh f - f)) < cusp - by_).
    { apply Q. split; [split; [exact Logic.I|lra]|]. rewrite Rabs_left by lra. lra. }
    fold cusp in Q'. apply Rabs_def2 in Q'. lra. }
  destruct Near as (w & Hw & Lw). assert (Pd : 0 < f ^ 2 - w ^ 2) by nra. assert (Sd := sqrt_lt_R0 _ Pd). set (T := q * w / sqrt (f ^ 2 - w ^ 2)).
  assert (PT : 0 < T) by (apply Rdiv_lt_0_compat; [apply Rmult_lt_0_compat; lra|exact Sd]).
  assert (SE : S T = q * f / sqrt (f ^ 2 - w ^ 2)).
  { unfold S. rewrite <- (sqrt_Rsqr (q * f / sqrt (f ^ 2 - w ^ 2))) by (left; apply Rdiv_lt_0_compat; [apply Rmult_lt_0_compat; lra|exact Sd]). f_equal. unfold T, Rsqr. assert (E : sqrt (f ^ 2 - w ^ 2) * sqrt (f ^ 2 - w ^ 2) = f ^ 2 - w ^ 2) by (apply sqrt_sqrt; lra). set (k := sqrt (f ^ 2 - w ^ 2)) in *.
    apply Rmult_eq_reg_r with (k * k); [|apply Rgt_not_eq, Rmult_lt_0_compat; lra]. transitivity (q ^ 2 * (k * k) + q ^ 2 * w ^ 2); [field; lra|]. transitivity (q ^ 2 * f ^ 2); [rewrite E; ring|field; lra]. }
  assert (RE : f * T / S T = w) by (rewrite SE; unfold T; field; repeat split; lra).
  assert (Gt : by_ < g T).
  { apply Rlt_le_trans with (K * (atanh w - w)); [exact Lw|]. unfold g, A, B. rewrite RE. assert (X : 0 < f / S T) by (apply Rdiv_lt_0_compat; [lra|apply aS]). assert (GA := atan_gap 0 (f / S T) ltac:(lra)). rewrite atan_0 in GA.
    assert (Q : T * atan (f / S T) <= w) by (apply Rle_trans with (T * (f / S T)); [apply Rmult_le_compat_l; lra|right; rewrite <- RE; unfold Rdiv; ring]).
    replace (K * atanh w - T * (K * atan (f / S T))) with (K * (atanh w - T * atan (f / S T))) by ring. apply Rmult_le_compat_l; lra. }
  destruct (IVT (fun t => g t - by_) 0 T) as (t & Ht & E); [intros r; apply continuity_pt_minus; [apply derivable_continuous_pt; exists (- H r); apply is_derive_Reals, g_derive|apply continuity_pt_const; intros ? ?; reflexivity]|exact PT|cbv beta; rewrite g_0; lra|lra|].
  exists t. split; [|lra]. destruct (proj1 Ht) as [P|P]; [exact P|]. subst t. rewrite g_0 in E. lra.
Qed.
Lemma minor_right p : 0 < fst p -> (hit 0 by_ p <-> g (- (snd p / fst p)) = by_ /\ fst p = A (snd p / fst p)).
Proof.
  intros P. rewrite (surjective_pairing p) at 1. rewrite (hit_right 0 by_ _ _ P), g_odd. set (t := snd p / fst p). assert (E : snd p = t * fst p) by (unfold t; field; lra). unfold g. split.
  - intros [E1 E2]. split; [|lra]. assert (W : A t = fst p) by lra. rewrite W. lra.
  - intros [E1 E2]. split; [lra|]. rewrite E, E2. lra.
Qed.
Lemma minor_left p : fst p < 0 -> (hit 0 by_ p <-> g (snd p / fst p) = by_ /\ fst p = - A (snd p / fst p)).
Proof.
  intros P. rewrite (surjective_pairing p) at 1. rewrite (hit_left 0 by_ _ _ P). set (t := snd p / fst p). assert (E : snd p = t * fst p) by (unfold t; field; lra). unfold g. split.
  - intros [E1 E2]. split; [|lra]. assert (W : A t = - fst p) by lra. rewrite W. lra.
  - intros [E1 E2]. split; [lra|]. rewrite E, E2. lra.
Qed.
Lemma minor_mid p : fst p = 0 -> (hit 0 by_ p <-> p = (0, by_ + b) \/ (by_ < b /\ p = (0, by_ - b))).
Proof.
  intros P. assert (F := aF). assert (Pb : 0 < b) by (unfold b; assert (U := atanh_gt f F); apply Rmult_lt_0_compat; [exact aK|lra]). rewrite (surjective_pairing p). rewrite P. rewrite hit_mid. set (y := snd p).
  assert (Up : 0 < y -> f * y / Rabs y = f) by (intros U; rewrite Rabs_right by lra; field; lra). assert (Dn : y < 0 -> f * y / Rabs y = - f) by (intros U; rewrite Rabs_left by lra; field; lra). split.
  - intros (N & _ & E). destruct (Rtotal_order y 0) as [M|[M|M]]; [|contradiction|].
    + rewrite (Dn M), atanh_odd in E by lra. right. assert (Y : y = by_ - b) by (unfold b; lra). split; [lra|rewrite Y; reflexivity].
    + rewrite (Up M) in E. left. f_equal. unfold b. lra.
  - intros [E|[L E]]; injection E as E.
    + assert (M : 0 < y) by lra. split; [lra|]. split; [reflexivity|]. rewrite (Up M). unfold b in E. lra.
    + assert (M : y < 0) by lra. split; [lra|]. split; [reflexivity|]. rewrite (Dn M), atanh_odd by lra. unfold b in E. lra.
Qed.
Lemma minor_list : exists l, NoDup l /\ (forall p, hit 0 by_ p <-> In p l) /\ length l = (1 + (if Rlt_dec by_ b then 1 else 0) + (if Rlt_dec by_ cusp then 2 else 0))%nat.
Proof.
  assert (F := aF). assert (Pb : 0 < b) by (unfold b; assert (U := atanh_gt f F); apply Rmult_lt_0_compat; [exact aK|lra]).
  set (mid := (0, by_ + b) :: (if Rlt_dec by_ b then [(0, by_ - b)] else [])).
  assert (Mid : forall p, In p mid <-> fst p = 0 /\ hit 0 by_ p).
  { intros p. unfold mid. split.
    - intros I. assert (Z : fst p = 0) by (destruct (Rlt_dec by_ b); [destruct I as [<-|[<-|[]]]; reflexivity|destruct I as [<-|[]]; reflexivity]). split; [exact Z|]. apply (minor_mid p Z). destruct I as [<-|I]; [left; reflexivity|]. destruct (Rlt_dec by_ b) as [L|L]; [|destruct I]. destruct I as [<-|[]]. right. split; [exact L|reflexivity].
    - intros [Z I]. apply (minor_mid p Z) in I. destruct I as [->|[L ->]]; [left; reflexivity|right]. destruct (Rlt_dec by_ b) as [_|N]; [left; reflexivity|contradiction]. }
  assert (NM : NoDup mid) by (unfold mid; destruct (Rlt_dec by_ b); repeat constructor; cbn [In]; [intros [E|[]]; injection E as E; lra|intros []|intros []]).
  assert (Len : length mid = (1 + (if Rlt_dec by_ b then 1 else 0))%nat) by (unfold mid; destruct (Rlt_dec by_ b); reflexivity). rewrite <- Len.
  destruct (Rlt_dec by_ cusp) as [C|C].
  - destruct (g_reach C) as (t & Pt & Et). assert (PA := A_pos t).
    assert (U : forall r, g r = by_ -> r = t). { intros r E. destruct (Rtotal_order r t) as [M|[M|M]]; [assert (W := g_rises r t M); lra|exact M|assert (W := g_rises t r M); lra]. }
    assert (D1 : - t * A t / A t = - t) by (field; lra). assert (D2 : - t * A t / - A t = t) by (field; lra).
    exists ((A t, - t * A t) :: (- A t, - t * A t) :: mid). split; [|split].
    + constructor; [|constructor; [|exact NM]].
      * intros [E|I]; [injection E as E; lra|apply Mid in I; cbn [fst] in I; lra].
      * intros I. apply Mid in I. cbn [fst] in I. lra.
    + intros p. split.
      * intros I. destruct (Rtotal_order (fst p) 0) as [M|[M|M]].
        -- apply (minor_left p M) in I. destruct I as [E1 E2]. apply U in E1. assert (E3 : snd p = t * fst p) by (rewrite <- E1; field; lra). rewrite E1 in E2. right. left. rewrite (surjective_pairing p), E3, E2. f_equal. ring.
        -- right. right. apply Mid. split; assumption.
        -- apply (minor_right p M) in I. destruct I as [E1 E2]. apply U in E1. assert (E4 : snd p / fst p = - t) by lra. assert (E3 : snd p = - t * fst p) by (rewrite <- E4; field; lra). rewrite E4, A_even in E2. left. rewrite (surjective_pairing p), E3, E2. reflexivity.
      * intros [<-|[<-|I]]; [| |apply Mid, I].
        -- apply minor_right; cbn [fst snd]; [lra|]. rewrite D1, Ropp_involutive, A_even. split; [exact Et|reflexivity].
        -- apply minor_left; cbn [fst snd]; [lra|]. rewrite D2. split; [exact Et|reflexivity].
    + cbn [length]. lia.
  - exists mid. split; [exact NM|]. split; [|lia]. intros p. rewrite Mid. split; [|tauto]. intros I. split; [|exact I]. destruct (Rtotal_order (fst p) 0) as [M|[M|M]]; [exfalso|exact M|exfalso].
    + apply (minor_left p M) in I. assert (W := g_below (snd p / fst p)). lra.
    + apply (minor_right p M) in I. assert (W := g_below (- (snd p / fst p))). lra.
Qed.
End Minor.
End Axis.
(** ** back on the sky *)
Lemma used_same q : 0 < q < 1 -> used_q q = q.
Proof. intros H. unfold used_q. destruct (Req_EM_T q 1); [lra|reflexivity]. Qed.
Lemma carry x0 y0 q phi Rein bx by_ n : 0 < q < 1 ->
  let f := sqrt (1 - q ^ 2) in let K := Rein * sqrt q / f in let psi x y := sqrt (q ^ 2 * (x ^ 2 + 0 ^ 2) + y ^ 2) in
  let hit (p : R * R) := (fst p <> 0 \/ snd p <> 0) /\ fst p - K * atan (f * fst p / (psi (fst p) (snd p) + 0)) = bx /\ snd p - K * atanh (f * snd p / (psi (fst p) (snd p) + q ^ 2 * 0)) = by_ in
  (exists l, NoDup l /\ (forall p, hit p <-> In p l) /\ length l = n) ->
  let src := along x0 y0 phi bx by_ in exists l, NoDup l /\ (forall p, seen_at x0 y0 q phi Rein (fst src) (snd src) p <-> In p l) /\ length l = n.
Proof.
  intros Hq f K psi hit (l & N & E & L) src. set (g := fun p : R * R => along x0 y0 phi (fst p) (snd p)). exists (map g l).
  assert (Inj : forall p r, g p = g r -> p = r). { intros p r Z. apply (f_equal (frame x0 y0 phi)) in Z. unfold g in Z. rewrite !along_frame in Z. rewrite (surjective_pairing p), (surjective_pairing r). exact Z. }
  split; [apply FinFun.Injective_map_NoDup; [exact Inj|exact N]|]. split; [|rewrite map_length; exact L].
  assert (Sh : forall p, seen_at x0 y0 q phi Rein (fst src) (snd src) p <-> hit (frame x0 y0 phi p)).
  { intros p. rewrite (seen_hit x0 y0 q phi Rein (fst src) (snd src) p), (used_same q Hq). rewrite <- (surjective_pairing src). unfold src. rewrite along_frame. cbn [fst snd]. reflexivity. }
  intros p. rewrite Sh, E. rewrite in_map_iff. split.
  - intros I. exists (frame x0 y0 phi p). split; [apply frame_along|exact I].
  - intros (r & <- & I). unfold g. rewrite along_frame. rewrite <- (surjective_pairing r). exact I.
Qed.
(** the lens looks the same turned by half a turn *)
Lemma opposite q Rein bx by_ bx' by' n : 0 < q < 1 -> bx' = - bx -> by' = - by_ ->
  let f := sqrt (1 - q ^ 2) in let K := Rein * sqrt q / f in let psi x y := sqrt (q ^ 2 * (x ^ 2 + 0 ^ 2) + y ^ 2) in
  let hit bx by_ (p : R * R) := (fst p <> 0 \/ snd p <> 0) /\ fst p - K * atan (f * fst p / (psi (fst p) (snd p) + 0)) = bx /\ snd p - K * atanh (f * snd p / (psi (fst p) (snd p) + q ^ 2 * 0)) = by_ in
  (exists l, NoDup l /\ (forall p, hit bx by_ p <-> In p l) /\ length l = n) -> exists l, NoDup l /\ (forall p, hit bx' by' p <-> In p l) /\ length l = n.
Proof.
  intros Hq -> -> f K psi hit (l & N & E & L). set (o := fun p : R * R => (- fst p, - snd p)). assert (F := f01 q Hq). fold f in F.
  assert (OO : forall p, o (o p) = p) by (intros [x y]; unfold o; cbn [fst snd]; f_equal; ring).
  exists (map o l). split; [apply FinFun.Injective_map_NoDup; [intros p r Z; rewrite <- (OO p), <- (OO r), Z; reflexivity|exact N]|]. split; [|rewrite map_length; exact L].
  assert (Ho : forall p, hit (- bx) (- by_) p <-> hit bx by_ (o p)).
  { intros [x y]. unfold hit, o. cbn [fst snd]. assert (P : psi (- x) (- y) = psi x y) by (unfold psi; f_equal; ring). rewrite P. rewrite Rmult_0_r, !Rplus_0_r.
    replace (f * - x / psi x y) with (- (f * x / psi x y)) by (unfold Rdiv; ring). replace (f * - y / psi x y) with (- (f * y / psi x y)) by (unfold Rdiv; ring). rewrite atan_opp.
    assert (Y : Rabs y <= psi x y). { unfold psi. rewrite <- sqrt_Rsqr_abs. apply sqrt_le_1_alt. unfold Rsqr. assert (0 <= q ^ 2 * (x ^ 2 + 0 ^ 2)) by (apply Rmult_le_pos; [apply pow2_ge_0|apply Rplus_le_le_0_compat; apply pow2_ge_0]). cbn [pow] in *. lra. }
    assert (Q : -1 < f * y / psi x y < 1).
    { enough (Rabs (f * y / psi x y) < 1) by (apply and_comm, Rabs_def2; assumption). destruct (Req_dec (psi x y) 0) as [Z|Z]; [rewrite Z; unfold Rdiv; rewrite Rinv_0, Rmult_0_r, Rabs_R0; lra|]. assert (Pp : 0 < psi x y) by (assert (W := Rabs_pos y); lra). unfold Rdiv. rewrite !Rabs_mult, (Rabs_right f), Rabs_inv, (Rabs_right (psi x y)) by lra.
      apply Rle_lt_trans with f; [|lra]. apply (Rmult_le_reg_r (psi x y)); [exact Pp|]. rewrite Rmult_assoc, Rinv_l by lra. rewrite Rmult_1_r. apply Rmult_le_compat_l; lra. }
    rewrite atanh_odd by exact Q. split; intros (A & B & C); (split; [destruct A; [left|right]; lra|split; lra]). }
  intros p. rewrite Ho, E, in_map_iff. split; [intros I; exists (o p); split; [apply OO|exact I]|intros (r & <- & I); rewrite OO; exact I].
Qed.
Lemma a_cusps q Rein : 0 < q < 1 -> 0 < Rein -> let f := sqrt (1 - q ^ 2) in let K := Rein * sqrt q / f in
  0 < K * atan (f / q) /\ 0 < K * (f / q - atan (f / q)) /\ 0 < K * atanh f /\ 0 < K * (atanh f - f).
Proof.
  intros Hq HR f K. assert (F := f01 q Hq). assert (Kp := K0 q Rein Hq HR). fold f in F, Kp. fold K in Kp. assert (X : 0 < f / q) by (apply Rdiv_lt_0_compat; lra). assert (G := atan_gap 0 (f / q) ltac:(lra)). rewrite atan_0 in G.
  assert (P : 0 < atan (f / q)) by (rewrite <- atan_0; apply atan_increasing, X). assert (Q := atanh_gt f F). repeat split; apply Rmult_lt_0_compat; lra.
Qed.
Lemma major_count x0 y0 q phi Rein beta : 0 < q < 1 -> 0 < Rein -> let f := sqrt (1 - q ^ 2) in let K := Rein * sqrt q / f in
  let src := along x0 y0 phi beta 0 in exists l, NoDup l /\ (forall p, seen_at x0 y0 q phi Rein (fst src) (snd src) p <-> In p l) /\
  length l = (1 + (if Rlt_dec (Rabs beta) (K * atan (f / q)) then 1 else 0) + (if Rlt_dec (Rabs beta) (K * (f / q - atan (f / q))) then 2 else 0))%nat.
Proof.
  intros Hq HR f K. destruct (Rtotal_order beta 0) as [M|[M|M]].
  - apply carry; [exact Hq|]. rewrite Rabs_left by exact M. apply (opposite q Rein (- beta) 0 beta 0 _ Hq ltac:(ring) ltac:(ring)). exact (major_list q Rein Hq HR (- beta) ltac:(lra)).
  - destruct (a_cusps q Rein Hq HR) as (P1 & P2 & _). fold f in P1, P2. fold K in P1, P2. subst beta. rewrite Rabs_R0. destruct (Rlt_dec 0 (K * atan (f / q))) as [_|N]; [|contradiction]. destruct (Rlt_dec 0 (K * (f / q - atan (f / q)))) as [_|N]; [|contradiction].
    destruct (centre_four x0 y0 q phi Rein Hq HR) as [N E]. intros src. replace (fst src) with x0 by (unfold src, along; cbn [fst]; ring). replace (snd src) with y0 by (unfold src, along; cbn [snd]; ring). eexists. split; [exact N|]. split; [exact E|reflexivity].
  - apply carry; [exact Hq|]. rewrite Rabs_right by lra. exact (major_list q Rein Hq HR beta M).
Qed.
Lemma minor_count x0 y0 q phi Rein beta : 0 < q < 1 -> 0 < Rein -> let f := sqrt (1 - q ^ 2) in let K := Rein * sqrt q / f in
  let src := along x0 y0 phi 0 beta in exists l, NoDup l /\ (forall p, seen_at x0 y0 q phi Rein (fst src) (snd src) p <-> In p l) /\
  length l = (1 + (if Rlt_dec (Rabs beta) (K * atanh f) then 1 else 0) + (if Rlt_dec (Rabs beta) (K * (atanh f - f)) then 2 else 0))%nat.
Proof.
  intros Hq HR f K. destruct (Rtotal_order beta 0) as [M|[M|M]].
  - apply carry; [exact Hq|]. rewrite Rabs_left by exact M. apply (opposite q Rein 0 (- beta) 0 beta _ Hq ltac:(ring) ltac:(ring)). exact (minor_list q Rein Hq HR (- beta) ltac:(lra)).
  - destruct (a_cusps q Rein Hq HR) as (_ & _ & P1 & P2). fold f in P1, P2. fold K in P1, P2. subst beta. rewrite Rabs_R0. destruct (Rlt_dec 0 (K * atanh f)) as [_|N]; [|contradiction]. destruct (Rlt_dec 0 (K * (atanh f - f))) as [_|N]; [|contradiction].
    destruct (centre_four x0 y0 q phi Rein Hq HR) as [N E]. intros src. replace (fst src) with x0 by (unfold src, along; cbn [fst]; ring). replace (snd src) with y0 by (unfold src, along; cbn [snd]; ring). eexists. split; [exact N|]. split; [exact E|reflexivity].
  - apply carry; [exact Hq|]. rewrite Rabs_right by lra. exact (minor_list q Rein Hq HR beta M).
Qed.
(** ** where three images occur *)
Lemma same_length (P : R * R -> Prop) l m : NoDup l -> (forall p, P p <-> In p l) -> NoDup m -> (forall p, P p <-> In p m) -> length l = length m.
Proof. intros N E M F. apply Nat.le_antisymm; apply NoDup_incl_length; try assumption; intros p W; [apply F, E, W|apply E, F, W]. Qed.
Lemma major_three x0 y0 q phi Rein : 0 < q < 1 -> 0 < Rein -> let f := sqrt (1 - q ^ 2) in
  ((exists beta l, let src := along x0 y0 phi beta 0 in NoDup l /\ length l = 3%nat /\ forall p, seen_at x0 y0 q phi Rein (fst src) (snd src) p <-> In p l) <-> 2 * atan (f / q) < f / q).
Proof.
  intros Hq HR f. assert (Kp := K0 q Rein Hq HR). fold f in Kp. set (K := Rein * sqrt q / f) in Kp. destruct (a_cusps q Rein Hq HR) as (P1 & P2 & _). fold f in P1, P2. fold K in P1, P2. split.
  - intros (beta & l & N & L & E). destruct (major_count x0 y0 q phi Rein beta Hq HR) as (m & M & F & Q). rewrite (same_length _ _ _ N E M F) in L. rewrite Q in L. fold f K in L.
    destruct (Rlt_dec (Rabs beta) (K * atan (f / q))) as [U|U]; destruct (Rlt_dec (Rabs beta) (K * (f / q - atan (f / q)))) as [V|V]; try discriminate.
    assert (K * atan (f / q) < K * (f / q - atan (f / q))) by lra. apply Rmult_lt_reg_l in H; lra.
  - intros W. assert (V : K * atan (f / q) < K * (f / q - atan (f / q))) by (apply Rmult_lt_compat_l; lra). exists (K * atan (f / q)).
    destruct (major_count x0 y0 q phi Rein (K * atan (f / q)) Hq HR) as (m & M & F & Q). exists m. split; [exact M|]. split; [|exact F]. rewrite Q. fold f K. rewrite Rabs_right by lra.
    destruct (Rlt_dec (K * atan (f / q)) (K * atan (f / q))) as [U|_]; [lra|]. destruct (Rlt_dec (K * atan (f / q)) (K * (f / q - atan (f / q)))) as [_|U]; [reflexivity|lra].
Qed.
Lemma minor_not_three x0 y0 q phi Rein beta l : 0 < q < 1 -> 0 < Rein -> let src := along x0 y0 phi 0 beta in
  NoDup l -> (forall p, seen_at x0 y0 q phi Rein (fst src) (snd src) p <-> In p l) -> length l <> 3%nat.
Proof.
  intros Hq HR src N E L. assert (F := f01 q Hq). assert (Kp := K0 q Rein Hq HR). destruct (minor_count x0 y0 q phi Rein beta Hq HR) as (m & M & G & Q). rewrite (same_length _ _ _ N E M G) in L. rewrite Q in L. clear Q.
  set (f := sqrt (1 - q ^ 2)) in *. set (K := Rein * sqrt q / f) in *. assert (0 < K * f) by (apply Rmult_lt_0_compat; lra).
  destruct (Rlt_dec (Rabs beta) (K * atanh f)) as [U|U]; destruct (Rlt_dec (Rabs beta) (K * (atanh f - f))) as [V|V]; try discriminate. lra.
Qed.
