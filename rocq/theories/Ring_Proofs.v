(** * The images a round lens makes *)
From Coq Require Import Reals Ranalysis5 Lra Psatz.
From Coquelicot Require Import Coquelicot.
From Verif Require Import Py RealFun Calc2 Geo_Model Lens_Lib Lens_Spec LensBase_Model LensBase_Proofs LensBasic_Model LensBasic2_Proofs First_Spec Ring_Spec.
Local Open Scope R_scope.

Section Round.
Variables x0 y0 : R.
Variable alpha : R -> R -> R * R.
Variables m m' : R -> R.
Hypothesis Ha : forall x y, alpha x y = (m (sqrt ((x - x0) ^ 2 + (y - y0) ^ 2)) * (x - x0), m (sqrt ((x - x0) ^ 2 + (y - y0) ^ 2)) * (y - y0)).
Local Notation rad := (radius x0 y0).
Lemma rad_pos p : off x0 y0 p -> 0 < rad p.
Proof. intros H. apply norm_pos. destruct H as [H|H]; [left|right]; intros Q; apply H; lra. Qed.
Lemma rt_eq p : raytrace alpha (fst p) (snd p) = (fst p - m (rad p) * (fst p - x0), snd p - m (rad p) * (snd p - y0)).
Proof. unfold raytrace. rewrite Ha. reflexivity. Qed.
Lemma from_iff p b : comes_from alpha p b <-> (1 - m (rad p)) * (fst p - x0) = fst b - x0 /\ (1 - m (rad p)) * (snd p - y0) = snd b - y0.
Proof.
  unfold comes_from. rewrite rt_eq. destruct b as [b1 b2]. cbn [fst snd]. split.
  - intros H. injection H as H1 H2. split; lra.
  - intros [H1 H2]. f_equal; lra.
Qed.
Lemma rad_scale k b : rad (out x0 y0 k b) = Rabs k * rad b.
Proof.
  unfold radius, out. cbn [fst snd]. replace ((x0 + k * (fst b - x0) - x0) ^ 2 + (y0 + k * (snd b - y0) - y0) ^ 2) with (Rsqr k * ((fst b - x0) ^ 2 + (snd b - y0) ^ 2)) by (unfold Rsqr; ring).
  rewrite sqrt_mult_alt by apply Rle_0_sqr. rewrite sqrt_Rsqr_abs. reflexivity.
Qed.
Lemma ring_of E : 0 < E -> (forall r, 0 < r -> (m r = 1 <-> r = E)) -> einstein_ring alpha x0 y0 E.
Proof.
  intros HE U. split; [exact HE|]. intros p H. assert (P := rad_pos p H). rewrite from_iff. cbn [fst snd]. rewrite <- (U _ P). split.
  - intros [H1 H2]. destruct H as [H|H]; [apply (Rmult_eq_reg_r (fst p - x0)); [lra|intros Q; apply H; lra]|apply (Rmult_eq_reg_r (snd p - y0)); [lra|intros Q; apply H; lra]].
  - intros ->. split; ring.
Qed.
Hypothesis Dm : forall r, 0 < r -> is_derive m r (m' r).
Hypothesis Neg : forall r, 0 < r -> m' r < 0.
Hypothesis Pos : forall r, 0 < r -> 0 < m r.
Hypothesis Conv : forall r, 0 < r -> 0 <= 2 * m r + r * m' r.
Hypothesis Far : exists r, 0 < r /\ m r < 1.
Lemma falling r t : 0 < r -> r < t -> m t < m r.
Proof.
  intros H L. destruct (MVT_gen m r t m') as (c & [C1 C2] & E).
  - intros u U. rewrite Rmin_left in U by lra. rewrite Rmax_right in U by lra. apply Dm. lra.
  - intros u U. rewrite Rmin_left in U by lra. apply derivable_continuous_pt. exists (m' u). apply is_derive_Reals, Dm. lra.
  - rewrite Rmin_left in C1 by lra. assert (N := Neg c ltac:(lra)). nra.
Qed.
Lemma jac_eq p : off x0 y0 p -> let X := fst p - x0 in let Y := snd p - y0 in let r := rad p in
  jacfwd (raytrace alpha) (fst p) (snd p) = Mat2 (1 - m r - m' r * X ^ 2 / r) (- m' r * X * Y / r) (- m' r * X * Y / r) (1 - m r - m' r * Y ^ 2 / r).
Proof.
  intros H X Y r. assert (P := rad_pos p H). fold r in P.
  assert (N := D2_radial m (m' r) x0 y0 (fst p) (snd p) H (Dm r P)).
  assert (G1 : D2 (fun u v => fst (alpha u v)) (fst p) (snd p) (m' r * (X / r) * X + m r * 1) (m' r * (Y / r) * X + m r * 0)).
  { eapply D2_ext; [intros u v; rewrite Ha; cbn [fst]; reflexivity|]. apply (D2_mult (fun u v => m (sqrt ((u - x0) ^ 2 + (v - y0) ^ 2))) (fun u _ => u - x0)); [exact N|]. d2; ring. }
  assert (G2 : D2 (fun u v => snd (alpha u v)) (fst p) (snd p) (m' r * (X / r) * Y + m r * 0) (m' r * (Y / r) * Y + m r * 1)).
  { eapply D2_ext; [intros u v; rewrite Ha; cbn [snd]; reflexivity|]. apply (D2_mult (fun u v => m (sqrt ((u - x0) ^ 2 + (v - y0) ^ 2))) (fun _ v => v - y0)); [exact N|]. d2; ring. }
  destruct (D2_raytrace _ _ _ _ _ _ _ G1 G2) as [R1 R2]. rewrite (jacfwd_D2 _ _ _ _ _ _ _ R1 R2). f_equal; field; lra.
Qed.
Lemma rad_sq p : rad p ^ 2 = (fst p - x0) ^ 2 + (snd p - y0) ^ 2.
Proof. unfold radius. rewrite pow2_sqrt; [reflexivity|]. apply Rplus_le_le_0_compat; apply pow2_ge_0. Qed.
Lemma bright p : off x0 y0 p -> m (rad p) < 1 -> brighter alpha p.
Proof.
  intros H L. assert (P := rad_pos p H). assert (J := jac_eq p H). cbv zeta in J. assert (S := rad_sq p).
  set (X := fst p - x0) in *. set (Y := snd p - y0) in *. set (r := rad p) in *. assert (N := Neg r P). assert (Q := Pos r P). assert (C := Conv r P).
  assert (A : forall t, 0 <= - (m' r * t ^ 2 / r)). { intros t. replace (- (m' r * t ^ 2 / r)) with ((- m' r) * (t ^ 2 * / r)) by (unfold Rdiv; ring). apply Rmult_le_pos; [lra|]. apply Rmult_le_pos; [apply pow2_ge_0|left; apply Rinv_0_lt_compat, P]. }
  assert (AX := A X). assert (AY := A Y).
  assert (D : (1 - m r - m' r * X ^ 2 / r) * (1 - m r - m' r * Y ^ 2 / r) - (- m' r * X * Y / r) * (- m' r * X * Y / r) = (1 - m r) * (1 - m r - r * m' r)).
  { transitivity ((1 - m r) * (1 - m r - m' r * (X ^ 2 + Y ^ 2) / r)); [field; lra|]. rewrite <- S. field. lra. }
  assert (D0 : 0 < (1 - m r) * (1 - m r - r * m' r)) by (apply Rmult_lt_0_compat; nra).
  assert (D1 : (1 - m r) * (1 - m r - r * m' r) < 1) by nra.
  split.
  - unfold pixel_magnification. rewrite J. cbn [m00 m01 m10 m11]. cbv zeta. rewrite D, Rabs_right by lra. destruct (Req_EM_T _ 0) as [E|_]; [lra|]. eexists. split; [reflexivity|].
    apply (Rmult_lt_reg_r ((1 - m r) * (1 - m r - r * m' r))); [exact D0|]. unfold Rdiv. rewrite Rmult_assoc, Rinv_l by lra. lra.
  - rewrite J. unfold not_mirrored. cbn [m00 m01 m10 m11]. rewrite D. lra.
Qed.
Variable E : R.
Hypothesis HE : 0 <= E.
Hypothesis Out : forall r, 0 < r -> E < r -> m r < 1.
Hypothesis In_ : forall r, 0 < r -> r <= E -> 1 <= m r.
Hypothesis At : 0 < E -> m E = 1.
Lemma rising r t : 0 < r -> E < r -> r < t -> r * (1 - m r) < t * (1 - m t).
Proof. intros H L K. assert (A := falling r t H K). assert (B := Out r H L). nra. Qed.
Lemma solve B : 0 < B -> exists r, E < r /\ 0 < r /\ r * (1 - m r) = B.
Proof.
  intros HB. destruct Far as (r0 & R0 & M0).
  assert (Low : exists l, 0 < l /\ E <= l /\ l * (1 - m l) < B).
  { destruct (Rle_lt_or_eq_dec 0 E HE) as [L|L].
    - exists E. rewrite (At L). repeat split; lra.
    - exists (B / 2). assert (Q := Pos (B / 2) ltac:(lra)). repeat split; [lra|lra|nra]. }
  destruct Low as (l & L0 & LE & LB).
  set (hi := l + r0 + B / (1 - m r0)). assert (Q : 0 < B / (1 - m r0)) by (apply Rdiv_lt_0_compat; lra). assert (HH : l < hi /\ r0 < hi) by (unfold hi; lra).
  assert (F : m hi < m r0) by (apply falling; lra).
  assert (HI : B < hi * (1 - m hi)). { apply (Rlt_le_trans _ (hi * (1 - m r0))); [|apply Rmult_le_compat_l; lra]. unfold hi. rewrite Rmult_plus_distr_r. unfold Rdiv. rewrite Rmult_assoc, Rinv_l by lra. nra. }
  destruct (IVT_interv (fun r => r * (1 - m r) - B) l hi) as (z & [Z1 Z2] & Z3).
  - intros a [A1 A2]. apply derivable_continuous_pt. exists (1 * (1 - m a) + a * (0 - m' a) - 0). apply is_derive_Reals. apply (is_derive_minus (fun r => r * (1 - m r)) (fun _ => B)); [|apply (is_derive_const (K := R_AbsRing) (V := R_NormedModule))].
    apply (is_derive_mult (fun r => r) (fun r => 1 - m r)); [apply (is_derive_id (K := R_AbsRing))| |intros; apply Rmult_comm]. apply (is_derive_minus (fun _ => 1) m); [apply (is_derive_const (K := R_AbsRing) (V := R_NormedModule))|apply Dm; lra].
  - lra.
  - lra.
  - lra.
  - cbv beta in Z3. exists z. assert (0 < z) by lra. destruct (Rle_lt_or_eq_dec E z ltac:(lra)) as [L|L]; [repeat split; lra|]. subst z. rewrite (At ltac:(lra)) in Z3. lra.
Qed.
Lemma round_images : one_outside alpha x0 y0 E.
Proof.
  intros b H. assert (B := rad_pos b H). destruct (solve (rad b) B) as (r & LE & L0 & HS). assert (M1 := Out r L0 LE). assert (M0 := Pos r L0).
  exists (/ (1 - m r)). assert (K : 0 < / (1 - m r)) by (apply Rinv_0_lt_compat; lra).
  assert (RO : rad (out x0 y0 (/ (1 - m r)) b) = r). { rewrite rad_scale, Rabs_right by lra. rewrite <- HS. field. lra. }
  assert (OO : off x0 y0 (out x0 y0 (/ (1 - m r)) b)). { unfold off, out. cbn [fst snd]. destruct H as [H|H]; [left|right]; intros Q; apply H; [assert (T : / (1 - m r) * (fst b - x0) = 0) by lra|assert (T : / (1 - m r) * (snd b - y0) = 0) by lra]; apply Rmult_integral in T; lra. }
  split; [rewrite <- Rinv_1; apply Rinv_lt_contravar; lra|]. split; [rewrite RO; exact LE|]. split.
  { apply from_iff. rewrite RO. unfold out. cbn [fst snd]. split; field; lra. }
  split; [apply bright; [exact OO|rewrite RO; exact M1]|].
  intros p Hp Fp. apply from_iff in Fp. assert (P := rad_pos p Hp). set (s := 1 - m (rad p)) in *.
  assert (PE : s <> 0 -> p = out x0 y0 (/ s) b). { intros N. destruct Fp as [F1 F2]. rewrite (surjective_pairing p). unfold out. rewrite <- F1, <- F2. f_equal; field; exact N. }
  destruct (Rtotal_order s 0) as [L|[L|L]].
  - right. specialize (PE ltac:(lra)). split.
    + destruct (Rle_or_lt E (rad p)) as [Q|Q]; [|exact Q]. exfalso. destruct Q as [Q|Q]; [assert (T := Out _ P Q); unfold s in L; lra|]. assert (T := At ltac:(lra)). rewrite Q in T. unfold s in L. lra.
    + exists (- / s). split; [assert (T := Rinv_lt_0_compat s L); lra|]. rewrite Ropp_involutive. exact PE.
  - exfalso. destruct Fp as [F1 F2]. rewrite L in F1, F2. destruct H as [H|H]; apply H; lra.
  - left. specialize (PE ltac:(lra)). assert (G : rad p * s = rad b). { rewrite PE at 1. rewrite rad_scale, Rabs_right by (left; apply Rinv_0_lt_compat, L). field. lra. }
    assert (LP : E < rad p). { destruct (Rle_or_lt (rad p) E) as [Q|Q]; [|exact Q]. assert (T := In_ _ P Q). unfold s in L. lra. }
    assert (RR : rad p = r). { unfold s in G. destruct (Rtotal_order (rad p) r) as [Q|[Q|Q]]; [|exact Q|]; exfalso; [assert (T := rising _ _ P LP Q)|assert (T := rising _ _ L0 LE Q)]; lra. }
    rewrite PE. unfold s. rewrite RR. reflexivity.
Qed.
End Round.
