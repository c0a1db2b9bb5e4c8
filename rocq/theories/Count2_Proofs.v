(** * How many images the round lenses of the library make *)
From Coq Require Import Reals Ranalysis5 Lra Lia Psatz List.
From Coquelicot Require Import Coquelicot.
From Verif Require Import Py Const_Model RealFun Calc2 Geo_Model Lens_Lib LensBase_Model LensBasic_Model Epl_Model Epl_Spec Jaffe_Model Jaffe_Proofs Ring_Spec Ring_Proofs Ring2_Proofs Count_Spec Count_Proofs.
Import ListNotations.
Local Open Scope R_scope.

Lemma near0_bounded (m : R -> R) rc K : 0 < rc -> 0 < K -> (forall r, 0 < r -> m r <= K) -> forall B, 0 < B -> exists a, 0 < a < rc /\ a * (m a - 1) < B.
Proof.
  intros R0 KP Bd B HB. set (a := Rmin (rc / 2) (B / K)). assert (Q : 0 < B / K) by (apply Rdiv_lt_0_compat; lra). assert (A0 : 0 < a) by (apply Rmin_glb_lt; lra). assert (A1 : a <= rc / 2) by apply Rmin_l. assert (A2 : a <= B / K) by apply Rmin_r.
  exists a. split; [lra|]. assert (M := Bd a A0). apply (Rlt_le_trans _ (a * K)); [nra|]. apply (Rle_trans _ (B / K * K)); [apply Rmult_le_compat_r; lra|]. right. field. lra.
Qed.
(** ** isothermal with a core *)
Section Sis.
Variables x0 y0 Rein s : R.
Hypotheses (Hs : 0 < s) (HR : s < Rein).
Let u := sqrt Rein.
Let v := sqrt s.
Lemma uv : u ^ 2 = Rein /\ v ^ 2 = s /\ 0 < v /\ v < u.
Proof. unfold u, v. rewrite !pow2_sqrt by lra. repeat split; [apply sqrt_lt_R0, Hs|apply sqrt_lt_1_alt; lra]. Qed.
Lemma sis_caustic : radial_caustic (reduced_deflection_angle_sis x0 y0 Rein s) x0 y0 ((u - v) ^ 2).
Proof.
  destruct uv as (U & V & V0 & UV). set (rc := v * (u - v)). assert (R0 : 0 < rc) by (apply Rmult_lt_0_compat; lra).
  assert (RS : rc + s = u * v) by (unfold rc; lra).
  replace ((u - v) ^ 2) with (rc * (Rein / (rc + s) - 1)) by (rewrite RS, <- U; unfold rc; field; lra).
  assert (O := sis_one_outside x0 y0 Rein s ltac:(lra) ltac:(lra)). rewrite Rmax_right in O by lra.
  assert (A : forall r, 0 < r -> Rein / (r + s) + r * (- Rein / (r + s) ^ 2) = Rein * s / (r + s) ^ 2) by (intros r H; field; lra).
  apply (caustic x0 y0 _ (fun r => Rein / (r + s)) (fun r => - Rein / (r + s) ^ 2) (sis_form x0 y0 Rein s) (Rein - s) O).
  - intros r H L. apply (Rmult_le_reg_r (r + s)); [lra|]. unfold Rdiv. rewrite Rmult_assoc, Rinv_l by lra. lra.
  - replace (Rein - s + s) with Rein by ring. field. lra.
  - intros r H. apply (sis_d Rein s); lra.
  - split; [exact R0|]. unfold rc. nra.
  - intros r H. rewrite A by lra. assert (P : 0 < (r + s) ^ 2) by (apply pow_lt; lra). apply (Rmult_lt_reg_r ((r + s) ^ 2)); [exact P|]. unfold Rdiv. rewrite Rmult_assoc, Rinv_l by lra. rewrite <- U, <- V at 1. assert (r + s < u * v) by lra. nra.
  - intros r H. rewrite A by lra. assert (P : 0 < (r + s) ^ 2) by (apply pow_lt; lra). apply (Rmult_lt_reg_r ((r + s) ^ 2)); [exact P|]. unfold Rdiv. rewrite Rmult_assoc, Rinv_l by lra. rewrite <- U, <- V at 1. assert (u * v < r + s) by lra. assert (0 < u * v) by nra. nra.
  - apply (near0_bounded (fun r => Rein / (r + s)) rc (Rein / s)); [exact R0|apply Rdiv_lt_0_compat; lra|]. intros r H. unfold Rdiv. apply Rmult_le_compat_l; [lra|]. apply Rinv_le_contravar; lra.
Qed.
End Sis.
(** ** point with a core *)
Section Point.
Variables x0 y0 Rein s : R.
Hypotheses (Hs : 0 < s) (HR : s < Rein).
Let A := fun r => Rein ^ 2 * (s - r) / (r + s) ^ 3.
Lemma A_mono r t : 0 <= r -> r < t -> 0 < A t -> A t < A r.
Proof.
  intros H L P. assert (T : 0 < (t + s) ^ 3) by (apply pow_lt; lra). assert (T' : 0 < (r + s) ^ 3) by (apply pow_lt; lra). assert (Z : 0 < Rein ^ 2) by (apply pow_lt; lra).
  assert (S : 0 < s - t). { unfold A in P. apply (Rmult_lt_compat_r _ _ _ T) in P. unfold Rdiv in P. rewrite Rmult_assoc, Rinv_l, Rmult_0_l, Rmult_1_r in P by lra. apply Rnot_le_lt. intros Q. nra. }
  unfold A, Rdiv. rewrite !Rmult_assoc. apply Rmult_lt_compat_l; [exact Z|]. assert (C : (r + s) ^ 3 < (t + s) ^ 3) by (assert (0 < r + s) by lra; assert (r + s < t + s) by lra; assert ((r + s) ^ 2 < (t + s) ^ 2) by nra; change ((r + s) * (r + s) ^ 2 < (t + s) * (t + s) ^ 2); assert (0 < (r + s) ^ 2) by (apply pow_lt; lra); nra).
  assert (I : / (t + s) ^ 3 < / (r + s) ^ 3) by (apply Rinv_lt_contravar; [apply Rmult_lt_0_compat; assumption|exact C]). assert (I0 := Rinv_0_lt_compat _ T). nra.
Qed.
Lemma point_caustic : exists bc, radial_caustic (reduced_deflection_angle_point x0 y0 Rein s) x0 y0 bc.
Proof.
  set (E := Rein - s). assert (Z : 0 < Rein ^ 2) by (apply pow_lt; lra).
  destruct (IVT_interv (fun r => 1 - A r) 0 E) as (rc & [R1 R2] & R3).
  - intros a H. apply derivable_continuous_pt. exists (0 - (Rein ^ 2 * (2 * a - 4 * s) / (a + s) ^ 4)). apply is_derive_Reals. apply (is_derive_minus (fun _ => 1) A); [apply (is_derive_const (K := R_AbsRing) (V := R_NormedModule))|]. unfold A. auto_derive; [apply Rgt_not_eq; assert (0 < (a + s) ^ 3) by (apply pow_lt; lra); cbn [pow] in *; lra|]. field. lra.
  - unfold E. lra.
  - unfold A. rewrite Rplus_0_l, Rminus_0_r. replace (Rein ^ 2 * s / s ^ 3) with ((Rein / s) ^ 2) by (field; lra). assert (1 < Rein / s) by (apply (Rmult_lt_reg_r s); [lra|]; unfold Rdiv; rewrite Rmult_assoc, Rinv_l by lra; lra). nra.
  - unfold A, E. replace (Rein - s + s) with Rein by ring. replace (Rein ^ 2 * (s - (Rein - s)) / Rein ^ 3) with ((2 * s - Rein) / Rein) by (field; lra). assert ((2 * s - Rein) / Rein < 1) by (apply (Rmult_lt_reg_r Rein); [lra|]; unfold Rdiv; rewrite Rmult_assoc, Rinv_l by lra; lra). lra.
  - cbv beta in R3. assert (AC : A rc = 1) by lra.
    assert (R0 : 0 < rc). { destruct R1 as [L|L]; [exact L|]. exfalso. rewrite <- L in AC. unfold A in AC. rewrite Rplus_0_l, Rminus_0_r in AC. replace (Rein ^ 2 * s / s ^ 3) with ((Rein / s) ^ 2) in AC by (field; lra). assert (1 < Rein / s) by (apply (Rmult_lt_reg_r s); [lra|]; unfold Rdiv; rewrite Rmult_assoc, Rinv_l by lra; lra). nra. }
    assert (RE : rc < E). { destruct R2 as [L|L]; [exact L|]. exfalso. rewrite L in AC. unfold A, E in AC. replace (Rein - s + s) with Rein in AC by ring. replace (Rein ^ 2 * (s - (Rein - s)) / Rein ^ 3) with ((2 * s - Rein) / Rein) in AC by (field; lra). apply (Rmult_eq_compat_r Rein) in AC. unfold Rdiv in AC. rewrite Rmult_assoc, Rinv_l in AC by lra. lra. }
    exists (rc * (Rein ^ 2 / (rc + s) ^ 2 - 1)). assert (O := point_one_outside x0 y0 Rein s ltac:(lra) ltac:(lra)). rewrite Rmax_right in O by lra.
    assert (AE : forall r, 0 < r -> Rein ^ 2 / (r + s) ^ 2 + r * (- 2 * Rein ^ 2 / (r + s) ^ 3) = A r) by (intros r H; unfold A; field; lra).
    assert (PL := fun r => point_less Rein s ltac:(lra) ltac:(lra) r).
    apply (caustic x0 y0 _ (fun r => Rein ^ 2 / (r + s) ^ 2) (fun r => - 2 * Rein ^ 2 / (r + s) ^ 3) (point_form x0 y0 Rein s) E O).
    + intros r H [L|L]; [left; apply (PL r H); exact L|right; apply (PL r H); symmetry; exact L].
    + apply (PL E); [unfold E; lra|reflexivity].
    + intros r H. apply (point_d Rein s); lra.
    + split; assumption.
    + intros r H. rewrite AE by lra. rewrite <- AC. apply A_mono; lra.
    + intros r H. rewrite AE by lra. apply Rnot_le_lt. intros Q. assert (T := A_mono rc r ltac:(lra) H ltac:(lra)). lra.
    + apply (near0_bounded (fun r => Rein ^ 2 / (r + s) ^ 2) rc (Rein ^ 2 / s ^ 2)); [exact R0|apply Rdiv_lt_0_compat; [exact Z|apply pow_lt, Hs]|]. intros r H. unfold Rdiv. apply Rmult_le_compat_l; [lra|]. apply Rinv_le_contravar; [apply pow_lt, Hs|]. apply pow_incr. lra.
Qed.
End Point.
(** ** pseudo Jaffe *)
Section Jaffe.
Variables x0 y0 mass Rc Rs d_l sigma : R.
Hypotheses (Hm : 0 < mass) (HRc : 0 < Rc) (HRs : 0 < Rs) (Hne : Rc <> Rs) (Hl : 0 < d_l) (Hsg : 0 < sigma).
Let k0 := convergence_0_pseudo_jaffe mass Rc Rs d_l sigma.
Let co := 2 * k0 * Rc * Rs / (Rs - Rc).
Let F := fun a r => / (a + sqrt (a ^ 2 + r ^ 2)).
Let F' := fun a r => - r / (sqrt (a ^ 2 + r ^ 2) * (a + sqrt (a ^ 2 + r ^ 2)) ^ 2).
Let m := fun r => co * (F Rc r - F Rs r).
Let m' := fun r => co * (F' Rc r - F' Rs r).
Let ph := fun a r => a / (sqrt (a ^ 2 + r ^ 2) * (a + sqrt (a ^ 2 + r ^ 2))).
Let A := fun r => co * (ph Rc r - ph Rs r).
Lemma k0p : 0 < k0. Proof. apply k0_pos; assumption. Qed.
Lemma ph_pos a r : 0 < a -> 0 < ph a r.
Proof. intros H. assert (P := hyp_pos a r H). unfold ph. apply Rdiv_lt_0_compat; [exact H|]. apply Rmult_lt_0_compat; lra. Qed.
Lemma ph_eq a r : 0 < a -> F a r + r * F' a r = ph a r.
Proof.
  intros H. assert (P := hyp_pos a r H). assert (Q := hyp_sq a r). unfold F, F', ph. set (w := sqrt (a ^ 2 + r ^ 2)) in *.
  transitivity ((w * (a + w) - r ^ 2) / (w * (a + w) ^ 2)); [field; lra|]. replace (r ^ 2) with (w ^ 2 - a ^ 2) by lra. field. lra.
Qed.
Lemma ph_dec a r t : 0 < a -> 0 <= r -> r < t -> ph a t < ph a r.
Proof.
  intros H R0 L. assert (P := hyp_pos a r H). assert (I : sqrt (a ^ 2 + r ^ 2) < sqrt (a ^ 2 + t ^ 2)) by (apply sqrt_lt_1_alt; split; [apply Rplus_le_le_0_compat; apply pow2_ge_0|nra]). unfold ph.
  set (w := sqrt (a ^ 2 + r ^ 2)) in *. set (z := sqrt (a ^ 2 + t ^ 2)) in *. unfold Rdiv. apply Rmult_lt_compat_l; [exact H|]. apply Rinv_lt_contravar; [repeat apply Rmult_lt_0_compat; lra|nra].
Qed.
(** the profile with the smaller radius loses against the other one *)
Lemma ph_ratio a b r t : 0 < a -> a < b -> 0 <= r -> r < t -> ph a t * ph b r <= ph a r * ph b t.
Proof.
  intros H AB R0 L. assert (U0 := hyp_pos a r H). assert (U1 := hyp_pos a t H). assert (V0 := hyp_pos b r ltac:(lra)). assert (V1 := hyp_pos b t ltac:(lra)).
  assert (QU0 := hyp_sq a r). assert (QU1 := hyp_sq a t). assert (QV0 := hyp_sq b r). assert (QV1 := hyp_sq b t). unfold ph.
  set (u0 := sqrt (a ^ 2 + r ^ 2)) in *. set (u1 := sqrt (a ^ 2 + t ^ 2)) in *. set (v0 := sqrt (b ^ 2 + r ^ 2)) in *. set (v1 := sqrt (b ^ 2 + t ^ 2)) in *.
  assert (RT : r ^ 2 < t ^ 2) by nra. assert (AB2 : a ^ 2 < b ^ 2) by nra.
  assert (K1 : u0 * v1 <= u1 * v0). { apply Rnot_lt_le. intros N. assert (S : (u1 * v0) ^ 2 < (u0 * v1) ^ 2) by (assert (0 < u1 * v0) by (apply Rmult_lt_0_compat; lra); nra). rewrite !Rpow_mult_distr, QU0, QU1, QV0, QV1 in S. nra. }
  assert (D : v1 - v0 <= u1 - u0). { assert (UV0 : u0 < v0) by nra. assert (UV1 : u1 < v1) by nra. assert (E1 : (u1 - u0) * (u1 + u0) = (v1 - v0) * (v1 + v0)) by lra. assert (0 < v1 - v0) by nra. nra. }
  assert (D0 : 0 < v1 - v0) by nra.
  assert (K2 : (a + u0) * (b + v1) <= (a + u1) * (b + v0)). { replace ((a + u1) * (b + v0)) with ((a + u0) * (b + v1) + (b * (u1 - u0) - a * (v1 - v0)) + (u1 * v0 - u0 * v1)) by ring. assert (0 <= b * (u1 - u0) - a * (v1 - v0)) by nra. lra. }
  assert (E1 : a / (u1 * (a + u1)) * (b / (v0 * (b + v0))) = a * b * / ((u1 * v0) * ((a + u1) * (b + v0)))) by (field; repeat split; lra).
  assert (E2 : a / (u0 * (a + u0)) * (b / (v1 * (b + v1))) = a * b * / ((u0 * v1) * ((a + u0) * (b + v1)))) by (field; repeat split; lra).
  rewrite E1, E2. apply Rmult_le_compat_l; [nra|]. assert (W1 : 0 < u0 * v1) by (apply Rmult_lt_0_compat; lra). assert (W2 : 0 < (a + u0) * (b + v1)) by (apply Rmult_lt_0_compat; lra).
  apply Rinv_le_contravar; [apply Rmult_lt_0_compat; assumption|]. apply Rmult_le_compat; lra.
Qed.
Lemma ph_gap a b r t : 0 < a -> a < b -> 0 <= r -> r < t -> 0 < ph a t - ph b t -> ph a t - ph b t < ph a r - ph b r.
Proof.
  intros H AB R0 L P. assert (X := ph_ratio a b r t H AB R0 L). assert (Y := ph_dec b r t ltac:(lra) R0 L). assert (Z := ph_pos b t ltac:(lra)). apply (Rmult_lt_reg_r (ph b t)); [exact Z|]. nra.
Qed.
Lemma A_mono_j r t : 0 <= r -> r < t -> 0 < A t -> A t < A r.
Proof.
  intros R0 L P. assert (K := k0p). assert (KK : 0 < 2 * k0 * Rc * Rs) by (do 3 (apply Rmult_lt_0_compat; [|assumption]); lra). unfold A, co in *.
  destruct (Rtotal_order Rc Rs) as [Q|[Q|Q]]; [|contradiction|].
  - assert (C : 0 < 2 * k0 * Rc * Rs / (Rs - Rc)) by (apply Rdiv_lt_0_compat; lra). set (cc := 2 * k0 * Rc * Rs / (Rs - Rc)) in *. apply Rmult_lt_compat_l; [exact C|]. apply ph_gap; try assumption. nra.
  - assert (S : forall x, 2 * k0 * Rc * Rs / (Rs - Rc) * (ph Rc x - ph Rs x) = 2 * k0 * Rc * Rs / (Rc - Rs) * (ph Rs x - ph Rc x)) by (intros x; field; lra). rewrite !S in *.
    assert (C : 0 < 2 * k0 * Rc * Rs / (Rc - Rs)) by (apply Rdiv_lt_0_compat; lra). set (cc := 2 * k0 * Rc * Rs / (Rc - Rs)) in *. apply Rmult_lt_compat_l; [exact C|]. apply ph_gap; try assumption. nra.
Qed.
Lemma A_eq r : m r + r * m' r = A r.
Proof. unfold m, m', A. rewrite <- !ph_eq by assumption. ring. Qed.
Lemma A_cont r : continuity_pt A r.
Proof.
  apply derivable_continuous_pt. apply ex_derive_Reals_0. unfold A, ph. assert (P1 := hyp_pos Rc r HRc). assert (P2 := hyp_pos Rs r HRs).
  auto_derive. replace (Rc * (Rc * 1)) with (Rc ^ 2) by ring. replace (Rs * (Rs * 1)) with (Rs ^ 2) by ring. replace (r * (r * 1)) with (r ^ 2) by ring. repeat split; try (apply Rgt_not_eq, Rmult_lt_0_compat; lra); nra.
Qed.
Lemma A_0 : A 0 = k0.
Proof. rewrite <- A_eq, Rmult_0_l, Rplus_0_r. apply (m_at_0 mass Rc Rs d_l sigma); assumption. Qed.
Lemma jaffe_caustic : 1 < convergence_pseudo_jaffe x0 y0 mass Rc Rs x0 y0 d_l sigma 0 -> exists bc, radial_caustic (fun x y => reduced_deflection_angle_pseudo_jaffe x0 y0 mass Rc Rs x y d_l sigma 0) x0 y0 bc.
Proof.
  intros W. destruct (jaffe_strong x0 y0 mass Rc Rs d_l sigma Hm HRc HRs Hne Hl Hsg W) as (E & [E0 RI] & O). rewrite (centre_k0 x0 y0 mass Rc Rs d_l sigma HRc HRs Hne) in W. fold k0 in W.
  assert (FM := jaffe_form x0 y0 mass Rc Rs d_l sigma HRc HRs).
  assert (ME : m E = 1).
  { assert (Q : radius x0 y0 (x0 + E, y0) = E) by (unfold radius; cbn [fst snd]; replace ((x0 + E - x0) ^ 2 + (y0 - y0) ^ 2) with (E ^ 2) by ring; apply sqrt_pow2; lra). assert (OF : off x0 y0 (x0 + E, y0)) by (left; cbn; lra).
    assert (T := proj2 (RI _ OF) Q). apply (from_iff x0 y0 _ m FM) in T. destruct T as [T _]. rewrite Q in T. cbn [fst snd] in T. nra. }
  assert (MN := fun r => m_neg mass Rc Rs d_l sigma Hm HRc HRs Hne Hl Hsg r). change (forall r, 0 < r -> m' r < 0) in MN.
  assert (MD := m_derive mass Rc Rs d_l sigma HRc HRs). change (forall r, is_derive m r (m' r)) in MD.
  assert (AE : A E < 1) by (rewrite <- A_eq, ME; assert (T := MN E E0); nra).
  destruct (IVT_interv (fun r => 1 - A r) 0 E) as (rc & [R1 R2] & R3); [intros a _; apply continuity_pt_minus; [apply continuity_pt_const; intros ? ?; reflexivity|apply A_cont]|exact E0|rewrite A_0; lra|lra|].
  cbv beta in R3. assert (R0 : 0 < rc) by (destruct R1 as [L|L]; [exact L|rewrite <- L, A_0 in R3; lra]). assert (RE : rc < E) by (destruct R2 as [L|L]; [exact L|rewrite L in R3; lra]).
  exists (rc * (m rc - 1)). apply (caustic x0 y0 _ m m' FM E O).
  - intros r H [L|L]; [left; rewrite <- ME; apply (falling m m' (fun t _ => MD t) MN); lra|rewrite <- L; lra].
  - exact ME.
  - intros r _. apply MD.
  - split; assumption.
  - intros r H. rewrite A_eq. assert (T := A_mono_j r rc ltac:(lra) ltac:(lra) ltac:(lra)). lra.
  - intros r H. rewrite A_eq. apply Rnot_le_lt. intros Q. assert (T := A_mono_j rc r ltac:(lra) H ltac:(lra)). lra.
  - apply (near0_bounded m rc k0); [exact R0|exact k0p|]. intros r H. left. unfold k0. rewrite <- (m_at_0 mass Rc Rs d_l sigma) by assumption. apply (m_less mass Rc Rs d_l sigma); assumption.
Qed.
Lemma jaffe_single : convergence_pseudo_jaffe x0 y0 mass Rc Rs x0 y0 d_l sigma 0 <= 1 -> forall b, off x0 y0 b -> image_count (fun x y => reduced_deflection_angle_pseudo_jaffe x0 y0 mass Rc Rs x y d_l sigma 0) x0 y0 b 1.
Proof.
  intros W b Hb. assert (O := jaffe_weak x0 y0 mass Rc Rs d_l sigma Hm HRc HRs Hne Hl Hsg W). assert (B := rad_pos x0 y0 b Hb). rewrite (centre_k0 x0 y0 mass Rc Rs d_l sigma HRc HRs Hne) in W. fold k0 in W.
  assert (ML : forall r, 0 < r -> m r < 1) by (intros r H; apply (Rlt_le_trans _ k0); [unfold k0; rewrite <- (m_at_0 mass Rc Rs d_l sigma) by assumption; apply (m_less mass Rc Rs d_l sigma); assumption|exact W]).
  apply (count_from x0 y0 _ m m' (jaffe_form x0 y0 mass Rc Rs d_l sigma HRc HRs) 0 O (fun r H _ => Rlt_le _ _ (ML r H)) b []); [exact Hb|constructor| |intros r []].
  intros r H. split; [|intros []]. intros Q. assert (T := ML r H). nra.
Qed.
End Jaffe.
(** ** round power law *)
Section Epl.
Variables (x0 y0 phi Rein t : R) (n : nat) (c : option nat).
Hypotheses (HR : 0 < Rein) (Ht : 0 < t < 2).
Let m := fun r => Rpower (Rein / r) t.
Let m' := fun r => - t * m r / r.
Let alpha := fun x y => (m (sqrt ((x - x0) ^ 2 + (y - y0) ^ 2)) * (x - x0), m (sqrt ((x - x0) ^ 2 + (y - y0) ^ 2)) * (y - y0)).
Let Ex : forall r, 0 < r -> m r = exp (t * (ln Rein - ln r)) := m_exp Rein t HR.
Let Le : forall r, 0 < r -> (m r < 1 <-> Rein < r) /\ (m r = 1 <-> r = Rein) := epl_less Rein t HR Ht.
Let De : forall r, 0 < r -> is_derive m r (m' r) := epl_d Rein t HR.
Lemma epl_out r : 0 < r -> Rein <= r -> m r <= 1.
Proof. intros H [L|L]; [left; apply (Le r H), L|right; apply (Le r H); symmetry; exact L]. Qed.
Lemma rm r : 0 < r -> r * m r = exp ((1 - t) * ln r + t * ln Rein).
Proof. intros H. rewrite (Ex r H). rewrite <- (exp_ln r H) at 1. rewrite <- exp_plus. f_equal. ring. Qed.
Lemma epl_caustic : t < 1 -> radial_caustic alpha x0 y0 (t / (1 - t) * (Rein * Rpower (1 - t) (/ t))).
Proof.
  intros T1. set (rc := Rein * Rpower (1 - t) (/ t)). assert (P0 : 0 < Rpower (1 - t) (/ t)) by apply exp_pos. assert (R0 : 0 < rc) by (apply Rmult_lt_0_compat; assumption).
  assert (LR : t * (ln Rein - ln rc) = - ln (1 - t)). { unfold rc. rewrite ln_mult by assumption. unfold Rpower. rewrite ln_exp. field. lra. }
  assert (MC : m rc = / (1 - t)) by (rewrite (Ex rc R0), LR, exp_Ropp, exp_ln by lra; reflexivity).
  assert (L1 : ln (1 - t) < 0) by (rewrite <- ln_1; apply ln_increasing; lra).
  assert (RE : rc < Rein) by (apply ln_lt_inv; [exact R0|exact HR|nra]).
  replace (t / (1 - t) * rc) with (rc * (m rc - 1)) by (rewrite MC; field; lra).
  assert (AE : forall r, 0 < r -> m r + r * m' r = exp (t * (ln rc - ln r))). { intros r H. unfold m'. transitivity ((1 - t) * m r); [field; lra|]. rewrite (Ex r H). rewrite <- (exp_ln (1 - t)) at 1 by lra. rewrite <- exp_plus. f_equal. lra. }
  apply (caustic x0 y0 alpha m m' (fun x y => eq_refl) Rein (epl_one_outside x0 y0 Rein t HR Ht) epl_out).
  - apply (Le Rein HR). reflexivity.
  - exact De.
  - split; assumption.
  - intros r H. rewrite AE by lra. rewrite <- exp_0. apply exp_increasing. assert (L := ln_increasing r rc ltac:(lra) ltac:(lra)). nra.
  - intros r H. rewrite AE by lra. rewrite <- exp_0. apply exp_increasing. assert (L := ln_increasing rc r ltac:(lra) ltac:(lra)). nra.
  - intros B HB. set (l := Rmin ((ln B - t * ln Rein) / (1 - t)) (ln rc) - 1). exists (exp l). assert (E0 := exp_pos l).
    assert (Q1 : l < ln rc) by (unfold l; assert (W := Rmin_r ((ln B - t * ln Rein) / (1 - t)) (ln rc)); lra). assert (Q2 : l < (ln B - t * ln Rein) / (1 - t)) by (unfold l; assert (W := Rmin_l ((ln B - t * ln Rein) / (1 - t)) (ln rc)); lra).
    split; [split; [exact E0|]; rewrite <- (exp_ln rc R0); apply exp_increasing, Q1|]. replace (exp l * (m (exp l) - 1)) with (exp l * m (exp l) - exp l) by ring. rewrite (rm (exp l) E0), ln_exp.
    apply (Rlt_trans _ (exp ((1 - t) * l + t * ln Rein))); [lra|]. rewrite <- (exp_ln B HB). apply exp_increasing. apply (Rmult_lt_compat_r (1 - t)) in Q2; [|lra]. unfold Rdiv in Q2. rewrite Rmult_assoc, Rinv_l in Q2 by lra. lra.
Qed.
Lemma epl_two : 1 < t -> forall b, off x0 y0 b -> image_count alpha x0 y0 b 2.
Proof.
  intros T1 b Hb. assert (B := rad_pos x0 y0 b Hb). set (B0 := radius x0 y0 b) in *. assert (X : exists r0, 0 < r0 /\ r0 * (m r0 - 1) = B0).
  { set (q := (t * ln Rein - ln (B0 + Rein)) / (t - 1)). set (l := Rmin q (ln Rein) - 1). assert (Q1 : l < ln Rein) by (unfold l; assert (W := Rmin_r q (ln Rein)); lra). assert (Q2 : l < q) by (unfold l; assert (W := Rmin_l q (ln Rein)); lra).
    assert (E0 := exp_pos l). assert (ER : exp l < Rein) by (rewrite <- (exp_ln Rein HR); apply exp_increasing, Q1).
    destruct (IVT_interv (fun r => B0 - r * (m r - 1)) (exp l) Rein) as (r0 & [Z1 Z2] & Z3).
    - intros a [A1 A2]. apply derivable_continuous_pt. exists (0 - (1 * (m a - 1) + a * (m' a - 0))). apply is_derive_Reals. assert (D := De a ltac:(lra)).
      apply (is_derive_minus (fun _ => B0) (fun r => r * (m r - 1))); [apply (is_derive_const (K := R_AbsRing) (V := R_NormedModule))|]. apply (is_derive_mult (fun r => r) (fun r => m r - 1)); [apply (is_derive_id (K := R_AbsRing))| |intros; apply Rmult_comm]. apply (is_derive_minus m (fun _ => 1)); [exact D|apply (is_derive_const (K := R_AbsRing) (V := R_NormedModule))].
    - exact ER.
    - replace (exp l * (m (exp l) - 1)) with (exp l * m (exp l) - exp l) by ring. rewrite (rm (exp l) E0), ln_exp. assert (W : B0 + Rein < exp ((1 - t) * l + t * ln Rein)). { rewrite <- (exp_ln (B0 + Rein)) at 1 by lra. apply exp_increasing. unfold q in Q2. apply (Rmult_lt_compat_r (t - 1)) in Q2; [|lra]. unfold Rdiv in Q2. rewrite Rmult_assoc, Rinv_l in Q2 by lra. lra. } lra.
    - rewrite (proj2 (proj2 (Le Rein HR)) eq_refl). lra.
    - exists r0. cbv beta in Z3. split; lra. }
  destruct X as (r0 & P0 & G0).
  assert (DEC : forall r s, 0 < r -> r < s -> s * (m s - 1) < r * (m r - 1)). { intros r s H L. replace (s * (m s - 1)) with (s * m s - s) by ring. replace (r * (m r - 1)) with (r * m r - r) by ring. rewrite !rm by lra. assert (W := ln_increasing r s H L). assert (exp ((1 - t) * ln s + t * ln Rein) < exp ((1 - t) * ln r + t * ln Rein)) by (apply exp_increasing; nra). lra. }
  apply (count_from x0 y0 alpha m m' (fun x y => eq_refl) Rein (epl_one_outside x0 y0 Rein t HR Ht) epl_out b [r0]); [exact Hb|constructor; [intros []|constructor]| |intros r [<-|[]]; exact P0].
  intros r H. fold B0. split.
  - intros Q. left. destruct (Rtotal_order r0 r) as [L|[L|L]]; [assert (W := DEC r0 r P0 L); lra|exact L|assert (W := DEC r r0 H L); lra].
  - intros [<-|[]]. exact G0.
Qed.
Lemma epl_iso : t = 1 -> forall b, off x0 y0 b -> (radius x0 y0 b < Rein -> image_count alpha x0 y0 b 2) /\ (Rein <= radius x0 y0 b -> image_count alpha x0 y0 b 1).
Proof.
  intros T1 b Hb. assert (B := rad_pos x0 y0 b Hb). assert (G : forall r, 0 < r -> r * (m r - 1) = Rein - r). { intros r H. replace (r * (m r - 1)) with (r * m r - r) by ring. rewrite (rm r H), T1, Rminus_eq_0, Rmult_0_l, Rplus_0_l, Rmult_1_l, exp_ln by exact HR. reflexivity. }
  assert (CF := count_from x0 y0 alpha m m' (fun x y => eq_refl) Rein (epl_one_outside x0 y0 Rein t HR Ht) epl_out b). split; intros L.
  - apply (CF [Rein - radius x0 y0 b]); [exact Hb|constructor; [intros []|constructor]| |intros r [<-|[]]; lra]. intros r H. rewrite (G r H). cbn [In]. split; [intros Q; left; lra|intros [Q|[]]; lra].
  - apply (CF []); [exact Hb|constructor| |intros r []]. intros r H. rewrite (G r H). cbn [In]. split; [lra|intros []].
Qed.
End Epl.
(** ** large cores and no core *)
Section Cores.
Variables x0 y0 Rein s : R.
Hypothesis HR : 0 < Rein.
Lemma sis_wide : Rein <= s -> forall b, off x0 y0 b -> image_count (reduced_deflection_angle_sis x0 y0 Rein s) x0 y0 b 1.
Proof.
  intros L b Hb. assert (B := rad_pos x0 y0 b Hb). assert (O := sis_one_outside x0 y0 Rein s ltac:(lra) ltac:(lra)). rewrite Rmax_left in O by lra.
  assert (ML : forall r, 0 < r -> Rein / (r + s) < 1) by (intros r H; apply (Rmult_lt_reg_r (r + s)); [lra|]; unfold Rdiv; rewrite Rmult_assoc, Rinv_l by lra; lra).
  apply (count_from x0 y0 _ (fun r => Rein / (r + s)) (fun r => 0) (sis_form x0 y0 Rein s) 0 O (fun r H _ => Rlt_le _ _ (ML r H)) b []); [exact Hb|constructor| |intros r []].
  intros r H. split; [|intros []]. intros Q. assert (T := ML r H). nra.
Qed.
Lemma sis_sharp : forall b, off x0 y0 b -> (radius x0 y0 b < Rein -> image_count (reduced_deflection_angle_sis x0 y0 Rein 0) x0 y0 b 2) /\ (Rein <= radius x0 y0 b -> image_count (reduced_deflection_angle_sis x0 y0 Rein 0) x0 y0 b 1).
Proof.
  intros b Hb. assert (B := rad_pos x0 y0 b Hb). assert (O := sis_one_outside x0 y0 Rein 0 ltac:(lra) ltac:(lra)). rewrite Rmax_right in O by lra.
  assert (G : forall r, 0 < r -> r * (Rein / (r + 0) - 1) = Rein - r) by (intros r H; field; lra).
  assert (Out : forall r, 0 < r -> Rein - 0 <= r -> Rein / (r + 0) <= 1) by (intros r H L; apply (Rmult_le_reg_r (r + 0)); [lra|]; unfold Rdiv; rewrite Rmult_assoc, Rinv_l by lra; lra).
  assert (CF := count_from x0 y0 _ (fun r => Rein / (r + 0)) (fun r => 0) (sis_form x0 y0 Rein 0) (Rein - 0) O Out b). split; intros L.
  - apply (CF [Rein - radius x0 y0 b]); [exact Hb|constructor; [intros []|constructor]| |intros r [<-|[]]; lra]. intros r H. rewrite (G r H). cbn [In]. split; [intros Q; left; lra|intros [Q|[]]; lra].
  - apply (CF []); [exact Hb|constructor| |intros r []]. intros r H. rewrite (G r H). cbn [In]. split; [lra|intros []].
Qed.
Lemma point_wide : Rein <= s -> forall b, off x0 y0 b -> image_count (reduced_deflection_angle_point x0 y0 Rein s) x0 y0 b 1.
Proof.
  intros L b Hb. assert (B := rad_pos x0 y0 b Hb). assert (O := point_one_outside x0 y0 Rein s ltac:(lra) ltac:(lra)). rewrite Rmax_left in O by lra.
  assert (ML : forall r, 0 < r -> Rein ^ 2 / (r + s) ^ 2 < 1) by (intros r H; apply (point_less Rein s); lra).
  apply (count_from x0 y0 _ (fun r => Rein ^ 2 / (r + s) ^ 2) (fun r => 0) (point_form x0 y0 Rein s) 0 O (fun r H _ => Rlt_le _ _ (ML r H)) b []); [exact Hb|constructor| |intros r []].
  intros r H. split; [|intros []]. intros Q. assert (T := ML r H). nra.
Qed.
Lemma point_sharp : forall b, off x0 y0 b -> image_count (reduced_deflection_angle_point x0 y0 Rein 0) x0 y0 b 2.
Proof.
  intros b Hb. assert (B := rad_pos x0 y0 b Hb). set (B0 := radius x0 y0 b) in *. assert (O := point_one_outside x0 y0 Rein 0 ltac:(lra) ltac:(lra)). rewrite Rmax_right in O by lra.
  assert (Out : forall r, 0 < r -> Rein - 0 <= r -> Rein ^ 2 / (r + 0) ^ 2 <= 1) by (intros r H [L|L]; [left; apply (point_less Rein 0); lra|right; apply (point_less Rein 0); lra]).
  set (D := sqrt (B0 ^ 2 + 4 * Rein ^ 2)). assert (DD : D ^ 2 = B0 ^ 2 + 4 * Rein ^ 2) by (apply pow2_sqrt; nra). assert (DB : B0 < D) by (assert (0 <= D) by apply sqrt_pos; nra).
  apply (count_from x0 y0 _ (fun r => Rein ^ 2 / (r + 0) ^ 2) (fun r => 0) (point_form x0 y0 Rein 0) (Rein - 0) O Out b [(D - B0) / 2]); [exact Hb|constructor; [intros []|constructor]| |intros r [<-|[]]; lra].
  intros r H. fold B0. replace (r * (Rein ^ 2 / (r + 0) ^ 2 - 1)) with ((Rein ^ 2 - r ^ 2) / r) by (field; lra). cbn [In]. split.
  - intros Q. left. apply (Rmult_eq_compat_r r) in Q. unfold Rdiv in Q. rewrite Rmult_assoc, Rinv_l in Q by lra. assert (Z : (2 * r + B0 - D) * (2 * r + B0 + D) = 0) by (replace ((2 * r + B0 - D) * (2 * r + B0 + D)) with ((2 * r + B0) ^ 2 - D ^ 2) by ring; rewrite DD; nra). apply Rmult_integral in Z. destruct Z; lra.
  - intros [<-|[]]. apply (Rmult_eq_reg_r ((D - B0) / 2)); [|lra]. unfold Rdiv at 1. rewrite Rmult_assoc, Rinv_l by lra. nra.
Qed.
End Cores.
Lemma epl_count x0 y0 phi Rein t n c : 0 < Rein -> 0 < t < 2 -> (1 <= n)%nat -> good_chunk n c ->
  exists a, (forall x y, reduced_deflection_angle_epl x0 y0 1 phi Rein t n c x y = Ok (a x y)) /\
  (t < 1 -> radial_caustic a x0 y0 (t / (1 - t) * (Rein * Rpower (1 - t) (/ t)))) /\
  (1 < t -> forall b, off x0 y0 b -> image_count a x0 y0 b 2) /\
  (t = 1 -> forall b, off x0 y0 b -> (radius x0 y0 b < Rein -> image_count a x0 y0 b 2) /\ (Rein <= radius x0 y0 b -> image_count a x0 y0 b 1)).
Proof. intros HR Ht Hn Hc. eexists. split; [exact (epl_form x0 y0 phi Rein t n c HR Hn Hc)|]. split; [exact (epl_caustic x0 y0 Rein t HR Ht)|]. split; [exact (epl_two x0 y0 Rein t HR Ht)|exact (epl_iso x0 y0 Rein t HR Ht)]. Qed.
Lemma heavy_jaffe : exists mass, 0 < mass /\ 1 < convergence_pseudo_jaffe 0 0 mass 1 2 0 0 1 1 0.
Proof.
  assert (P := PI_RGT_0). assert (Q := arcsec_to_rad_pos). set (d := 2 * PI * 1 * 1 * 2 * (1 * arcsec_to_rad) ^ 2). assert (D : 0 < d) by (unfold d; assert (0 < (1 * arcsec_to_rad) ^ 2) by (apply pow_lt; lra); apply Rmult_lt_0_compat; lra).
  exists (2 * d). split; [lra|]. rewrite (centre_k0 0 0 (2 * d) 1 2 1 1) by lra. unfold convergence_0_pseudo_jaffe. fold d. replace (2 * d / d) with 2 by (field; lra). lra.
Qed.
