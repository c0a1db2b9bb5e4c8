(** * The round lenses of the library: softened isothermal and point lenses, power laws, pseudo Jaffe *)
From Coq Require Import Reals Ranalysis5 Lra Lia Psatz.
From Coquelicot Require Import Coquelicot.
From Verif Require Import Py Const_Model RealFun Calc2 Geo_Model Lens_Lib Lens_Spec LensBase_Model LensBasic_Model Epl_Model Epl_Spec Epl_Proofs Epl4_Proofs Jaffe_Model Jaffe_Proofs Falls_Proofs First_Spec Ring_Spec Ring_Proofs.
Local Open Scope R_scope.

(** ** isothermal *)
Section Sis.
Variables x0 y0 Rein s : R.
Hypotheses (HR : 0 < Rein) (Hs : 0 <= s).
Let alpha := reduced_deflection_angle_sis x0 y0 Rein s.
Let m := fun r => Rein / (r + s).
Lemma sis_form x y : alpha x y = (m (sqrt ((x - x0) ^ 2 + (y - y0) ^ 2)) * (x - x0), m (sqrt ((x - x0) ^ 2 + (y - y0) ^ 2)) * (y - y0)).
Proof. unfold alpha, reduced_deflection_angle_sis, translate_rotate, m. cbv zeta. f_equal; unfold Rdiv; ring. Qed.
Lemma sis_d r : 0 < r -> is_derive m r (- Rein / (r + s) ^ 2).
Proof. intros H. unfold m. auto_derive; [lra|]. field. lra. Qed.
Lemma sis_one_outside : one_outside alpha x0 y0 (Rmax 0 (Rein - s)).
Proof.
  apply (round_images x0 y0 alpha m (fun r => - Rein / (r + s) ^ 2) sis_form sis_d).
  - intros r H. assert (P : 0 < (r + s) ^ 2) by (apply pow_lt; lra). unfold Rdiv. assert (Q := Rinv_0_lt_compat _ P). nra.
  - intros r H. apply Rdiv_lt_0_compat; lra.
  - intros r H. unfold m. replace (2 * (Rein / (r + s)) + r * (- Rein / (r + s) ^ 2)) with (Rein * (r + 2 * s) / (r + s) ^ 2) by (field; lra). apply Rdiv_le_0_compat; [nra|apply pow_lt; lra].
  - exists (2 * Rein). split; [lra|]. unfold m. apply (Rmult_lt_reg_r (2 * Rein + s)); [lra|]. unfold Rdiv. rewrite Rmult_assoc, Rinv_l by lra. lra.
  - apply Rmax_l.
  - intros r H L. assert (M := Rmax_r 0 (Rein - s)). unfold m. apply (Rmult_lt_reg_r (r + s)); [lra|]. unfold Rdiv. rewrite Rmult_assoc, Rinv_l by lra. lra.
  - intros r H L. assert (M : r <= Rein - s) by (unfold Rmax in L; destruct (Rle_dec 0 (Rein - s)); lra). unfold m. apply (Rmult_le_reg_r (r + s)); [lra|]. unfold Rdiv. rewrite Rmult_assoc, Rinv_l by lra. lra.
  - unfold Rmax. destruct (Rle_dec 0 (Rein - s)); intros H; [|lra]. unfold m. replace (Rein - s + s) with Rein by ring. field. lra.
Qed.
Lemma sis_ring : s < Rein -> einstein_ring alpha x0 y0 (Rein - s).
Proof.
  intros L. apply (ring_of x0 y0 alpha m sis_form); [lra|]. intros r H. unfold m. split; intros Q; [|subst r; replace (Rein - s + s) with Rein by ring; field; lra].
  apply (Rmult_eq_compat_r (r + s)) in Q. unfold Rdiv in Q. rewrite Rmult_assoc, Rinv_l in Q by lra. lra.
Qed.
End Sis.
(** ** point *)
Section Point.
Variables x0 y0 Rein s : R.
Hypotheses (HR : 0 < Rein) (Hs : 0 <= s).
Let alpha := reduced_deflection_angle_point x0 y0 Rein s.
Let m := fun r => Rein ^ 2 / (r + s) ^ 2.
Lemma point_form x y : alpha x y = (m (sqrt ((x - x0) ^ 2 + (y - y0) ^ 2)) * (x - x0), m (sqrt ((x - x0) ^ 2 + (y - y0) ^ 2)) * (y - y0)).
Proof. unfold alpha, reduced_deflection_angle_point, translate_rotate, m. cbv zeta. f_equal; unfold Rdiv; ring. Qed.
Lemma point_d r : 0 < r -> is_derive m r (- 2 * Rein ^ 2 / (r + s) ^ 3).
Proof. intros H. unfold m. auto_derive; [apply Rgt_not_eq; nra|]. field. lra. Qed.
Lemma point_less r : 0 < r -> (m r < 1 <-> Rein - s < r) /\ (m r = 1 <-> r = Rein - s).
Proof.
  intros H. assert (P : 0 < (r + s) ^ 2) by (apply pow_lt; lra).
  assert (A : m r < 1 <-> Rein ^ 2 < (r + s) ^ 2). { unfold m. split; intros Q; [apply (Rmult_lt_compat_r _ _ _ P) in Q|apply (Rmult_lt_reg_r _ _ _ P)]; unfold Rdiv in *; rewrite Rmult_assoc, Rinv_l in * by lra; lra. }
  assert (B : m r = 1 <-> Rein ^ 2 = (r + s) ^ 2). { unfold m. split; intros Q; [apply (Rmult_eq_compat_r ((r + s) ^ 2)) in Q|apply (Rmult_eq_reg_r ((r + s) ^ 2)); [|lra]]; unfold Rdiv in *; rewrite Rmult_assoc, Rinv_l in * by lra; lra. }
  rewrite A, B. split; split; intros Q; nra.
Qed.
Lemma point_one_outside : one_outside alpha x0 y0 (Rmax 0 (Rein - s)).
Proof.
  apply (round_images x0 y0 alpha m (fun r => - 2 * Rein ^ 2 / (r + s) ^ 3) point_form point_d).
  - intros r H. assert (P : 0 < (r + s) ^ 3) by (apply pow_lt; lra). assert (Z : 0 < Rein ^ 2) by (apply pow_lt; lra). unfold Rdiv. assert (Q := Rinv_0_lt_compat _ P). nra.
  - intros r H. apply Rdiv_lt_0_compat; apply pow_lt; lra.
  - intros r H. unfold m. replace (2 * (Rein ^ 2 / (r + s) ^ 2) + r * (- 2 * Rein ^ 2 / (r + s) ^ 3)) with (Rein ^ 2 * (2 * s) / (r + s) ^ 3) by (field; lra). apply Rdiv_le_0_compat; [apply Rmult_le_pos; [apply pow2_ge_0|lra]|apply pow_lt; lra].
  - exists (2 * Rein). split; [lra|]. apply (point_less (2 * Rein) ltac:(lra)). lra.
  - apply Rmax_l.
  - intros r H L. assert (M := Rmax_r 0 (Rein - s)). apply (point_less r H). lra.
  - intros r H L. assert (M : r <= Rein - s) by (unfold Rmax in L; destruct (Rle_dec 0 (Rein - s)); lra). apply Rnot_lt_le. intros Q. apply (point_less r H) in Q. lra.
  - unfold Rmax. destruct (Rle_dec 0 (Rein - s)); intros H; [|lra]. apply (point_less _ H). reflexivity.
Qed.
Lemma point_ring : s < Rein -> einstein_ring alpha x0 y0 (Rein - s).
Proof. intros L. apply (ring_of x0 y0 alpha m point_form); [lra|]. intros r H. apply (point_less r H). Qed.
End Point.
(** ** power law *)
Section Epl.
Variables (x0 y0 phi Rein t : R) (n : nat) (c : option nat).
Hypotheses (HR : 0 < Rein) (Ht : 0 < t < 2) (Hn : (1 <= n)%nat) (Hc : good_chunk n c).
Let m := fun r => Rpower (Rein / r) t.
Let alpha := fun x y => (m (sqrt ((x - x0) ^ 2 + (y - y0) ^ 2)) * (x - x0), m (sqrt ((x - x0) ^ 2 + (y - y0) ^ 2)) * (y - y0)).
Lemma round_psum z k : psum z t 1 (S k) = z.
Proof.
  assert (P : phase z 1 = 0%C). { unfold phase, ellf. replace ((1 - 1) / (1 + 1)) with 0 by field. apply injective_projections; cbn; ring. }
  induction k as [|k IH]; [cbn [psum omega]; ring|]. change (psum z t 1 (S (S k))) with (psum z t 1 (S k) + omega z t 1 (S k))%C. rewrite IH. cbn [omega]. rewrite P. ring.
Qed.
Lemma epl_form x y : reduced_deflection_angle_epl x0 y0 1 phi Rein t n c x y = Ok (alpha x y).
Proof.
  unfold reduced_deflection_angle_epl. cbn [translate_rotate]. cbv zeta. rewrite good_chunk_sum by assumption. destruct n as [|k]; [lia|]. rewrite round_psum. cbn [bind]. f_equal.
  assert (U := sin2_cos2 phi). unfold Rsqr in U. set (X := x - x0). set (Y := y - y0).
  assert (CM : Cmod (1 * (X * cos phi + Y * sin phi), Y * cos phi - X * sin phi) = sqrt (X ^ 2 + Y ^ 2)).
  { unfold Cmod. cbn [fst snd]. f_equal. transitivity ((X ^ 2 + Y ^ 2) * (sin phi * sin phi + cos phi * cos phi)); [ring|rewrite U; ring]. }
  rewrite CM. unfold alpha. fold X Y. destruct (Req_EM_T (sqrt (X ^ 2 + Y ^ 2)) 0) as [Z|Z].
  - apply sqrt_eq_0 in Z; [|apply Rplus_le_le_0_compat; apply pow2_ge_0]. assert (X0 : X = 0) by (assert (A := pow2_ge_0 X); assert (B := pow2_ge_0 Y); nra). assert (Y0 : Y = 0) by (assert (A := pow2_ge_0 X); assert (B := pow2_ge_0 Y); nra).
    rewrite X0, Y0. unfold derotate. cbn [fst snd RtoC]. f_equal; ring.
  - assert (P : 0 < sqrt (X ^ 2 + Y ^ 2)) by (assert (A := sqrt_pos (X ^ 2 + Y ^ 2)); lra). rewrite sqrt_1, Rmult_1_r. rewrite power_pos by (apply Rdiv_lt_0_compat; lra). fold (m (sqrt (X ^ 2 + Y ^ 2))). set (M := m _).
    unfold derotate. cbn [fst snd RtoC Cmult]. unfold Cmult, RtoC. cbn [fst snd]. f_equal.
    + transitivity (M * X * (sin phi * sin phi + cos phi * cos phi)); [field|rewrite U; ring].
    + transitivity (M * Y * (sin phi * sin phi + cos phi * cos phi)); [field|rewrite U; ring].
Qed.
Lemma m_exp r : 0 < r -> m r = exp (t * (ln Rein - ln r)).
Proof. intros H. unfold m, Rpower, Rdiv. rewrite ln_mult, ln_Rinv by (try apply Rinv_0_lt_compat; lra). reflexivity. Qed.
Lemma epl_d r : 0 < r -> is_derive m r (- t * m r / r).
Proof.
  intros H. apply (is_derive_ext_loc (fun r => exp (t * (ln Rein - ln r)))).
  - apply (filter_imp (fun u => 0 < u)); [intros u U; symmetry; apply m_exp, U|]. apply (open_gt 0 r H).
  - rewrite (m_exp r H). auto_derive; [exact H|]. unfold Rminus. field. lra.
Qed.
Lemma epl_less r : 0 < r -> (m r < 1 <-> Rein < r) /\ (m r = 1 <-> r = Rein).
Proof.
  intros H. rewrite (m_exp r H). rewrite <- exp_0. split; split; intros Q.
  - apply exp_lt_inv in Q. apply ln_lt_inv; nra.
  - apply exp_increasing. assert (L := ln_increasing Rein r HR Q). nra.
  - apply exp_inv in Q. apply ln_inv; nra.
  - subst r. f_equal. ring.
Qed.
Lemma epl_one_outside : one_outside alpha x0 y0 Rein.
Proof.
  assert (MP : forall r, 0 < r -> 0 < m r) by (intros r H; rewrite (m_exp r H); apply exp_pos).
  apply (round_images x0 y0 alpha m (fun r => - t * m r / r) (fun x y => eq_refl) epl_d).
  - intros r H. assert (P := MP r H). assert (Q := Rinv_0_lt_compat r H). unfold Rdiv. assert (0 < m r * / r) by (apply Rmult_lt_0_compat; lra). nra.
  - exact MP.
  - intros r H. assert (P := MP r H). replace (2 * m r + r * (- t * m r / r)) with ((2 - t) * m r) by (field; lra). nra.
  - exists (2 * Rein). split; [lra|]. apply (epl_less (2 * Rein) ltac:(lra)). lra.
  - lra.
  - intros r H L. apply (epl_less r H), L.
  - intros r H L. apply Rnot_lt_le. intros Q. apply (epl_less r H) in Q. lra.
  - intros _. apply (epl_less Rein HR). reflexivity.
Qed.
Lemma epl_ring : einstein_ring alpha x0 y0 Rein.
Proof. apply (ring_of x0 y0 alpha m (fun x y => eq_refl) Rein HR). intros r H. apply (epl_less r H). Qed.
Lemma epl_round : exists a, (forall x y, reduced_deflection_angle_epl x0 y0 1 phi Rein t n c x y = Ok (a x y)) /\ einstein_ring a x0 y0 Rein /\ one_outside a x0 y0 Rein.
Proof. exists alpha. split; [exact epl_form|]. split; [exact epl_ring|exact epl_one_outside]. Qed.
End Epl.
(** ** pseudo Jaffe *)
Section Jaffe.
Variables x0 y0 mass Rc Rs d_l sigma : R.
Hypotheses (Hm : 0 < mass) (HRc : 0 < Rc) (HRs : 0 < Rs) (Hne : Rc <> Rs) (Hl : 0 < d_l) (Hsg : 0 < sigma).
Let k0 := convergence_0_pseudo_jaffe mass Rc Rs d_l sigma.
Let co := 2 * k0 * Rc * Rs / (Rs - Rc).
Let alpha := fun x y => reduced_deflection_angle_pseudo_jaffe x0 y0 mass Rc Rs x y d_l sigma 0.
Let F := fun a r => / (a + sqrt (a ^ 2 + r ^ 2)).
Let F' := fun a r => - r / (sqrt (a ^ 2 + r ^ 2) * (a + sqrt (a ^ 2 + r ^ 2)) ^ 2).
Let m := fun r => co * (F Rc r - F Rs r).
Let m' := fun r => co * (F' Rc r - F' Rs r).
Lemma k0_pos : 0 < k0.
Proof.
  assert (P := PI_RGT_0). assert (A := arcsec_to_rad_pos). unfold k0, convergence_0_pseudo_jaffe. apply Rdiv_lt_0_compat; [exact Hm|]. apply Rmult_lt_0_compat; [do 4 (apply Rmult_lt_0_compat; [|assumption]); lra|]. apply pow_lt. apply Rmult_lt_0_compat; assumption.
Qed.
Lemma co_sign (g : R -> R) : (forall a b, 0 < a -> a < b -> g b < g a) -> 0 < co * (g Rc - g Rs).
Proof.
  intros D. assert (K := k0_pos). assert (KK : 0 < 2 * k0 * Rc * Rs) by (do 3 (apply Rmult_lt_0_compat; [|assumption]); lra).
  unfold co. destruct (Rtotal_order Rc Rs) as [L|[L|L]]; [|contradiction|].
  - assert (G := D Rc Rs HRc L). apply Rmult_lt_0_compat; [apply Rdiv_lt_0_compat; lra|lra].
  - assert (G := D Rs Rc HRs L). replace (2 * k0 * Rc * Rs / (Rs - Rc) * (g Rc - g Rs)) with (2 * k0 * Rc * Rs / (Rc - Rs) * (g Rs - g Rc)) by (field; lra). apply Rmult_lt_0_compat; [apply Rdiv_lt_0_compat; lra|lra].
Qed.
Lemma hyp_inc a b r : 0 < a -> a < b -> sqrt (a ^ 2 + r ^ 2) < sqrt (b ^ 2 + r ^ 2).
Proof. intros H L. apply sqrt_lt_1_alt. split; [apply Rplus_le_le_0_compat; apply pow2_ge_0|nra]. Qed.
Lemma F_dec r a b : 0 < a -> a < b -> F b r < F a r.
Proof. intros H L. assert (I := hyp_inc a b r H L). assert (P := hyp_pos a r H). unfold F. apply Rinv_lt_contravar; [apply Rmult_lt_0_compat; lra|lra]. Qed.
Lemma F_derive a r : 0 < a -> is_derive (F a) r (F' a r).
Proof.
  intros H. assert (P := hyp_pos a r H). unfold F, F'.
  assert (D : is_derive (fun r => a + sqrt (a ^ 2 + r ^ 2)) r (r / sqrt (a ^ 2 + r ^ 2))).
  { evar_last; [apply (is_derive_plus (fun _ => a) (fun r => sqrt (a ^ 2 + r ^ 2))); [apply (is_derive_const (K := R_AbsRing) (V := R_NormedModule))|apply d_hyp, H]|apply Rplus_0_l]. }
  evar_last; [apply (is_derive_inv (fun r => a + sqrt (a ^ 2 + r ^ 2)) r _ D); lra|]. cbv beta. field. lra.
Qed.
Lemma m_derive r : is_derive m r (m' r).
Proof. unfold m, m'. apply (is_derive_scal (fun r => F Rc r - F Rs r)). apply (is_derive_minus (F Rc) (F Rs)); apply F_derive; assumption. Qed.
Lemma m_pos r : 0 < m r.
Proof. apply (co_sign (fun a => F a r)). apply F_dec. Qed.
Lemma m_neg r : 0 < r -> m' r < 0.
Proof.
  intros H. assert (G := co_sign (fun a => - F' a r)). enough (0 < co * (- F' Rc r - - F' Rs r)) by (unfold m'; lra). apply G. intros a b A L. assert (I := hyp_inc a b r A L). assert (P := hyp_pos a r A). unfold F'.
  replace (- (- r / (sqrt (a ^ 2 + r ^ 2) * (a + sqrt (a ^ 2 + r ^ 2)) ^ 2))) with (r * / (sqrt (a ^ 2 + r ^ 2) * (a + sqrt (a ^ 2 + r ^ 2)) ^ 2)) by (field; lra).
  replace (- (- r / (sqrt (b ^ 2 + r ^ 2) * (b + sqrt (b ^ 2 + r ^ 2)) ^ 2))) with (r * / (sqrt (b ^ 2 + r ^ 2) * (b + sqrt (b ^ 2 + r ^ 2)) ^ 2)) by (field; lra).
  set (u := sqrt (a ^ 2 + r ^ 2)) in *. set (v := sqrt (b ^ 2 + r ^ 2)) in *. apply Rmult_lt_compat_l; [exact H|]. apply Rinv_lt_contravar.
  - apply Rmult_lt_0_compat; (apply Rmult_lt_0_compat; [lra|apply pow_lt; lra]).
  - apply Rmult_gt_0_lt_compat; [apply pow_lt; lra|lra|lra|]. apply pow_incr_strict || (cbn [pow]; nra).
Qed.
Lemma m_conv r : 0 < r -> 0 <= 2 * m r + r * m' r.
Proof.
  intros H. assert (E : forall a, 0 < a -> 2 * F a r + r * F' a r = 1 / sqrt (a ^ 2 + r ^ 2)).
  { intros a A. assert (P := hyp_pos a r A). assert (Q := hyp_sq a r). unfold F, F'. set (w := sqrt (a ^ 2 + r ^ 2)) in *. transitivity ((2 * w * (a + w) - r ^ 2) / (w * (a + w) ^ 2)); [field; lra|].
    replace (r ^ 2) with (w ^ 2 - a ^ 2) by lra. field. lra. }
  left. replace (2 * m r + r * m' r) with (co * (1 / sqrt (Rc ^ 2 + r ^ 2) - 1 / sqrt (Rs ^ 2 + r ^ 2))) by (rewrite <- !E by assumption; unfold m, m'; ring).
  apply (co_sign (fun a => 1 / sqrt (a ^ 2 + r ^ 2))). intros a b A L. assert (P := hyp_pos a r A). assert (I := hyp_inc a b r A L). unfold Rdiv. rewrite !Rmult_1_l. apply Rinv_lt_contravar; [apply Rmult_lt_0_compat; lra|lra].
Qed.
Lemma jaffe_form x y : alpha x y = (m (sqrt ((x - x0) ^ 2 + (y - y0) ^ 2)) * (x - x0), m (sqrt ((x - x0) ^ 2 + (y - y0) ^ 2)) * (y - y0)).
Proof.
  unfold alpha, reduced_deflection_angle_pseudo_jaffe, translate_rotate. cbv zeta. rewrite Rplus_0_r. set (X := x - x0). set (Y := y - y0). set (r := sqrt (X ^ 2 + Y ^ 2)).
  fold k0. fold co. destruct (Req_EM_T r 0) as [Z|Z].
  - assert (Z' := Z). unfold r in Z. apply sqrt_eq_0 in Z; [|apply Rplus_le_le_0_compat; apply pow2_ge_0]. assert (X0 : X = 0) by (assert (A := pow2_ge_0 X); assert (B := pow2_ge_0 Y); nra). assert (Y0 : Y = 0) by (assert (A := pow2_ge_0 X); assert (B := pow2_ge_0 Y); nra).
    rewrite X0, Y0. f_equal; unfold Rdiv; ring.
  - assert (E : forall a, 0 < a -> r / (a * (1 + sqrt (1 + (r / a) ^ 2))) = r * F a r). { intros a A. transitivity (r / a / (1 + sqrt (1 + (r / a) ^ 2))); [assert (0 <= sqrt (1 + (r / a) ^ 2)) by apply sqrt_pos; field; lra|]. rewrite pull_alt by exact A. reflexivity. }
    rewrite E by exact HRs. rewrite pull_alt by exact HRc. change (pull Rc r) with (r * F Rc r). unfold m. f_equal; field; exact Z.
Qed.
Lemma m_at_0 : m 0 = k0.
Proof.
  unfold m, F. replace (Rc ^ 2 + 0 ^ 2) with (Rc ^ 2) by ring. replace (Rs ^ 2 + 0 ^ 2) with (Rs ^ 2) by ring. rewrite !sqrt_pow2 by lra. unfold co. field. repeat split; lra.
Qed.
Lemma centre_k0 : convergence_pseudo_jaffe x0 y0 mass Rc Rs x0 y0 d_l sigma 0 = k0.
Proof.
  unfold convergence_pseudo_jaffe, translate_rotate. cbv zeta. fold k0. replace ((x0 - x0) ^ 2 + (y0 - y0) ^ 2 + 0) with 0 by ring. rewrite !Rplus_0_r, !sqrt_pow2 by lra. field. repeat split; lra.
Qed.
Lemma m_less r : 0 < r -> m r < m 0.
Proof.
  intros H. destruct (MVT_gen m 0 r m') as (z & [Z1 Z2] & E); [intros; apply m_derive|intros u _; apply derivable_continuous_pt; exists (m' u); apply is_derive_Reals, m_derive|].
  rewrite Rmin_left in Z1 by lra. destruct Z1 as [Z1|Z1]; [assert (N := m_neg z Z1); nra|].
  assert (A : m r <= m 0) by (rewrite <- Z1 in E; assert (m' 0 = 0) by (unfold m', F', Rdiv; rewrite Ropp_0; ring); nra). assert (B : m r < m (r / 2)) by (apply (falling m m' (fun t _ => m_derive t) m_neg); lra).
  destruct (MVT_gen m 0 (r / 2) m') as (w & [W1 W2] & E2); [intros; apply m_derive|intros u _; apply derivable_continuous_pt; exists (m' u); apply is_derive_Reals, m_derive|].
  rewrite Rmin_left in W1 by lra. destruct W1 as [W1|W1]; [assert (N := m_neg w W1); nra|]. rewrite <- W1 in E2. assert (m' 0 = 0) by (unfold m', F', Rdiv; rewrite Ropp_0; ring). nra.
Qed.
Lemma m_far e : 0 < e -> exists r, 0 < r /\ m r < e.
Proof.
  intros He. assert (B : forall r, 0 < r -> m r <= Rabs co * (2 / r)).
  { intros r H. apply (Rle_trans _ (Rabs (m r))); [apply Rle_abs|]. unfold m. rewrite Rabs_mult. apply Rmult_le_compat_l; [apply Rabs_pos|].
    assert (U : forall a, 0 < a -> 0 < F a r <= / r). { intros a A. assert (P := hyp_pos a r A). assert (Q : r <= sqrt (a ^ 2 + r ^ 2)) by (rewrite <- (sqrt_pow2 r) at 1 by lra; apply sqrt_le_1_alt; assert (T := pow2_ge_0 a); lra). unfold F. split; [apply Rinv_0_lt_compat; lra|apply Rinv_le_contravar; lra]. }
    assert (U1 := U Rc HRc). assert (U2 := U Rs HRs). assert (Q := Rinv_0_lt_compat r H). unfold Rdiv. apply Rabs_le. lra. }
  assert (C := Rabs_pos co). exists (2 * (Rabs co + 1) / e). assert (P : 0 < 2 * (Rabs co + 1) / e) by (apply Rdiv_lt_0_compat; lra). split; [exact P|]. apply (Rle_lt_trans _ _ _ (B _ P)).
  replace (Rabs co * (2 / (2 * (Rabs co + 1) / e))) with (e * (Rabs co / (Rabs co + 1))) by (field; lra). rewrite <- (Rmult_1_r e) at 2. apply Rmult_lt_compat_l; [exact He|]. apply (Rmult_lt_reg_r (Rabs co + 1)); [lra|]. unfold Rdiv. rewrite Rmult_assoc, Rinv_l by lra. lra.
Qed.
Lemma m_falling r t : 0 < r -> r < t -> m t < m r.
Proof. apply (falling m m' (fun t _ => m_derive t) m_neg). Qed.
Lemma jaffe_weak : convergence_pseudo_jaffe x0 y0 mass Rc Rs x0 y0 d_l sigma 0 <= 1 -> one_outside alpha x0 y0 0.
Proof.
  rewrite centre_k0, <- m_at_0. intros W. apply (round_images x0 y0 alpha m m' jaffe_form (fun r _ => m_derive r) m_neg (fun r _ => m_pos r) m_conv (m_far 1 Rlt_0_1)); [lra| | |].
  - intros r H _. assert (L := m_less r H). lra.
  - intros r H L. lra.
  - intros H. lra.
Qed.
Lemma jaffe_strong : 1 < convergence_pseudo_jaffe x0 y0 mass Rc Rs x0 y0 d_l sigma 0 -> exists E, einstein_ring alpha x0 y0 E /\ one_outside alpha x0 y0 E.
Proof.
  rewrite centre_k0, <- m_at_0. intros W. destruct (m_far 1 Rlt_0_1) as (r1 & R1 & M1).
  destruct (IVT_interv (fun r => 1 - m r) 0 r1) as (E & [E1 E2] & EE).
  - intros a _. apply derivable_continuous_pt. exists (0 - m' a). apply is_derive_Reals. apply (is_derive_minus (fun _ => 1) m); [apply (is_derive_const (K := R_AbsRing) (V := R_NormedModule))|apply m_derive].
  - exact R1.
  - lra.
  - lra.
  - cbv beta in EE. assert (E0 : 0 < E) by (destruct E1 as [L|L]; [exact L|rewrite <- L in EE; lra]). exists E. assert (ME : m E = 1) by lra. split.
    + apply (ring_of x0 y0 alpha m jaffe_form E E0). intros r H. split; [|intros ->; exact ME]. intros Q. destruct (Rtotal_order r E) as [L|[L|L]]; [|exact L|]; exfalso; [assert (T := m_falling r E H L)|assert (T := m_falling E r E0 L)]; lra.
    + apply (round_images x0 y0 alpha m m' jaffe_form (fun r _ => m_derive r) m_neg (fun r _ => m_pos r) m_conv (m_far 1 Rlt_0_1)); [lra| | |].
      * intros r H L. assert (T := m_falling E r E0 L). lra.
      * intros r H [L|L]; [assert (T := m_falling r E H L); lra|subst r; lra].
      * intros _. exact ME.
Qed.
End Jaffe.
