(** * The projected mass of the truncated NFW lens far out and near the centre *)
From Coq Require Import Reals Lra Psatz.
From Coquelicot Require Import Coquelicot.
From Verif Require Import Const_Model RealFun Derive1 Nfw_Model Nfw_Proofs Tnfw_Model Tnfw_Proofs Tnfw2_Proofs.
Local Open Scope R_scope.

Lemma ln_quot a b : 0 < a -> 0 < b -> ln (a / b) = ln a - ln b.
Proof. intros A B. unfold Rdiv. rewrite ln_mult by (try apply Rinv_0_lt_compat; assumption). rewrite ln_Rinv by exact B. ring. Qed.
Definition ktot (tau : R) : R := (tau ^ 2 - 1) * ln tau + PI * tau - (tau ^ 2 + 1).
Lemma ln_lower t : 0 < t -> 1 - / t <= ln t.
Proof.
  intros H. assert (I := Rinv_0_lt_compat _ H). assert (E := exp_ineq1_le (/ t - 1)). assert (L : ln (/ t) <= / t - 1).
  { rewrite <- (ln_exp (/ t - 1)). destruct (Req_dec (/ t) (exp (/ t - 1))) as [Q|Q]; [rewrite <- Q; lra|]. apply Rlt_le, ln_increasing; lra. }
  rewrite ln_Rinv in L by exact H. lra.
Qed.
Lemma ln_upper t : 0 < t -> ln t <= t - 1.
Proof. intros H. assert (L := ln_lower (/ t) (Rinv_0_lt_compat _ H)). rewrite Rinv_inv, ln_Rinv in L by exact H. lra. Qed.
Lemma ktot_pos tau : 0 < tau -> 0 < ktot tau.
Proof.
  intros H. assert (P := PI2_3_2). assert (PP : PI > 3) by lra. unfold ktot.
  assert (B : (tau ^ 2 - 1) * (tau - 1) <= (tau ^ 2 - 1) * ln tau * tau \/ tau < 1).
  { destruct (Rlt_dec tau 1) as [T|T]; [right; exact T|left]. assert (L := ln_lower tau H).
    assert (tau * (1 - / tau) <= tau * ln tau) by (apply Rmult_le_compat_l; lra). replace (tau * (1 - / tau)) with (tau - 1) in H0 by (field; lra).
    assert (0 <= tau ^ 2 - 1) by nra. nra. }
  destruct B as [B|B].
  - apply Rmult_lt_reg_r with tau; [exact H|]. rewrite Rmult_0_l.
    replace (((tau ^ 2 - 1) * ln tau + PI * tau - (tau ^ 2 + 1)) * tau) with ((tau ^ 2 - 1) * ln tau * tau + PI * tau ^ 2 - (tau ^ 3 + tau)) by ring.
    assert (3 * tau ^ 2 <= PI * tau ^ 2) by (apply Rmult_le_compat_r; nra). nra.
  - assert (U := ln_upper tau H). assert ((1 - tau ^ 2) * (1 - tau) <= (1 - tau ^ 2) * - ln tau) by (apply Rmult_le_compat_l; nra).
    assert (3 * tau <= PI * tau) by (apply Rmult_le_compat_r; lra). replace ((tau ^ 2 - 1) * ln tau) with ((1 - tau ^ 2) * - ln tau) by ring. nra.
Qed.
(** limits at infinity *)
Lemma lim_quot (f : R -> R) (d : R) : is_derive f 0 d -> f 0 = 0 -> is_lim (fun u => u * f (/ u)) p_infty d.
Proof.
  intros D Z. apply is_derive_Reals in D. apply is_lim_spec. intros eps. destruct (D eps (cond_pos eps)) as [del Hd].
  exists (/ del). intros u Hu. assert (I := Rinv_0_lt_compat _ (cond_pos del)). assert (UP : 0 < u) by lra. assert (IU := Rinv_0_lt_compat _ UP).
  assert (B : Rabs (/ u) < del). { rewrite Rabs_pos_eq by lra. rewrite <- (Rinv_inv del). apply Rinv_lt_contravar; [apply Rmult_lt_0_compat; assumption|exact Hu]. }
  specialize (Hd (/ u) ltac:(lra) B). rewrite Rplus_0_l, Z, Rminus_0_r in Hd. replace (u * f (/ u)) with (f (/ u) / / u); [exact Hd|]. field. lra.
Qed.
Lemma lim_root : is_lim (fun g => sqrt (g ^ 2 - 1)) p_infty p_infty.
Proof.
  apply is_lim_spec. intros M. exists (Rmax M 1 + 1). intros g Hg. assert (A := Rmax_l M 1). assert (B := Rmax_r M 1).
  apply Rle_lt_trans with (Rmax M 1); [exact A|]. rewrite <- (sqrt_pow2 (Rmax M 1)) by lra. apply sqrt_lt_1; nra.
Qed.
Lemma lim_hyp tau : is_lim (hyp tau) p_infty p_infty.
Proof.
  apply is_lim_spec. intros M. exists (Rmax M 1 + 1). intros g Hg. assert (A := Rmax_l M 1). assert (B := Rmax_r M 1).
  apply Rle_lt_trans with (Rmax M 1); [exact A|]. rewrite <- (sqrt_pow2 (Rmax M 1)) by lra. apply sqrt_lt_1; nra.
Qed.
Lemma lim_comp_inf (f g : R -> R) (l : R) : is_lim f p_infty l -> is_lim g p_infty p_infty -> is_lim (fun x => f (g x)) p_infty l.
Proof. intros F G. apply is_lim_comp with p_infty; [exact F|exact G|]. exists 0. intros x _. discriminate. Qed.
Lemma atan_recip u : 0 < u -> atan u = PI / 2 - atan (/ u).
Proof. intros H. rewrite atan_inv by exact H. lra. Qed.
Lemma L_eq tau g : 0 < tau -> 0 < g -> L_tnfw g tau = - atanh (tau * / hyp tau g).
Proof.
  intros Ht Hg. assert (P := hyp_pos tau Ht g). assert (Q := hyp_sq tau g). unfold L_tnfw, atanh. fold (hyp tau g). set (s := hyp tau g) in *.
  assert (TS : tau < s) by nra. replace ((1 + tau * / s) / (1 - tau * / s)) with (((tau + s) / g) ^ 2).
  - rewrite <- (Rinv_inv (g / (tau + s))), ln_Rinv by (apply Rinv_0_lt_compat, Rdiv_lt_0_compat; lra).
    replace (/ (g / (tau + s))) with ((tau + s) / g) by (field; split; lra). assert (PP : 0 < (tau + s) / g) by (apply Rdiv_lt_0_compat; lra).
    replace (((tau + s) / g) ^ 2) with ((tau + s) / g * ((tau + s) / g)) by ring. rewrite ln_mult by exact PP. field.
  - assert (G2 : g ^ 2 = (s - tau) * (s + tau)) by nra. transitivity ((tau + s) ^ 2 / g ^ 2); [field; lra|]. rewrite G2. field. repeat split; lra.
Qed.
Section Far.
Variable tau : R.
Hypothesis Ht : 0 < tau.
(** the pieces of the projected mass, each with its limit *)
Let u (g : R) := sqrt (g ^ 2 - 1).
Lemma mproj_split g : 1 + 1 / 100 < g ->
  mproj tau g = tau ^ 2 / (tau ^ 2 + 1) ^ 2 * ((tau ^ 2 + 1) * (atan (u g) * / u g) - 2 * (u g * atan (/ u g)) - PI * (tau ^ 2 + 1) * / (u g + hyp tau g) + tau * PI + (tau ^ 2 - 1) * ln tau
     - (tau ^ 2 - 1) * / tau * (hyp tau g * atanh (tau * / hyp tau g))).
Proof.
  intros H. assert (P := root_pos g ltac:(lra)). assert (Q := root_sq g ltac:(lra)). assert (P1 := hyp_pos tau Ht g). assert (Q1 := hyp_sq tau g).
  unfold mproj. rewrite F_outer, L_eq by lra. unfold wp. fold (u g) in *. set (r := u g) in *. set (h := hyp tau g) in *.
  set (at1 := atanh _). apply f_equal.
  replace ((tau ^ 2 + 1 + 2 * (g ^ 2 - 1)) * (atan r / r)) with ((tau ^ 2 + 1) * (atan r * / r) + 2 * r * atan r) by (rewrite <- Q; field; lra).
  rewrite (atan_recip r P) at 2. replace (PI * (tau ^ 2 + 1) * / (r + h)) with (PI * (h - r)).
  - field. lra.
  - replace (tau ^ 2 + 1) with ((h - r) * (h + r)) by nra. field. lra.
Qed.
Lemma lim_mproj : is_lim (mproj tau) p_infty (tau ^ 2 / (tau ^ 2 + 1) ^ 2 * ktot tau).
Proof.
  assert (PP := PI_RGT_0).
  assert (U : is_lim u p_infty p_infty) by apply lim_root.
  assert (L1 : is_lim (fun g => atan (u g) * / u g) p_infty 0).
  { apply (lim_comp_inf (fun x => atan x * / x) u); [|exact U]. apply is_lim_spec. intros eps. exists (2 / eps). intros x Hx. assert (E := cond_pos eps). assert (0 < 2 / eps) by (apply Rdiv_lt_0_compat; lra).
    assert (B := atan_bound x). assert (A0 : 0 < atan x) by (rewrite <- atan_0; apply atan_increasing; lra). rewrite Rminus_0_r, Rabs_pos_eq by (apply Rmult_le_pos; [lra|apply Rlt_le, Rinv_0_lt_compat; lra]).
    apply Rmult_lt_reg_r with x; [lra|]. rewrite Rmult_assoc, Rinv_l, Rmult_1_r by lra. assert (P4 := PI_4). 
    assert (2 < eps * x). { apply Rmult_lt_reg_l with (/ eps); [apply Rinv_0_lt_compat, E|]. rewrite <- Rmult_assoc, Rinv_l, Rmult_1_l by lra. unfold Rdiv in Hx. lra. } lra. }
  assert (L2 : is_lim (fun g => u g * atan (/ u g)) p_infty 1).
  { apply (lim_comp_inf (fun x => x * atan (/ x)) u); [|exact U]. apply lim_quot; [|apply atan_0]. eapply dv_val; [apply is_derive_atan|]. unfold Rsqr. field. }
  assert (L3 : is_lim (fun g => / (u g + hyp tau g)) p_infty 0).
  { replace (Finite 0) with (Rbar_inv p_infty) by reflexivity. apply is_lim_inv; [|discriminate]. eapply is_lim_plus; [exact U|apply lim_hyp|reflexivity]. }
  assert (L4 : is_lim (fun g => hyp tau g * atanh (tau * / hyp tau g)) p_infty tau).
  { apply (lim_comp_inf (fun x => x * atanh (tau * / x)) (hyp tau)); [|apply lim_hyp]. apply (lim_quot (fun h => atanh (tau * h))).
    - unfold atanh. auto_derive; [rewrite Rmult_0_r; split; [lra|split; [|trivial]]; rewrite Ropp_0, !Rplus_0_r, Rinv_1; lra|]. rewrite !Rmult_0_r, Ropp_0, !Rplus_0_r, Rinv_1. field.
    - unfold atanh. rewrite Rmult_0_r, Rplus_0_r, Rminus_0_r. replace (1 / 1) with 1 by field. rewrite ln_1. ring. }
  eapply is_lim_ext_loc; [exists (1 + 1 / 100); intros g Hg; symmetry; apply mproj_split, Hg|].
  replace (tau ^ 2 / (tau ^ 2 + 1) ^ 2 * ktot tau) with (tau ^ 2 / (tau ^ 2 + 1) ^ 2 * ((tau ^ 2 + 1) * 0 - 2 * 1 - PI * (tau ^ 2 + 1) * 0 + tau * PI + (tau ^ 2 - 1) * ln tau - (tau ^ 2 - 1) * / tau * tau)).
  2:{ unfold ktot. apply f_equal. field. lra. }
  assert (LC : forall c : R, is_lim (fun _ => c) p_infty c) by (intros; apply is_lim_const).
  assert (LS : forall (c : R) f (l : R), is_lim f p_infty l -> is_lim (fun g => c * f g) p_infty (c * l)) by (intros c f l H; exact (is_lim_scal_l f c p_infty l H)).
  assert (LP : forall f h (l k : R), is_lim f p_infty l -> is_lim h p_infty k -> is_lim (fun g => f g + h g) p_infty (l + k)) by (intros f h l k H1 H2; eapply is_lim_plus; [exact H1|exact H2|reflexivity]).
  assert (LM : forall f h (l k : R), is_lim f p_infty l -> is_lim h p_infty k -> is_lim (fun g => f g - h g) p_infty (l - k)) by (intros f h l k H1 H2; eapply is_lim_minus; [exact H1|exact H2|reflexivity]).
  apply LS, LM; [apply LP; [apply LP; [apply LM; [apply LM|]|]|]|]; auto.
Qed.
End Far.

(** near the centre: the logarithms cancel, what is left is continuous, or g^2 ln g times a continuous function *)
Section Near.
Variable tau : R.
Hypothesis Ht : 0 < tau.
Let w (g : R) := sqrt (1 - g ^ 2).
Definition near_c (g : R) : R :=
  (tau ^ 2 - 1 + 2 * g ^ 2) * ln (1 + w g) / w g + tau * PI + (tau ^ 2 - 1) * ln tau - PI * hyp tau g - (tau ^ 2 - 1) / tau * hyp tau g * ln (tau + hyp tau g).
Definition near_d (g : R) : R := - 2 / w g - (tau ^ 2 - 1) / (w g * (1 + w g)) + (tau ^ 2 - 1) / tau / (hyp tau g + tau).
Lemma mproj_near g : 0 < g < 1 - 1 / 100 -> mproj tau g = tau ^ 2 / (tau ^ 2 + 1) ^ 2 * (near_c g + g ^ 2 * ln g * near_d g).
Proof.
  intros H. assert (P := lroot_pos g ltac:(lra)). assert (Q := lroot_sq g ltac:(lra)). assert (P1 := hyp_pos tau Ht g). assert (Q1 := hyp_sq tau g).
  unfold mproj, near_c, near_d. rewrite F_inner by lra. unfold wn, L_tnfw. fold (hyp tau g). fold (w g) in *. rewrite !ln_quot by lra.
  set (a := w g) in *. set (h := hyp tau g) in *. set (lg := ln g). set (la := ln (1 + a)). set (lh := ln (tau + h)). set (lt := ln tau). apply f_equal.
  assert (E1 : g ^ 2 * (- 2 / a - (tau ^ 2 - 1) / (a * (1 + a)) + (tau ^ 2 - 1) / tau / (h + tau)) = - 2 * g ^ 2 / a - (tau ^ 2 - 1) * (1 - a) / a + (tau ^ 2 - 1) / tau * (h - tau)).
  { assert (G1 : g ^ 2 / (1 + a) = 1 - a) by (apply Rmult_eq_reg_r with (1 + a); [|lra]; unfold Rdiv; rewrite Rmult_assoc, Rinv_l by lra; nra).
    assert (G2 : g ^ 2 / (h + tau) = h - tau) by (apply Rmult_eq_reg_r with (h + tau); [|lra]; unfold Rdiv; rewrite Rmult_assoc, Rinv_l by lra; nra).
    rewrite <- G1, <- G2. field. repeat split; lra. }
  transitivity ((tau ^ 2 - 1 + 2 * g ^ 2) * la / a + tau * PI + (tau ^ 2 - 1) * lt - PI * h - (tau ^ 2 - 1) / tau * h * lh + lg * (g ^ 2 * (- 2 / a - (tau ^ 2 - 1) / (a * (1 + a)) + (tau ^ 2 - 1) / tau / (h + tau)))).
  - rewrite E1. field. repeat split; lra.
  - unfold Rdiv. ring.
Qed.
Lemma w0 : w 0 = 1. Proof. unfold w. replace (1 - 0 ^ 2) with 1 by ring. apply sqrt_1. Qed.
Lemma h0 : hyp tau 0 = tau. Proof. unfold hyp. replace (tau ^ 2 + 0 ^ 2) with (tau ^ 2) by ring. apply sqrt_pow2. lra. Qed.
Lemma near_c_cont : continuous near_c 0.
Proof.
  apply (ex_derive_continuous (K := R_AbsRing) (V := R_NormedModule)). unfold near_c, w, hyp. auto_derive. assert (W := w0). assert (H := h0). unfold w in W. unfold hyp in H.
  replace (1 + - (0 * (0 * 1))) with (1 - 0 ^ 2) by ring. replace (tau * (tau * 1) + 0 * (0 * 1)) with (tau ^ 2 + 0 ^ 2) by ring. rewrite W, H. repeat split; nra.
Qed.
Lemma near_c_0 : near_c 0 = 0.
Proof.
  unfold near_c. rewrite w0, h0. replace (tau + tau) with (2 * tau) by ring. rewrite ln_mult by lra. replace (1 + 1) with 2 by ring. field. lra.
Qed.
Lemma near_d_cont : continuous near_d 0.
Proof.
  apply (ex_derive_continuous (K := R_AbsRing) (V := R_NormedModule)). unfold near_d, w, hyp. auto_derive. assert (W := w0). assert (H := h0). unfold w in W. unfold hyp in H.
  replace (1 + - (0 * (0 * 1))) with (1 - 0 ^ 2) by ring. replace (tau * (tau * 1) + 0 * (0 * 1)) with (tau ^ 2 + 0 ^ 2) by ring. rewrite W, H. repeat split; nra.
Qed.
Lemma sqln : filterlim (fun g => g ^ 2 * ln g) (at_right 0) (locally 0).
Proof.
  intros Pp [eps He]. exists (mkposreal (Rmin eps 1) ltac:(apply Rmin_pos; [apply cond_pos|lra])). intros g Bg Hg. change (Rabs (g - 0) < Rmin eps 1) in Bg. rewrite Rminus_0_r, Rabs_pos_eq in Bg by lra.
  assert (M1 := Rmin_l eps 1). assert (M2 := Rmin_r eps 1). apply He. change (Rabs (g ^ 2 * ln g - 0) < eps). rewrite Rminus_0_r.
  assert (L1 : ln g <= g - 1) by apply (ln_upper g Hg). assert (L2 := ln_lower g Hg). assert (B : g * (1 - / g) <= g * ln g) by (apply Rmult_le_compat_l; lra). replace (g * (1 - / g)) with (g - 1) in B by (field; lra).
  rewrite Rabs_left1 by nra. nra.
Qed.
Lemma lim_mproj_0 : filterlim (mproj tau) (at_right 0) (locally 0).
Proof.
  assert (R0 : filterlim (fun g : R => g) (at_right 0) (locally 0)) by (intros Pp HP; apply filter_le_within; exact HP).
  assert (C := filterlim_comp _ _ _ (fun g : R => g) near_c _ _ _ R0 near_c_cont). assert (D := filterlim_comp _ _ _ (fun g : R => g) near_d _ _ _ R0 near_d_cont). rewrite near_c_0 in C.
  assert (M : filterlim (fun g => mult (g ^ 2 * ln g) (near_d g)) (at_right 0) (locally (mult 0 (near_d 0)))) by (eapply filterlim_comp_2; [exact sqln|exact D|apply (filterlim_mult (K := R_AbsRing))]).
  assert (S : filterlim (fun g => plus (near_c g) (mult (g ^ 2 * ln g) (near_d g))) (at_right 0) (locally (plus 0 (mult 0 (near_d 0))))) by (eapply filterlim_comp_2; [exact C|exact M|apply (filterlim_plus (K := R_AbsRing) (V := R_NormedModule))]).
  assert (T := filterlim_comp _ _ _ _ (fun z => mult (tau ^ 2 / (tau ^ 2 + 1) ^ 2) z) _ _ _ S (filterlim_scal_r (K := R_AbsRing) (V := R_NormedModule) (tau ^ 2 / (tau ^ 2 + 1) ^ 2) _)).
  match type of T with filterlim _ _ (locally ?v) => replace v with 0 in T end.
  - eapply filterlim_ext_loc; [|exact T]. exists (mkposreal (1 - 1 / 100) ltac:(lra)). intros g Bg Hg. change (Rabs (g - 0) < 1 - 1 / 100) in Bg. rewrite Rminus_0_r, Rabs_pos_eq in Bg by lra. symmetry. apply mproj_near. lra.
  - unfold scal, plus, mult; cbn. unfold mult; cbn. ring.
Qed.
End Near.
Section Total.
Variables (Rs tau mass : R).
Hypotheses (HR : 0 < Rs) (Ht : 0 < tau).
Lemma total_mass : is_lim (fun r => mass_enclosed_2d_tnfw r Rs tau (M0_totmass_tnfw mass tau)) p_infty mass.
Proof.
  assert (K := ktot_pos tau Ht). assert (T1 : tau ^ 2 + 1 <> 0) by nra.
  apply is_lim_ext with (fun r => M0_totmass_tnfw mass tau * mproj tau (r / Rs)); [intros r; symmetry; apply mass_eq|].
  assert (L : is_lim (fun r => mproj tau (r / Rs)) p_infty (tau ^ 2 / (tau ^ 2 + 1) ^ 2 * ktot tau)).
  { apply (lim_comp_inf (mproj tau) (fun r => r / Rs)); [apply lim_mproj, Ht|]. apply is_lim_spec. intros M. exists (M * Rs). intros r Hr. apply Rmult_lt_reg_r with Rs; [exact HR|]. unfold Rdiv. rewrite Rmult_assoc, Rinv_l by lra. lra. }
  assert (S := is_lim_scal_l _ (M0_totmass_tnfw mass tau) _ _ L). cbn in S.
  match type of S with is_lim _ _ (Finite ?v) => replace v with mass in S; [exact S|] end.
  unfold M0_totmass_tnfw. fold (ktot tau). change (tau * (tau * 1)) with (tau ^ 2). field. repeat split; lra.
Qed.
Lemma central_mass M0 : filterlim (fun r => mass_enclosed_2d_tnfw r Rs tau M0) (at_right 0) (locally 0).
Proof.
  apply filterlim_ext with (fun r => scal M0 (mproj tau (r / Rs))); [intros r; symmetry; apply mass_eq|].
  assert (C : filterlim (fun r => r / Rs) (at_right 0) (at_right 0)).
  { intros Pp [eps He]. assert (E : 0 < eps * Rs) by (apply Rmult_lt_0_compat; [apply cond_pos|exact HR]). exists (mkposreal _ E). intros r Br Hr. change (Rabs (r - 0) < eps * Rs) in Br.
    apply He; [|apply Rdiv_lt_0_compat; assumption]. change (Rabs (r / Rs - 0) < eps). rewrite Rminus_0_r in *. unfold Rdiv. rewrite Rabs_mult, (Rabs_pos_eq (/ Rs)) by (apply Rlt_le, Rinv_0_lt_compat, HR).
    apply Rmult_lt_reg_r with Rs; [exact HR|]. rewrite Rmult_assoc, Rinv_l by lra. lra. }
  assert (T := filterlim_comp _ _ _ _ (fun z => scal M0 z) _ _ _ (filterlim_comp _ _ _ _ _ _ _ _ C (lim_mproj_0 tau Ht)) (filterlim_scal_r (K := R_AbsRing) (V := R_NormedModule) M0 0)).
  match type of T with filterlim _ _ (locally ?v) => assert (Z : v = 0) by (unfold scal; cbn; unfold mult; cbn; ring) end. rewrite Z in T. exact T.
Qed.
End Total.
