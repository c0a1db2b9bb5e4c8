(** * Convergence falls with the distance: the NFW and TNFW lenses *)
From Coq Require Import Reals Lra Psatz.
From Coquelicot Require Import Coquelicot.
From Verif Require Import Const_Model RealFun Derive1 Cosmo_Model Geo_Model LensBase_Model Nfw_Model Nfw_Spec Nfw_Proofs Nfw2_Proofs Nfw3_Proofs Tnfw_Model Tnfw_Proofs Tnfw2_Proofs Tnfw3_Proofs Project_Spec Project_Proofs Project2_Proofs Falls_Spec Falls_Proofs Falls2_Proofs.
Local Open Scope R_scope.

(** ** NFW *)
Lemma f_quot_outside g : 0 < g -> eps_nfw < Rabs (g - 1) -> f_nfw g / (g ^ 2 - 1) = Gx g.
Proof.
  intros G W. rewrite (Fx_nfw g G W). unfold Gx. destruct (Req_EM_T g 1) as [E|E]; [|reflexivity]. exfalso. rewrite E, Rminus_eq_0, Rabs_R0 in W. assert (P := eps_pos). lra.
Qed.
Lemma f_below g : 1 - eps_nfw <= g < 1 -> f_nfw g = 1 - Fx (1 - eps_nfw).
Proof.
  intros H. assert (E := eps_pos). assert (E1 : eps_nfw < 1 / 2) by (unfold eps_nfw; lra). unfold f_nfw. cbv zeta. rewrite Rmin_right by lra. destruct (Rlt_dec 1 g); [lra|]. destruct (Rlt_dec g 1); [|lra]. rewrite half_rapidity by lra.
  unfold Fx. destruct (Rlt_dec 1 (1 - eps_nfw)); [lra|]. destruct (Rlt_dec (1 - eps_nfw) 1); [|lra]. reflexivity.
Qed.
Lemma f_below_neg : 1 - Fx (1 - eps_nfw) < 0.
Proof.
  assert (E := eps_pos). assert (E1 : eps_nfw < 1 / 2) by (unfold eps_nfw; lra). assert (G := Gx_pos (1 - eps_nfw) ltac:(lra)). unfold Gx in G. destruct (Req_EM_T _ 1); [lra|].
  assert (D : (1 - eps_nfw) ^ 2 - 1 < 0) by nra. set (d := (1 - eps_nfw) ^ 2 - 1) in *. replace (1 - Fx (1 - eps_nfw)) with ((1 - Fx (1 - eps_nfw)) / d * d) by (field; lra). nra.
Qed.
Lemma f_quot_pos g : 0 < g -> g ^ 2 - 1 <> 0 -> 0 < f_nfw g / (g ^ 2 - 1).
Proof.
  intros G N. assert (E := eps_pos). destruct (Rlt_dec eps_nfw (Rabs (g - 1))) as [W|W]; [rewrite f_quot_outside by assumption; apply Gx_pos, G|]. apply Rnot_lt_le, Rabs_le_between in W.
  destruct (Rlt_dec 1 g) as [O|O].
  - rewrite f_edge by lra. apply Rdiv_lt_0_compat; [apply f_edge_pos|nra].
  - assert (g <> 1) by (intros X; apply N; rewrite X; ring). rewrite f_below by lra. assert (F := f_below_neg). assert (D : 0 < 1 - g ^ 2) by nra.
    replace ((1 - Fx (1 - eps_nfw)) / (g ^ 2 - 1)) with (- (1 - Fx (1 - eps_nfw)) / (1 - g ^ 2)) by (field; split; lra). apply Rdiv_lt_0_compat; lra.
Qed.
Section Nfw.
Variables (dc cd : R -> R) (z_s z_l x0 y0 mass c s : R).
Notation d_l := (angular_diameter_distance dc z_l). Notation d_s := (angular_diameter_distance dc z_s). Notation d_ls := (angular_diameter_distance_z1z2 dc z_l z_s).
Hypotheses (Hrho : 0 < cd z_l) (Hc : 0 < c) (Hl : 0 < d_l) (Hs : 0 < d_s) (Hls : 0 < d_ls) (Hsoft : 0 <= s).
Notation sr := (scaled_radius dc cd z_l mass c).
Notation kappa := (nfw_convergence dc cd z_s z_l x0 y0 mass c s).
Lemma nfw_value x y k : 0 < distance x0 y0 x y -> kappa x y = Some k -> let g := sr (distance x0 y0 x y + s) in
  0 < g /\ g ^ 2 - 1 <> 0 /\ k = 2 * convergence_s_nfw (critical_surface_density dc z_l z_s) (cd z_l) mass c DELTA * (f_nfw g / (g ^ 2 - 1)).
Proof.
  intros D K g. assert (G : 0 < g) by (apply scaled_pos; try assumption; lra). split; [exact G|]. unfold g, distance in *. clear g. set (th := sqrt ((x - x0) ^ 2 + (y - y0) ^ 2)) in *.
  destruct (Req_dec (sr (th + s)) 1) as [E|E].
  - unfold th in E. rewrite (nfw_kappa_none dc cd z_s z_l x0 y0 mass c x y s E) in K. discriminate.
  - assert (N : sr (th + s) ^ 2 - 1 <> 0) by nra. split; [exact N|]. unfold th in N. rewrite (nfw_kappa dc cd z_s z_l x0 y0 mass c x y s N) in K. injection K as <-. fold th. apply Rmult_assoc.
Qed.
Lemma nfw_positive x y k : 0 < distance x0 y0 x y -> kappa x y = Some k -> 0 < k.
Proof.
  intros D K. destruct (nfw_value x y k D K) as (G & N & ->). assert (P := ks_pos dc cd z_s z_l mass c Hrho Hc Hl Hs Hls). apply Rmult_lt_0_compat; [lra|]. apply f_quot_pos; assumption.
Qed.
Lemma nfw_falls x y x' y' k k' : 0 < distance x0 y0 x y -> distance x0 y0 x y < distance x0 y0 x' y' ->
  eps_nfw < Rabs (sr (distance x0 y0 x y + s) - 1) -> eps_nfw < Rabs (sr (distance x0 y0 x' y' + s) - 1) -> kappa x y = Some k -> kappa x' y' = Some k' -> 0 < k' < k.
Proof.
  intros D L W W' K K'. split; [apply (nfw_positive x' y'); [lra|exact K']|]. destruct (nfw_value x y k D K) as (G & _ & ->). destruct (nfw_value x' y' k' ltac:(lra) K') as (G' & _ & ->).
  rewrite !f_quot_outside by assumption. assert (P := ks_pos dc cd z_s z_l mass c Hrho Hc Hl Hs Hls). apply Rmult_lt_compat_l; [lra|]. apply Gx_falls; [exact G|].
  assert (RP := Rs_pos cd z_l mass c Hc). assert (A := arcsec_to_rad_pos). unfold scaled_radius. apply Rmult_lt_compat_r; [apply Rinv_0_lt_compat, RP|]. apply Rmult_lt_compat_r; [exact A|]. apply Rmult_lt_compat_l; lra.
Qed.
End Nfw.
(** just inside the scale radius the convergence of the code grows with the distance *)
Lemma nfw_rises dc cd z_s z_l x0 y0 mass c : 0 < cd z_l -> 0 < c ->
  0 < angular_diameter_distance dc z_l -> 0 < angular_diameter_distance dc z_s -> 0 < angular_diameter_distance_z1z2 dc z_l z_s ->
  exists x y x' y' k k', 0 < distance x0 y0 x y < distance x0 y0 x' y' /\
    nfw_convergence dc cd z_s z_l x0 y0 mass c 0 x y = Some k /\ nfw_convergence dc cd z_s z_l x0 y0 mass c 0 x' y' = Some k' /\ k < k'.
Proof.
  intros Hrho Hc Hl Hs Hls. assert (E := eps_pos). assert (E1 : eps_nfw < 1 / 2) by (unfold eps_nfw; lra). assert (F := f_below_neg). set (f0 := 1 - Fx (1 - eps_nfw)) in *.
  assert (P := ks_pos dc cd z_s z_l mass c Hrho Hc Hl Hs Hls). set (ks := convergence_s_nfw _ _ _ _ _) in *.
  destruct (at_radius dc cd z_l x0 y0 mass c Hc Hl (1 - eps_nfw / 2) ltac:(lra)) as (x & Hx & Ex). destruct (at_radius dc cd z_l x0 y0 mass c Hc Hl (1 - eps_nfw / 4) ltac:(lra)) as (x' & Hx' & Ex').
  exists x, y0, x', y0. eexists. eexists. unfold distance.
  assert (DL : sqrt ((x - x0) ^ 2 + (y0 - y0) ^ 2) < sqrt ((x' - x0) ^ 2 + (y0 - y0) ^ 2)).
  { set (a := sqrt ((x - x0) ^ 2 + (y0 - y0) ^ 2)) in *. set (b := sqrt ((x' - x0) ^ 2 + (y0 - y0) ^ 2)) in *. clearbody a b. destruct (Rlt_le_dec a b) as [|B]; [assumption|]. exfalso. assert (scaled_radius dc cd z_l mass c b <= scaled_radius dc cd z_l mass c a); [|lra].
    assert (RP := Rs_pos cd z_l mass c Hc). assert (A := arcsec_to_rad_pos). unfold scaled_radius. apply Rmult_le_compat_r; [apply Rlt_le, Rinv_0_lt_compat, RP|]. apply Rmult_le_compat_r; [lra|]. apply Rmult_le_compat_l; lra. }
  split; [split; [apply norm_pos; left; lra|exact DL]|]. split; [apply nfw_kappa; rewrite Rplus_0_r, Ex; nra|]. split; [apply nfw_kappa; rewrite Rplus_0_r, Ex'; nra|].
  rewrite !Rplus_0_r, Ex, Ex', !f_below by lra. fold f0 ks. set (a := 1 - eps_nfw / 2). set (b := 1 - eps_nfw / 4). assert (A : 0 < 1 - b ^ 2 < 1 - a ^ 2) by (unfold a, b; nra).
  replace (2 * ks * f0 / (a ^ 2 - 1)) with (2 * ks * - f0 / (1 - a ^ 2)) by (field; split; lra). replace (2 * ks * f0 / (b ^ 2 - 1)) with (2 * ks * - f0 / (1 - b ^ 2)) by (field; split; lra).
  apply inv_falls; try lra. apply Rmult_lt_0_compat; lra.
Qed.

(** ** TNFW *)
Section Profile.
Variable tau : R.
Hypothesis Ht : 0 < tau.
Lemma sproj_outside g : 0 < g -> 1 / 100 < Rabs (g - 1) -> sproj tau g = tau ^ 2 / (tau ^ 2 + 1) ^ 2 * Ex tau g.
Proof.
  intros G W. unfold sproj, Ex, Gx. rewrite (Fx_tnfw g G W). destruct (Req_EM_T g 1) as [E|E]; [exfalso; rewrite E, Rminus_eq_0, Rabs_R0 in W; lra|]. assert (P := hyp_pos tau Ht g). f_equal. assert (g ^ 2 - 1 <> 0) by nra. field. repeat split; lra.
Qed.
Lemma sproj_window g : 0 < g -> Rabs (g - 1) <= 1 / 100 -> 
  sproj tau g = tau ^ 2 / (tau ^ 2 + 1) ^ 2 * (Ex tau g + (if Req_EM_T g 1 then 2 * (F_tnfw g - Fx g) else (F_tnfw g - Fx g) * (2 - (tau ^ 2 + 1) / (g ^ 2 - 1)))).
Proof.
  intros G W. unfold sproj, Ex, Gx. assert (P := hyp_pos tau Ht g). f_equal. destruct (Req_EM_T g 1) as [E|E]; [field; repeat split; lra|]. assert (g ^ 2 - 1 <> 0) by nra. field. repeat split; lra.
Qed.
Lemma sproj_pos g : 0 < g -> 0 < sproj tau g.
Proof.
  intros G. assert (F := front_pos tau Ht). destruct (Rlt_dec (1 / 100) (Rabs (g - 1))) as [W|W].
  - rewrite sproj_outside by assumption. apply Rmult_lt_0_compat; [exact F|]. apply (Ex_falls tau Ht (g / 2) g); lra.
  - apply Rnot_lt_le in W. rewrite sproj_window by assumption. apply Rmult_lt_0_compat; [exact F|]. assert (B := proj1 (Rabs_le_between _ _) W). assert (L := Ex_lower tau Ht g ltac:(lra)).
    destruct (F_window g G W) as [W1 W2]. set (t2 := tau ^ 2) in *. assert (T2 : 0 < t2) by (unfold t2; nra). apply Rabs_le_between in W1. destruct (Req_EM_T g 1) as [E|E]; [nra|]. specialize (W2 E). assert (N : g ^ 2 - 1 <> 0) by nra.
    replace ((F_tnfw g - Fx g) * (2 - (t2 + 1) / (g ^ 2 - 1))) with (2 * (F_tnfw g - Fx g) + (t2 + 1) * ((Fx g - F_tnfw g) / (g ^ 2 - 1))) by (field; exact N). apply Rabs_le_between in W2. set (w := (Fx g - F_tnfw g) / (g ^ 2 - 1)) in *. nra.
Qed.
(** the code is too low at the outer edge of the series *)
Lemma F_edge : Fx (101 / 100) < F_tnfw (101 / 100).
Proof.
  assert (E : F_tnfw (101 / 100) = 1 - 2 * (101 / 100 - 1) / 3 + 7 * (101 / 100 - 1) ^ 2 / 15).
  { unfold F_tnfw. cbv zeta. destruct (Rlt_dec (101 / 100) _); [lra|]. destruct (Rlt_dec _ (101 / 100)); [lra|reflexivity]. }
  rewrite E. destruct (Fx_near (101 / 100) ltac:(lra) ltac:(lra)) as (e & B & ->). set (w := (1 - 101 / 100) / (1 + 101 / 100)) in *. assert (W : w = - (1 / 201)) by (unfold w; field). rewrite W in B |- *. clear W w. replace (Rabs (- (1 / 201))) with (1 / 201) in B by (rewrite Rabs_Ropp, Rabs_pos_eq; lra). apply Rabs_le_between in B. replace (2 / (1 + 101 / 100)) with (200 / 201) by field. lra.
Qed.
Lemma sproj_edge : sproj tau (101 / 100) < tau ^ 2 / (tau ^ 2 + 1) ^ 2 * Ex tau (101 / 100).
Proof.
  rewrite sproj_window; [|lra|rewrite Rabs_pos_eq by lra; lra]. apply Rmult_lt_compat_l; [apply front_pos, Ht|]. destruct (Req_EM_T (101 / 100) 1); [lra|]. assert (F := F_edge). replace ((101 / 100) ^ 2 - 1) with (201 / 10000) by field.
  assert (0 < tau ^ 2) by nra. set (t2 := tau ^ 2) in *. set (d := F_tnfw (101 / 100) - Fx (101 / 100)). assert (0 < d) by (unfold d; lra). replace ((t2 + 1) / (201 / 10000)) with ((t2 + 1) * (10000 / 201)) by field. nra.
Qed.
Lemma Fx_continuous g : 1 < g -> continuous Fx g.
Proof.
  intros G. apply (continuous_ext_loc _ (fun x => wp x / sqrt (x ^ 2 - 1))).
  - exists (mkposreal (g - 1) ltac:(lra)). intros t T. change (Rabs (t - g) < g - 1) in T. apply Rabs_lt_between in T. unfold Fx. destruct (Rlt_dec 1 t); [reflexivity|lra].
  - apply (ex_derive_continuous (K := R_AbsRing) (V := R_NormedModule)). unfold wp. assert (P := root_pos g G). auto_derive. assert (0 < g * g - 1) by nra. simpl in P. unfold Rminus in P. repeat split; try nra. 
Qed.
Lemma Ex_continuous g : 1 < g -> continuous (Ex tau) g.
Proof.
  intros G. assert (CF := Fx_continuous g G). assert (PH := hyp_pos tau Ht g).
  assert (CG : continuous Gx g).
  { apply (continuous_ext_loc _ (fun x => (1 - Fx x) * / (x ^ 2 - 1))).
    - exists (mkposreal (g - 1) ltac:(lra)). intros t T. change (Rabs (t - g) < g - 1) in T. apply Rabs_lt_between in T. unfold Gx. destruct (Req_EM_T t 1); [lra|reflexivity].
    - apply (continuous_mult (K := R_AbsRing)); [apply (continuous_minus (V := R_NormedModule)); [apply continuous_const|exact CF]|]. apply (ex_derive_continuous (K := R_AbsRing) (V := R_NormedModule)). auto_derive. nra. }
  unfold Ex. apply (continuous_plus (V := R_NormedModule)).
  - apply (continuous_minus (V := R_NormedModule)); [apply (continuous_plus (V := R_NormedModule))|].
    + apply (continuous_mult (K := R_AbsRing)); [apply continuous_const|exact CG].
    + apply (continuous_mult (K := R_AbsRing)); [apply continuous_const|exact CF].
    + apply (ex_derive_continuous (K := R_AbsRing) (V := R_NormedModule)). unfold hyp. unfold hyp in PH. auto_derive. simpl in PH. repeat split; nra.
  - apply (ex_derive_continuous (K := R_AbsRing) (V := R_NormedModule)). unfold hyp, L_tnfw. unfold hyp in PH. auto_derive. simpl in PH. set (h := sqrt _) in *. assert (0 < g * / (tau + h)) by (apply Rmult_lt_0_compat; [lra|apply Rinv_0_lt_compat; lra]). repeat split; try nra.
Qed.
Lemma sproj_rises : exists g, 101 / 100 < g /\ sproj tau (101 / 100) < sproj tau g.
Proof.
  assert (F := front_pos tau Ht). assert (S := sproj_edge). set (f := tau ^ 2 / (tau ^ 2 + 1) ^ 2) in *. set (v := sproj tau (101 / 100)) in *.
  assert (C := Ex_continuous (101 / 100) ltac:(lra)). assert (D : 0 < Ex tau (101 / 100) - v / f). { assert (v / f < Ex tau (101 / 100)); [|lra]. apply Rmult_lt_reg_r with f; [exact F|]. replace (v / f * f) with v by (field; lra). lra. }
  destruct (proj1 (continuity_pt_locally _ _) (proj2 (continuity_pt_filterlim _ _) C) (mkposreal _ D)) as (del & Hd). assert (DP := cond_pos del). set (g := 101 / 100 + Rmin (del / 2) 1). exists g. assert (M1 := Rmin_l (del / 2) 1). assert (M2 : 0 < Rmin (del / 2) 1) by (apply Rmin_glb_lt; lra).
  split; [unfold g; lra|]. rewrite sproj_outside; [|unfold g; lra|unfold g; rewrite Rabs_pos_eq by lra; lra].
  specialize (Hd g). cbn [pos] in Hd. assert (B : Rabs (Ex tau g - Ex tau (101 / 100)) < Ex tau (101 / 100) - v / f). { apply Hd. change (Rabs (g - 101 / 100) < del). unfold g. rewrite Rabs_pos_eq by lra. lra. }
  apply Rabs_lt_between in B. fold f. apply Rle_lt_trans with (f * (v / f)); [right; field; lra|]. apply Rmult_lt_compat_l; lra.
Qed.
End Profile.
Section Tnfw.
Variables (dc cd : R -> R) (tot : bool) (z_s z_l x0 y0 mass Rs tau s : R).
Notation d_l := (angular_diameter_distance dc z_l). Notation d_s := (angular_diameter_distance dc z_s). Notation d_ls := (angular_diameter_distance_z1z2 dc z_l z_s).
Hypotheses (Hrho : 0 < cd z_l) (Hm : 0 < mass) (HR : 0 < Rs) (Ht : 0 < tau) (Hl : 0 < d_l) (Hs : 0 < d_s) (Hls : 0 < d_ls).
Notation kappa := (tnfw_convergence dc cd tot z_s z_l x0 y0 mass Rs tau).
Lemma M0_pos : 0 < tnfw_M0 dc cd tot z_l mass Rs tau.
Proof.
  destruct tot; [apply tnfw_M0_pos; assumption|]. assert (E := tnfw_M0_scale dc cd z_l mass Hl Rs tau HR). assert (A := arcsec_to_rad_pos). assert (P := PI_RGT_0).
  assert (D : 0 < tnfw_get_scale_density dc cd z_l mass Rs) by (rewrite tnfw_scale_density; apply scale_density_pos; [exact Hrho|apply tnfw_concentration_pos; assumption|apply D200]).
  rewrite <- E in D. assert (V : 0 < 4 * PI * (Rs * (d_l * arcsec_to_rad)) ^ 3) by (apply Rmult_lt_0_compat; [lra|apply pow_lt; apply Rmult_lt_0_compat; [exact HR|apply Rmult_lt_0_compat; assumption]]).
  set (V0 := 4 * PI * (Rs * (d_l * arcsec_to_rad)) ^ 3) in *. set (m := tnfw_M0 dc cd false z_l mass Rs tau) in *. replace m with (m / V0 * V0) by (field; lra). apply Rmult_lt_0_compat; assumption.
Qed.
Lemma scale_kappa : exists A, 0 < A /\ forall x y s, kappa s x y = A * sproj tau ((distance x0 y0 x y + s) / Rs).
Proof.
  assert (M := M0_pos). assert (S := sigma_pos dc z_s z_l Hl Hs Hls). assert (A := arcsec_to_rad_pos). assert (P := PI_RGT_0).
  exists (tnfw_M0 dc cd tot z_l mass Rs tau / (2 * PI * (Rs * d_l * arcsec_to_rad) ^ 2) / critical_surface_density dc z_l z_s). split.
  - apply Rdiv_lt_0_compat; [apply Rdiv_lt_0_compat; [exact M|]|exact S]. apply Rmult_lt_0_compat; [lra|apply pow_lt]. apply Rmult_lt_0_compat; [apply Rmult_lt_0_compat|]; assumption.
  - intros x y s'. unfold tnfw_convergence. rewrite kappa_eq. unfold distance, Rdiv. ring.
Qed.
Lemma tnfw_positive x y : 0 <= s -> 0 < distance x0 y0 x y -> 0 < kappa s x y.
Proof. intros S D. destruct scale_kappa as (A & PA & E). rewrite E. apply Rmult_lt_0_compat; [exact PA|]. apply sproj_pos; [exact Ht|]. apply Rdiv_lt_0_compat; lra. Qed.
Lemma tnfw_falls x y x' y' : 0 <= s -> 0 < distance x0 y0 x y -> distance x0 y0 x y < distance x0 y0 x' y' ->
  1 / 100 < Rabs ((distance x0 y0 x y + s) / Rs - 1) -> 1 / 100 < Rabs ((distance x0 y0 x' y' + s) / Rs - 1) -> 0 < kappa s x' y' < kappa s x y.
Proof.
  intros S D L W W'. split; [apply tnfw_positive; lra|]. destruct scale_kappa as (A & PA & E). rewrite !E. apply Rmult_lt_compat_l; [exact PA|].
  assert (G : 0 < (distance x0 y0 x y + s) / Rs) by (apply Rdiv_lt_0_compat; lra). assert (G' : (distance x0 y0 x y + s) / Rs < (distance x0 y0 x' y' + s) / Rs) by (apply Rmult_lt_compat_r; [apply Rinv_0_lt_compat, HR|lra]).
  rewrite !sproj_outside by (try assumption; lra). apply Rmult_lt_compat_l; [apply front_pos, Ht|]. apply Ex_falls; assumption.
Qed.
Lemma tnfw_rises : exists x y x' y', 0 < distance x0 y0 x y < distance x0 y0 x' y' /\ kappa 0 x y < kappa 0 x' y'.
Proof.
  destruct scale_kappa as (A & PA & E). destruct (sproj_rises tau Ht) as (g & G & H).
  assert (X : forall u, 0 < u -> distance x0 y0 (x0 + u * Rs) y0 = u * Rs). { intros u U. unfold distance. replace ((x0 + u * Rs - x0) ^ 2 + (y0 - y0) ^ 2) with ((u * Rs) ^ 2) by ring. apply sqrt_pow2, Rlt_le, Rmult_lt_0_compat; assumption. }
  exists (x0 + 101 / 100 * Rs), y0, (x0 + g * Rs), y0. rewrite !E, !X by lra. split; [nra|]. rewrite !Rplus_0_r. replace (101 / 100 * Rs / Rs) with (101 / 100) by (field; lra). replace (g * Rs / Rs) with g by (field; lra). apply Rmult_lt_compat_l; assumption.
Qed.
End Tnfw.
