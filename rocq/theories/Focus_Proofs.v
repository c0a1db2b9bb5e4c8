(** * Proofs for C126 *)
From Coq Require Import Reals List Lra Lia.
From Coquelicot Require Import Coquelicot.
From Verif Require Import Py Calc2 Const_Model Cosmo_Model Lens_Spec LensBase_Model LensBasic_Model Multiplane_Model LensBase_Proofs LensBasic_Proofs Multiplane_Proofs Multiplane2_Proofs.
Import ListNotations.
Local Open Scope R_scope.

Section Thin.
Variables (cd : R -> R) (t : thin_lens) (zs : R).
Let F := time_delay_distance cd (z_l t) zs / c_Mpc_s / days_to_seconds * arcsec_to_rad ^ 2.
Let delay u v := time_delay cd t zs u v true true.
Let bx u v := fst (raytrace (reduced_deflection_angle t) u v).
Let by_ u v := snd (raytrace (reduced_deflection_angle t) u v).
Let ax u v := fst (reduced_deflection_angle t u v).
Let ay u v := snd (reduced_deflection_angle t u v).
Lemma bx_eq u v : bx u v = u - ax u v.
Proof. unfold bx, raytrace, ax. destruct (reduced_deflection_angle t u v). reflexivity. Qed.
Lemma by_eq u v : by_ u v = v - ay u v.
Proof. unfold by_, raytrace, ay. destruct (reduced_deflection_angle t u v). reflexivity. Qed.
Lemma delay_eq u v : delay u v = F * ((ax u v ^ 2 + ay u v ^ 2) / 2 - potential t u v).
Proof.
  assert (T := time_delay_fermat cd t zs u v). assert (B1 := bx_eq u v). assert (B2 := by_eq u v). unfold bx, by_ in B1, B2.
  destruct (raytrace (reduced_deflection_angle t) u v) as [p q]. cbn [fst snd] in B1, B2. subst p q. unfold delay. rewrite T. unfold fermat_surface, F, time_delay_distance, Rdiv. ring.
Qed.
Lemma delay_gradient x y : lens_consistent (potential t) (reduced_deflection_angle t) (convergence t) x y ->
  exists b11 b12 b21 b22, D2 bx x y b11 b12 /\ D2 by_ x y b21 b22 /\
    D2 delay x y (- F * (ax x y * b11 + ay x y * b21)) (- F * (ax x y * b12 + ay x y * b22)).
Proof.
  intros [G (axx & axy & ayx & ayy & H1 & H2 & S & _)].
  exists (1 - axx), (0 - axy), (0 - ayx), (1 - ayy). split; [|split].
  - apply (D2_ext (fun u v => u - ax u v)); [intros; symmetry; apply bx_eq|]. apply D2_minus; [apply D2_fst|exact H1].
  - apply (D2_ext (fun u v => v - ay u v)); [intros; symmetry; apply by_eq|]. apply D2_minus; [apply D2_snd|exact H2].
  - apply (D2_ext (fun u v => F * ((/ 2 * (ax u v ^ 2 + ay u v ^ 2)) - potential t u v))); [intros; rewrite delay_eq; unfold Rdiv; ring|].
    eapply D2_eq; [apply D2_scal, D2_minus; [apply D2_scal, D2_plus; apply D2_sqr; [exact H1|exact H2]|exact G]| |]; unfold ax, ay; subst axy; field.
Qed.
Lemma delay_path (g h : R -> R) s l m : lens_consistent (potential t) (reduced_deflection_angle t) (convergence t) (g s) (h s) -> is_derive g s l -> is_derive h s m ->
  exists p q, is_derive (fun r => bx (g r) (h r)) s p /\ is_derive (fun r => by_ (g r) (h r)) s q /\
    is_derive (fun r => delay (g r) (h r)) s (- F * (ax (g s) (h s) * p + ay (g s) (h s) * q)).
Proof.
  intros C Hg Hh. destruct (delay_gradient _ _ C) as (b11 & b12 & b21 & b22 & D1 & D2' & D3).
  exists (b11 * l + b12 * m), (b21 * l + b22 * m). split; [apply (D2_curve bx g h s b11 b12 l m D1 Hg Hh)|]. split; [apply (D2_curve by_ g h s b21 b22 l m D2' Hg Hh)|].
  assert (E := D2_curve delay g h s _ _ l m D3 Hg Hh).
  replace (- F * (ax (g s) (h s) * (b11 * l + b12 * m) + ay (g s) (h s) * (b21 * l + b22 * m))) with (- F * (ax (g s) (h s) * b11 + ay (g s) (h s) * b21) * l + - F * (ax (g s) (h s) * b12 + ay (g s) (h s) * b22) * m) by ring. exact E.
Qed.
Lemma focused (g h : R -> R) a b : a <= b ->
  (forall s, a <= s <= b -> ex_derive g s /\ ex_derive h s /\ lens_consistent (potential t) (reduced_deflection_angle t) (convergence t) (g s) (h s)) ->
  (forall s, a <= s <= b -> raytrace (reduced_deflection_angle t) (g s) (h s) = raytrace (reduced_deflection_angle t) (g a) (h a)) ->
  delay (g b) (h b) = delay (g a) (h a).
Proof.
  intros AB P B. destruct (MVT_gen (fun r => delay (g r) (h r)) a b (fun _ => 0)) as [c [_ E]].
  - rewrite Rmin_left, Rmax_right by exact AB. intros s Hs. destruct (P s ltac:(lra)) as ([l Hl] & [m Hm] & C).
    destruct (delay_path g h s l m C Hl Hm) as (p & q & H1 & H2 & H3).
    assert (NB : locally s (fun r => raytrace (reduced_deflection_angle t) (g r) (h r) = raytrace (reduced_deflection_angle t) (g a) (h a))).
    { apply (filter_imp (fun r => a < r < b)); [intros r Hr; apply B; lra|]. apply (locally_interval _ s a b); cbn; try lra. intros r H4 H5. split; assumption. }
    assert (Z1 : p = 0). { rewrite <- (is_derive_unique _ _ _ H1). rewrite (Derive_ext_loc _ (fun _ => bx (g a) (h a))); [apply Derive_const|]. revert NB. apply filter_imp. intros r Hr. unfold bx. rewrite Hr. reflexivity. }
    assert (Z2 : q = 0). { rewrite <- (is_derive_unique _ _ _ H2). rewrite (Derive_ext_loc _ (fun _ => by_ (g a) (h a))); [apply Derive_const|]. revert NB. apply filter_imp. intros r Hr. unfold by_. rewrite Hr. reflexivity. }
    subst p q. replace 0 with (- F * (ax (g s) (h s) * 0 + ay (g s) (h s) * 0)) by ring. exact H3.
  - rewrite Rmin_left, Rmax_right by exact AB. intros s Hs. destruct (P s Hs) as ([l Hl] & [m Hm] & C).
    destruct (delay_path g h s l m C Hl Hm) as (p & q & _ & _ & H3). apply continuity_pt_filterlim. apply (ex_derive_continuous (K := R_AbsRing) (V := R_NormedModule) (fun r => delay (g r) (h r))). eexists. exact H3.
  - lra.
Qed.
End Thin.

Lemma focused_plane cd z l zs (g h : R -> R) a b : a <= b ->
  (forall s, a <= s <= b -> ex_derive g s /\ ex_derive h s /\ forall t, In t l -> lens_consistent (potential t) (reduced_deflection_angle t) (convergence t) (g s) (h s)) ->
  (forall s, a <= s <= b -> raytrace (singleplane_deflection l) (g s) (h s) = raytrace (singleplane_deflection l) (g a) (h a)) ->
  time_delay cd (singleplane z l) zs (g b) (h b) true true = time_delay cd (singleplane z l) zs (g a) (h a) true true.
Proof.
  intros AB P B. apply (focused cd (singleplane z l) zs g h a b AB); [|exact B].
  intros s Hs. destruct (P s Hs) as (H1 & H2 & H3). split; [exact H1|]. split; [exact H2|]. apply singleplane_consistent. exact H3.
Qed.

(** ** a mass sheet of the critical density *)
Definition sheet : thin_lens := ThinLens 1 (reduced_deflection_angle_mass_sheet 0 0 1) (potential_mass_sheet 0 0 1) (fun u _ => convergence_mass_sheet 1 u).
Lemma sheet_consistent x y : lens_consistent (potential sheet) (reduced_deflection_angle sheet) (convergence sheet) x y.
Proof. apply mass_sheet_consistent. Qed.
Lemma sheet_focus x y : raytrace (reduced_deflection_angle sheet) x y = (0, 0).
Proof. unfold raytrace. cbn. f_equal; ring. Qed.
Lemma sheet_delay cd zs x y : 0 < 1 + zs -> 0 < cd 1 -> cd 1 < cd zs ->
  multiplane_raytrace cd cd [sheet] zs x y = Ok (0, 0) /\
  exists k, 0 < k /\ multiplane_time_delay cd cd [sheet] zs x y true true = Ok (Some (k * (x ^ 2 + y ^ 2))).
Proof.
  intros Z C1 C2. assert (Cp := c_Mpc_s_pos). assert (Dp := days_pos). assert (Ap := arcsec_to_rad_pos). assert (Ar := arcsec_rad_inv).
  assert (Z0 : 1 + zs <> 0) by lra. assert (N1 : cd zs <> 0) by lra. assert (N2 : cd (z_l sheet) <> 0) by (cbn; lra). assert (N3 : cd zs <> cd (z_l sheet)) by (cbn; lra).
  split; [rewrite one_plane_raytrace by assumption; rewrite sheet_focus; reflexivity|].
  set (d := cd zs - cd 1). assert (d0 : 0 < d) by (unfold d; lra).
  set (K := (1 + 1) * cd 1 * cd zs / (d * c_Mpc_s) / days_to_seconds * arcsec_to_rad ^ 2 * (1 / 2)).
  assert (K0 : 0 < K). { assert (A2 : 0 < arcsec_to_rad ^ 2) by (apply pow_lt; exact Ap). assert (DC : 0 < d * c_Mpc_s) by (apply Rmult_lt_0_compat; assumption). assert (CC : 0 < (1 + 1) * cd 1 * cd zs) by (apply Rmult_lt_0_compat; lra).
    unfold K. apply Rmult_lt_0_compat; [|lra]. apply Rmult_lt_0_compat; [|exact A2]. apply Rdiv_lt_0_compat; [|exact Dp]. apply Rdiv_lt_0_compat; assumption. }
  exists (K * ((cd zs / d) ^ 2 - 1)). split.
  - apply Rmult_lt_0_compat; [exact K0|]. assert (1 < cd zs / d). { apply Rmult_lt_reg_r with d; [exact d0|]. unfold Rdiv. rewrite Rmult_assoc, Rinv_l by lra. unfold d. lra. } nra.
  - assert (H := one_plane_core cd zs sheet Z0 N1 N2 N3 true true x y). change (reduced_deflection_angle sheet x y) with (reduced_deflection_angle_mass_sheet 0 0 1 x y) in H.
    destruct (reduced_deflection_angle_mass_sheet 0 0 1 x y) as [ax ay] eqn:EA. destruct H as (TD & E1 & E2). destruct (E2 eq_refl) as (px & py & EP & ET).
    unfold multiplane_time_delay. rewrite E1. cbn [bind snd orb]. f_equal. rewrite ET.
    assert (P : px = cd zs / d * x /\ py = cd zs / d * y).
    { unfold physical_deflection_angle in EP. change (reduced_deflection_angle sheet x y) with (reduced_deflection_angle_mass_sheet 0 0 1 x y) in EP. rewrite EA in EP.
      unfold physical_from_reduced_deflection_angle in EP. injection EP as <- <-. unfold reduced_deflection_angle_mass_sheet in EA. cbn in EA. injection EA as <- <-.
      unfold angular_diameter_distance, angular_diameter_distance_z1z2, comoving_distance_z1z2. cbn [z_l sheet]. fold d. split; field; lra. }
    destruct P as [-> ->]. unfold plane_delay, odiv. cbn [z_l sheet]. fold d.
    assert (Q1 : d * c_Mpc_s <> 0) by (apply Rmult_integral_contrapositive_currified; lra). assert (Q2 : cd zs * d <> 0) by (apply Rmult_integral_contrapositive_currified; lra).
    destruct (Req_EM_T (d * c_Mpc_s) 0) as [e|_]; [contradiction|]. destruct (Req_EM_T (cd zs * d) 0) as [e|_]; [contradiction|]. f_equal.
    assert (X : forall w, w * arcsec_to_rad * cd 1 * rad_to_arcsec / cd 1 = w) by (intros w; transitivity (w * (arcsec_to_rad * rad_to_arcsec)); [field; lra|rewrite Ar; ring]).
    rewrite !X. change (potential sheet x y) with (1 / 2 * ((x - 0) ^ 2 + (y - 0) ^ 2)). unfold K. field. lra.
Qed.
