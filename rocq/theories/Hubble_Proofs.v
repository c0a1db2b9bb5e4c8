(** * Distances divided by k: what changes and what does not *)
From Coq Require Import Reals List Arith Lia Lra.
From Coquelicot Require Import Coquelicot.
From Verif Require Import Py Const_Model RealFun Cosmo_Model CosmoTable_Model CosmoTable_Proofs Geo_Model LensBase_Model LensBasic_Model Multiplane_Model Jaffe_Model Nfw_Model Tnfw_Model Halo_Model Hubble_Spec.
Import ListNotations.
Local Open Scope R_scope.

(** ** FlatLambdaCDM *)
Lemma flat_nearer helper Om0 h0 k : 0 < h0 -> 0 < k ->
  k_times_nearer k (fun z => comoving_distance_flat helper z h0 Om0) (fun z => comoving_distance_flat helper z (k * h0) Om0).
Proof. intros H K z. rewrite (flat_h0 _ _ (k * h0)), (flat_h0 _ _ h0) by (try apply Rmult_lt_0_compat; assumption). field. lra. Qed.
Lemma flat_denser Om0 rho0 k : denser k (fun z => critical_density z rho0 Om0) (fun z => critical_density z (k ^ 2 * rho0) Om0).
Proof. intros z. unfold critical_density. ring. Qed.

Section Nearer.
Variables (k : R) (dc dc' : R -> R).
Hypothesis K : 0 < k.
Hypothesis HD : k_times_nearer k dc dc'.
Let K0 : k <> 0. Proof. lra. Qed.
Lemma near_d z : angular_diameter_distance dc' z = angular_diameter_distance dc z / k.
Proof. unfold angular_diameter_distance. rewrite HD. unfold Rdiv. ring. Qed.
Lemma near_d2 z1 z2 : angular_diameter_distance_z1z2 dc' z1 z2 = angular_diameter_distance_z1z2 dc z1 z2 / k.
Proof. unfold angular_diameter_distance_z1z2, comoving_distance_z1z2. rewrite !HD. unfold Rdiv. ring. Qed.
Lemma near_ratio a b : b <> 0 -> (a / k) / (b / k) = a / b.
Proof. intros H. field. split; [exact H|exact K0]. Qed.
(** (the division by 0 of the reals is harmless here: both sides are the same number) *)
Lemma cancel_k a q : (a / k) / (q / k) = a / q.
Proof. unfold Rdiv. rewrite Rinv_mult, Rinv_inv. set (e := / q). clearbody e. field. exact K0. Qed.
Notation d := (angular_diameter_distance dc). Notation d2 := (angular_diameter_distance_z1z2 dc).
Lemma near_sigma z1 z2 : d z1 <> 0 -> d2 z1 z2 <> 0 -> critical_surface_density dc' z1 z2 = k * critical_surface_density dc z1 z2.
Proof.
  intros H1 H2. unfold critical_surface_density. rewrite !near_d, !near_d2. assert (P := PI_RGT_0). assert (G0 := G_over_c2_pos). field. repeat split; try assumption; lra.
Qed.
Lemma sigma_nonzero z1 z2 : d z1 <> 0 -> d z2 <> 0 -> d2 z1 z2 <> 0 -> critical_surface_density dc z1 z2 <> 0.
Proof.
  intros H1 H2 H3. unfold critical_surface_density. assert (P := PI_RGT_0). assert (G0 := G_over_c2_pos). set (p := PI) in *. set (g := G_over_c2) in *. clearbody p g.
  apply Rmult_integral_contrapositive_currified; [exact H2|]. apply Rinv_neq_0_compat.
  assert (PG : 4 * p * g <> 0) by (apply Rgt_not_eq; nra). apply Rmult_integral_contrapositive_currified; [|exact H3]. apply Rmult_integral_contrapositive_currified; [exact PG|exact H1].
Qed.
Lemma near_tdd z1 z2 : d2 z1 z2 <> 0 -> time_delay_distance dc' z1 z2 = time_delay_distance dc z1 z2 / k.
Proof. intros H. unfold time_delay_distance. rewrite !near_d, !near_d2. field. split; assumption. Qed.
Lemma near_days z_s z_l : d2 z_l z_s <> 0 -> arcsec2_to_days dc' z_s z_l = arcsec2_to_days dc z_s z_l / k.
Proof. intros H. unfold arcsec2_to_days, time_delay_arcsec2_to_days. rewrite !near_d, !near_d2. assert (C := c_Mpc_s_pos). assert (D := days_pos). field. repeat split; try assumption; lra. Qed.
(** ** one plane *)
Lemma near_physical lens z_s x y : d2 (z_l lens) z_s <> 0 -> physical_deflection_angle dc' lens z_s x y = physical_deflection_angle dc lens z_s x y.
Proof. intros H. unfold physical_deflection_angle, physical_from_reduced_deflection_angle. rewrite near_d, near_d2. destruct (reduced_deflection_angle lens x y) as [ax ay]. rewrite near_ratio by exact H. reflexivity. Qed.
Lemma near_surface lens z_s x y : d (z_l lens) <> 0 -> d2 (z_l lens) z_s <> 0 -> surface_density dc' lens z_s x y = k * surface_density dc lens z_s x y.
Proof. intros H1 H2. unfold surface_density. rewrite near_sigma by assumption. ring. Qed.
Lemma near_delay lens z_s x y sh ge : d2 (z_l lens) z_s <> 0 -> time_delay dc' lens z_s x y sh ge = time_delay dc lens z_s x y sh ge / k.
Proof. intros H. unfold time_delay. rewrite near_days by exact H. destruct (reduced_deflection_angle lens x y) as [ax ay]. unfold Rdiv. ring. Qed.
(** ** several planes *)
Section Planes.
Variables (tcd tcd' : R -> R) (lenses : list thin_lens) (z_s : R).
Hypothesis HT : k_times_nearer k tcd tcd'.
Hypothesis HL : List.Forall (fun l => tcd (z_l l) <> 0 /\ d2 (z_l l) z_s <> 0) lenses.
Hypothesis HS : tcd z_s <> 0.
Definition near_state (st : mp_state) : mp_state := let '(X, Y, tx, ty, TD) := st in (X / k, Y / k, tx, ty, option_map (fun t => t / k) TD).
Lemma near_tcd2 z1 z2 : transverse_comoving_distance_z1z2 tcd' z1 z2 = transverse_comoving_distance_z1z2 tcd z1 z2 / k.
Proof. unfold transverse_comoving_distance_z1z2. rewrite !HT. unfold Rdiv. ring. Qed.
Lemma near_plane_delay sh ge lens Dl D Dis Dn Ds X Y ax ay : Dl <> 0 ->
  plane_delay sh ge lens (Dl / k) (D / k) (Dis / k) (Dn / k) (Ds / k) (X / k) (Y / k) ax ay = option_map (fun t => t / k) (plane_delay sh ge lens Dl D Dis Dn Ds X Y ax ay).
Proof.
  intros HDl. unfold plane_delay, odiv. assert (C := c_Mpc_s_pos). assert (DY := days_pos).
  assert (Z : forall a c, c <> 0 -> (a / k * c = 0 <-> a * c = 0)).
  { intros a c Hc. split; intros E.
    - apply Rmult_integral in E. destruct E as [E|E]; [|contradiction]. replace a with (a / k * k) by (field; exact K0). rewrite E. ring.
    - apply Rmult_integral in E. destruct E as [E|E]; [|contradiction]. rewrite E. unfold Rdiv. ring. }
  assert (Z1 := Z D c_Mpc_s ltac:(lra)). destruct (Req_EM_T (D / k * c_Mpc_s) 0) as [E1|E1], (Req_EM_T (D * c_Mpc_s) 0) as [E2|E2]; try (exfalso; tauto); [reflexivity|].
  assert (D0 : D <> 0) by (intros E; apply E2; rewrite E; ring).
  assert (Z2 : Dn / k * (Dis / k) = 0 <-> Dn * Dis = 0).
  { split; intros E.
    - replace (Dn * Dis) with (Dn / k * (Dis / k) * k ^ 2) by (field; exact K0). rewrite E. ring.
    - replace (Dn / k * (Dis / k)) with (Dn * Dis / k ^ 2) by (field; exact K0). rewrite E. unfold Rdiv. ring. }
  assert (A : forall a, a / k * rad_to_arcsec / (Dl / k) = a * rad_to_arcsec / Dl) by (intros a; field; split; assumption). rewrite !A.
  assert (Q : (1 + z_l lens) * (Dl / k) * (Dn / k) / (D / k * c_Mpc_s) = (1 + z_l lens) * Dl * Dn / (D * c_Mpc_s) / k) by (field; repeat split; try assumption; lra). rewrite Q.
  destruct sh.
  - destruct (Req_EM_T (Dn / k * (Dis / k)) 0) as [E3|E3], (Req_EM_T (Dn * Dis) 0) as [E4|E4]; try (exfalso; tauto); [reflexivity|].
    replace (D / k * (Ds / k) / (Dn / k * (Dis / k))) with (D * Ds / (Dn * Dis)).
    2: { field. repeat split; try assumption; intros E; apply E4; rewrite E; ring. }
    cbn [option_map]. f_equal. destruct ge; unfold Rdiv; ring.
  - cbn [option_map]. f_equal. destruct ge; unfold Rdiv; ring.
Qed.
Lemma near_step sh ge last i st : plane_step dc' tcd' lenses z_s sh ge last (tcd' z_s) i (near_state st) = bind (plane_step dc tcd lenses z_s sh ge last (tcd z_s) i st) (fun s => Ok (near_state s)).
Proof.
  destruct st as [[[[X Y] tx] ty] TD]. unfold near_state at 1, plane_step. destruct (z_next_of lenses z_s i last) as [zn|e]; [|reflexivity]. cbn [bind].
  unfold py_get. destruct (nth_error lenses i) as [lens|] eqn:EN; [|reflexivity]. cbn [bind].
  destruct (proj1 (List.Forall_forall _ _) HL lens (nth_error_In _ _ EN)) as [H1 H2].
  rewrite !near_tcd2, !HT.
  assert (A : forall a, a / k * rad_to_arcsec / (tcd (z_l lens) / k) = a * rad_to_arcsec / tcd (z_l lens)) by (intros a; field; split; assumption). rewrite !A.
  rewrite near_physical by exact H2. destruct (physical_deflection_angle dc lens z_s _ _) as [ax ay]. cbn [bind near_state].
  rewrite near_plane_delay by exact H1.
  assert (P : forall P D t : R, P / k + D / k * t * arcsec_to_rad = (P + D * t * arcsec_to_rad) / k) by (intros; unfold Rdiv; ring). rewrite !P.
  f_equal. f_equal. destruct (sh || ge)%bool; [|reflexivity]. destruct TD as [t|]; cbn [option_map]; [|reflexivity].
  destruct (plane_delay _ _ _ _ _ _ _ _ _ _ _ _) as [t'|]; cbn [option_map]; [|reflexivity]. replace (t / k + t' / k) with ((t + t') / k) by (unfold Rdiv; ring). reflexivity.
Qed.
Lemma near_loop sh ge last l st : for_loop (plane_step dc' tcd' lenses z_s sh ge last (tcd' z_s)) l (near_state st) = bind (for_loop (plane_step dc tcd lenses z_s sh ge last (tcd z_s)) l st) (fun s => Ok (near_state s)).
Proof.
  revert st. induction l as [|i l IH]; intros st; [reflexivity|]. cbn [for_loop]. rewrite near_step. destruct (plane_step dc tcd lenses z_s sh ge last (tcd z_s) i st) as [s|e]; [|reflexivity]. cbn [bind]. apply IH.
Qed.
Lemma near_core sh ge x y : raytrace_core dc' tcd' lenses z_s sh ge x y = bind (raytrace_core dc tcd lenses z_s sh ge x y) (fun r => Ok (fst r, option_map (fun t => t / k) (snd r))).
Proof.
  unfold raytrace_core. destruct (py_get (lens_planes (map z_l lenses)) 0) as [first|e]; [|reflexivity]. cbn [bind].
  destruct (py_get (lens_planes (map z_l lenses)) (length (lens_planes (map z_l lenses)) - 1)) as [last|e]; [|reflexivity]. cbn [bind].
  destruct (py_get (map z_l lenses) first) as [z0|e]; [|reflexivity]. cbn [bind].
  assert (S0 : (x * arcsec_to_rad * tcd' z0, y * arcsec_to_rad * tcd' z0, x, y, Some 0) = near_state (x * arcsec_to_rad * tcd z0, y * arcsec_to_rad * tcd z0, x, y, Some 0)).
  { unfold near_state. cbn [option_map]. rewrite HT. replace (0 / k) with 0 by (unfold Rdiv; ring). f_equal. f_equal. f_equal. f_equal; unfold Rdiv; ring. }
  rewrite S0, near_loop. destruct (for_loop _ _ _) as [[[[[X Y] tx] ty] TD]|e]; [|reflexivity]. cbn [bind near_state fst snd]. f_equal. f_equal.
  rewrite HT. f_equal; field; split; assumption.
Qed.
Lemma near_rays x y : multiplane_raytrace dc' tcd' lenses z_s x y = multiplane_raytrace dc tcd lenses z_s x y.
Proof. unfold multiplane_raytrace. rewrite near_core. destruct (raytrace_core _ _ _ _ _ _ _ _) as [r|e]; reflexivity. Qed.
Lemma near_delays x y sh ge : multiplane_time_delay dc' tcd' lenses z_s x y sh ge = bind (multiplane_time_delay dc tcd lenses z_s x y sh ge) (fun t => Ok (option_map (fun t => t / k) t)).
Proof. unfold multiplane_time_delay. rewrite near_core. destruct (raytrace_core _ _ _ _ _ _ _ _) as [r|e]; [|reflexivity]. cbn [bind snd]. destruct (sh || ge)%bool; reflexivity. Qed.
End Planes.
(** ** lenses given by a mass *)
Lemma near_point M dls dl ds : dl <> 0 -> ds <> 0 -> mass_to_rein_point (M / k) (dls / k) (dl / k) (ds / k) = mass_to_rein_point M dls dl ds.
Proof. intros H1 H2. unfold mass_to_rein_point. f_equal. f_equal. field. repeat split; assumption. Qed.
Lemma near_jaffe z_s z_l x0 y0 mass Rc Rs x y : d z_l <> 0 -> d z_s <> 0 -> d2 z_l z_s <> 0 ->
  jaffe_reduced_deflection_angle dc' z_s z_l x0 y0 (mass / k) Rc Rs x y = jaffe_reduced_deflection_angle dc z_s z_l x0 y0 mass Rc Rs x y /\
  jaffe_potential dc' z_s z_l x0 y0 (mass / k) Rc Rs x y = jaffe_potential dc z_s z_l x0 y0 mass Rc Rs x y /\
  jaffe_convergence dc' z_s z_l x0 y0 (mass / k) Rc Rs x y = jaffe_convergence dc z_s z_l x0 y0 mass Rc Rs x y.
Proof.
  intros H1 H2 H3.
  assert (SD : critical_surface_density dc z_l z_s <> 0) by (apply sigma_nonzero; assumption).
  assert (C0 : forall s, s <> 0 -> convergence_0_pseudo_jaffe (mass / k) Rc Rs (d z_l / k) (k * s) = convergence_0_pseudo_jaffe mass Rc Rs (d z_l) s).
  { intros s Hs. unfold convergence_0_pseudo_jaffe. assert (E : 2 * PI * (k * s) * Rc * Rs * (d z_l / k * arcsec_to_rad) ^ 2 = (2 * PI * s * Rc * Rs * (d z_l * arcsec_to_rad) ^ 2) / k) by (field; exact K0).
    rewrite E. apply cancel_k. }
  unfold jaffe_reduced_deflection_angle, jaffe_potential, jaffe_convergence. rewrite !near_d, !near_d2, !near_sigma by assumption. split; [|split].
  - unfold reduced_deflection_angle_pseudo_jaffe. rewrite C0 by exact SD. reflexivity.
  - unfold potential_pseudo_jaffe. assert (E : convergence_0_pseudo_jaffe (mass / k) Rc Rs (d z_l / k) 1 = k * convergence_0_pseudo_jaffe mass Rc Rs (d z_l) 1).
    { rewrite <- (C0 1) by lra. unfold convergence_0_pseudo_jaffe.
      assert (E : 2 * PI * (k * 1) * Rc * Rs * (d z_l / k * arcsec_to_rad) ^ 2 = k * (2 * PI * 1 * Rc * Rs * (d z_l / k * arcsec_to_rad) ^ 2)) by ring. rewrite E. set (q := 2 * PI * 1 * Rc * Rs * (d z_l / k * arcsec_to_rad) ^ 2).
      unfold Rdiv. rewrite (Rinv_mult k q). set (e := / q). clearbody e. field. exact K0. }
    rewrite E. destruct (translate_rotate x y x0 y0 None) as [u v]. f_equal. f_equal. unfold Rdiv. f_equal.
    replace (d z_l * / k * (d2 z_l z_s * / k) * / (d z_s * / k)) with (d z_l * d2 z_l z_s * / d z_s * / k) by (field; split; assumption). field. split; assumption.
  - unfold convergence_pseudo_jaffe. rewrite C0 by exact SD. reflexivity.
Qed.
(** *** NFW and TNFW *)
Variables (cd cd' : R -> R).
Hypothesis HC : denser k cd cd'.
Lemma cube_root_k a : 0 < a -> Rpower (a / k ^ 3) (1 / 3) = Rpower a (1 / 3) / k.
Proof.
  intros A. unfold Rdiv. rewrite <- Rpower_mult_distr by (try apply Rinv_0_lt_compat; try apply pow_lt; assumption). f_equal.
  rewrite <- Rpower_pow by exact K. rewrite <- Rpower_Ropp. rewrite Rpower_mult. replace (- INR 3 * (1 * / 3)) with (Ropp 1) by (cbn; field). rewrite Rpower_Ropp, Rpower_1 by exact K. reflexivity.
Qed.
Lemma near_r_delta m rho : 0 < m -> 0 < rho -> Rpower (3 * (m / k) / (4 * PI * DELTA * (k ^ 2 * rho))) (1 / 3) = Rpower (3 * m / (4 * PI * DELTA * rho)) (1 / 3) / k.
Proof.
  intros M RH. assert (P := PI_RGT_0). unfold DELTA. rewrite <- cube_root_k.
  - f_equal. field. repeat split; try assumption; lra.
  - apply Rdiv_lt_0_compat; [lra|]. set (p := PI) in *. clearbody p. assert (PP : 0 < 4 * p * 200) by lra. apply Rmult_lt_0_compat; assumption.
Qed.
Lemma near_scale_radius rho m c : 0 < m -> 0 < rho -> c <> 0 -> scale_radius_nfw (k ^ 2 * rho) (m / k) c DELTA = scale_radius_nfw rho m c DELTA / k.
Proof. intros M RH C. unfold scale_radius_nfw. rewrite near_r_delta by assumption. field. split; assumption. Qed.
Lemma near_scale_density rho c : scale_density_nfw (k ^ 2 * rho) c DELTA = k ^ 2 * scale_density_nfw rho c DELTA.
Proof. unfold scale_density_nfw, Rdiv. ring. Qed.
Lemma near_nfw z_s z_l x0 y0 mass c s x y : 0 < mass -> 0 < c -> 0 < cd z_l -> d z_l <> 0 -> d z_s <> 0 -> d2 z_l z_s <> 0 ->
  nfw_get_scale_radius cd' z_l (mass / k) c = nfw_get_scale_radius cd z_l mass c / k /\
  nfw_reduced_deflection_angle dc' cd' z_s z_l x0 y0 (mass / k) c s x y = nfw_reduced_deflection_angle dc cd z_s z_l x0 y0 mass c s x y /\
  nfw_potential dc' cd' z_s z_l x0 y0 (mass / k) c s x y = nfw_potential dc cd z_s z_l x0 y0 mass c s x y /\
  nfw_convergence dc' cd' z_s z_l x0 y0 (mass / k) c s x y = nfw_convergence dc cd z_s z_l x0 y0 mass c s x y.
Proof.
  intros M C RH H1 H2 H3.
  assert (SD : critical_surface_density dc z_l z_s <> 0) by (apply sigma_nonzero; assumption).
  assert (SR : scale_radius_nfw (cd z_l) mass c DELTA <> 0).
  { unfold scale_radius_nfw. apply Rmult_integral_contrapositive_currified; [apply Rgt_not_eq; apply exp_pos|apply Rinv_neq_0_compat; lra]. }
  assert (A0 := arcsec_to_rad_pos).
  unfold nfw_get_scale_radius, nfw_reduced_deflection_angle, nfw_physical_deflection_angle, nfw_potential, nfw_convergence.
  rewrite !HC, !near_d, !near_d2, !near_sigma by assumption.
  unfold physical_deflection_angle_nfw, potential_nfw, convergence_nfw, convergence_s_nfw. rewrite !near_scale_radius, !near_scale_density by (try assumption; lra).
  set (r := scale_radius_nfw (cd z_l) mass c DELTA) in *. set (rs := scale_density_nfw (cd z_l) c DELTA). set (D := d z_l) in *. set (sg := critical_surface_density dc z_l z_s) in *.
  split; [reflexivity|]. unfold translate_rotate. set (th := sqrt _ + s).
  assert (X : D / k * th * arcsec_to_rad / (r / k) = D * th * arcsec_to_rad / r) by (field; split; assumption). rewrite !X.
  assert (KS : r / k * (k ^ 2 * rs) / (k * sg) = r * rs / sg) by (field; split; assumption). rewrite !KS.
  split; [|split].
  - unfold reduced_from_physical_deflection_angle. set (h := h_nfw _). rewrite near_ratio by exact H2.
    assert (E : 16 * PI * G_over_c2 * (k ^ 2 * rs) * (r / k) ^ 3 * h * rad_to_arcsec / (D / k * th * arcsec_to_rad) = 16 * PI * G_over_c2 * rs * r ^ 3 * h * rad_to_arcsec / (D * th * arcsec_to_rad)).
    { replace (D / k * th * arcsec_to_rad) with (D * th * arcsec_to_rad / k) by (field; exact K0). rewrite <- (cancel_k (16 * PI * G_over_c2 * rs * r ^ 3 * h * rad_to_arcsec)). f_equal. field. exact K0. }
    rewrite E. reflexivity.
  - field. repeat split; try assumption; lra.
  - reflexivity.
Qed.
Lemma near_M0 tot z_l mass Rs tau : 0 < mass -> 0 < cd z_l -> 0 < Rs -> d z_l <> 0 -> tnfw_M0 dc' cd' tot z_l (mass / k) Rs tau = tnfw_M0 dc cd tot z_l mass Rs tau / k.
Proof.
  intros M RH RS H1. assert (A0 := arcsec_to_rad_pos). unfold tnfw_M0. destruct tot.
  - unfold M0_totmass_tnfw, Rdiv. ring.
  - rewrite near_d, HC. assert (CE : concentration_tnfw (mass / k) Rs (k ^ 2 * cd z_l) (d z_l / k) DELTA = concentration_tnfw mass Rs (cd z_l) (d z_l) DELTA).
    { unfold concentration_tnfw. rewrite near_r_delta by assumption. field. repeat split; try assumption; lra. }
    rewrite CE. unfold M0_scalemass_tnfw, scale_density_tnfw. set (c := concentration_tnfw _ _ _ _ _). unfold Rdiv. set (e := / (ln (1 + c) - c * / (1 + c))). clearbody e. field. exact K0.
Qed.
Lemma near_tnfw tot z_s z_l x0 y0 mass Rs tau s x y : 0 < mass -> 0 < cd z_l -> 0 < Rs -> d z_l <> 0 -> d z_s <> 0 -> d2 z_l z_s <> 0 ->
  tnfw_reduced_deflection_angle dc' cd' tot z_s z_l x0 y0 (mass / k) Rs tau s x y = tnfw_reduced_deflection_angle dc cd tot z_s z_l x0 y0 mass Rs tau s x y /\
  tnfw_potential dc' cd' tot z_s z_l x0 y0 (mass / k) Rs tau s x y = tnfw_potential dc cd tot z_s z_l x0 y0 mass Rs tau s x y /\
  tnfw_convergence dc' cd' tot z_s z_l x0 y0 (mass / k) Rs tau s x y = tnfw_convergence dc cd tot z_s z_l x0 y0 mass Rs tau s x y.
Proof.
  intros M RH RS H1 H2 H3.
  assert (SD : critical_surface_density dc z_l z_s <> 0) by (apply sigma_nonzero; assumption).
  assert (A0 := arcsec_to_rad_pos). assert (P0 := PI_RGT_0).
  unfold tnfw_reduced_deflection_angle, tnfw_physical_deflection_angle, tnfw_potential, tnfw_convergence.
  rewrite !near_M0, !near_d, !near_d2, !near_sigma by assumption. set (M0 := tnfw_M0 dc cd tot z_l mass Rs tau). set (D := d z_l) in *. set (sg := critical_surface_density dc z_l z_s) in *.
  split; [|split].
  - unfold physical_deflection_angle_tnfw, translate_rotate, reduced_from_physical_deflection_angle. rewrite near_ratio by exact H2. set (r := sqrt _ + s).
    assert (E : mass_enclosed_2d_tnfw r Rs tau (M0 / k) / (r * (D / k) * arcsec_to_rad) = mass_enclosed_2d_tnfw r Rs tau M0 / (r * D * arcsec_to_rad)).
    { unfold mass_enclosed_2d_tnfw. set (t := tau ^ 2 / _). set (w := _ + tau * PI + _ + _). replace (r * (D / k) * arcsec_to_rad) with (r * D * arcsec_to_rad / k) by (field; exact K0).
      rewrite <- (cancel_k (M0 * t * w)). f_equal. unfold Rdiv. ring. }
    rewrite E. reflexivity.
  - unfold potential_tnfw, translate_rotate. set (w := _ - _ : R). rewrite near_ratio by exact H2. f_equal. f_equal. field. repeat split; try assumption; lra.
  - unfold convergence_tnfw, translate_rotate. match goal with |- ?A * _ / _ = ?A * _ / _ => set (w := A); clearbody w end. field. repeat split; try assumption; lra.
Qed.
End Nearer.
