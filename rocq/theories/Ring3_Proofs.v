(** * Every NFW halo has an Einstein ring *)
From Coq Require Import Reals Ranalysis5 Lra Psatz.
From Coquelicot Require Import Coquelicot.
From Verif Require Import Const_Model RealFun Calc2 Cosmo_Model Geo_Model Lens_Lib LensBase_Model Nfw_Model Nfw_Proofs Nfw2_Proofs Nfw3_Proofs Tnfw3_Proofs Project_Proofs Falls2_Proofs Falls3_Proofs Ring_Spec Ring_Proofs.
Local Open Scope R_scope.

Lemma eps_small : 0 < eps_nfw < / 100000. Proof. unfold eps_nfw. lra. Qed.
Lemma Fx_of g : 0 < g -> g <> 1 -> Fx g = 1 - (g ^ 2 - 1) * Gx g.
Proof. intros G N. unfold Gx. destruct (Req_EM_T g 1); [contradiction|]. field. nra. Qed.
Lemma Fx_lt1 g : 0 < g < 1 -> Fx g = wn g / sqrt (1 - g ^ 2).
Proof. intros G. unfold Fx. destruct (Rlt_dec 1 g); [lra|]. destruct (Rlt_dec g 1); [reflexivity|lra]. Qed.
Lemma Gx_half : Gx (1 / 2) <= 3.
Proof.
  unfold Gx. destruct (Req_EM_T (1 / 2) 1); [lra|]. rewrite Fx_lt1 by lra. unfold wn. replace (1 - (1 / 2) ^ 2) with (3 / 4) by field.
  assert (Q : sqrt (3 / 4) ^ 2 = 3 / 4) by (apply pow2_sqrt; lra). assert (W0 : 0 <= sqrt (3 / 4)) by apply sqrt_pos. set (w := sqrt (3 / 4)) in *. assert (W : 86 / 100 < w < 87 / 100) by nra.
  assert (L := ln_upper ((1 + w) / (1 / 2)) ltac:(apply Rdiv_lt_0_compat; lra)). replace ((1 + w) / (1 / 2)) with (2 * (1 + w)) in * by field.
  assert (B : ln (2 * (1 + w)) / w <= 319 / 100). { apply (Rmult_le_reg_r w); [lra|]. unfold Rdiv. rewrite Rmult_assoc, Rinv_l by lra. lra. }
  replace ((1 / 2) ^ 2 - 1) with (- (3 / 4)) by field. replace ((1 - ln (2 * (1 + w)) / w) / - (3 / 4)) with ((ln (2 * (1 + w)) / w - 1) * (4 / 3)) by (field; lra). lra.
Qed.
Lemma Fx_near g : 1 - / 50000 <= g < 1 -> Fx g <= 1 + / 1000.
Proof.
  intros G. rewrite Fx_of by lra. assert (A := Gx_falls (1 / 2) g ltac:(lra) ltac:(lra)). assert (B := Gx_half). assert (D : 0 < 1 - g ^ 2 <= / 20000) by nra. nra.
Qed.
Lemma Fx_over g : 1 < g -> Fx g <= 1.
Proof. intros G. rewrite Fx_of by lra. assert (A := Gx_pos g ltac:(lra)). assert (0 < g ^ 2 - 1) by nra. nra. Qed.
(** no more than this at or beyond the scale radius, also where the code uses a constant *)
Lemma h_upper g : 1 - / 50000 <= g -> h_nfw g <= ln (g / 2) + (1 + / 1000).
Proof.
  intros G. assert (E := eps_small). unfold h_nfw. cbv zeta. apply Rplus_le_compat_l. destruct (Rlt_dec 1 g) as [O|O].
  - assert (M := Rmax_r g (1 + eps_nfw)). set (t := Rmax g (1 + eps_nfw)) in *. rewrite acos_inv by lra. change (atan (sqrt (t ^ 2 - 1))) with (wp t).
    assert (A := Fx_over t ltac:(lra)). unfold Fx in A. destruct (Rlt_dec 1 t); [|lra]. lra.
  - destruct (Rlt_dec g 1) as [L|L]; [|lra]. assert (M := Rmin_r g (1 - eps_nfw)). assert (M2 : 1 - / 50000 <= Rmin g (1 - eps_nfw)) by (apply Rmin_glb; lra). set (t := Rmin g (1 - eps_nfw)) in *.
    rewrite acosh_inv by lra. change (ln ((1 + sqrt (1 - t ^ 2)) / t)) with (wn t). assert (A := Fx_near t ltac:(lra)). rewrite Fx_lt1 in A by lra. exact A.
Qed.
Lemma ln2_low : 58 / 100 < ln 2.
Proof.
  assert (Q : sqrt 2 ^ 2 = 2) by (apply pow2_sqrt; lra). assert (P := sqrt_pos 2). assert (W : 141 / 100 < sqrt 2) by nra. replace (ln 2) with (2 * ln (sqrt 2)).
  - assert (L := ln_lower (sqrt 2) ltac:(lra)). assert (I : / sqrt 2 < / (141 / 100)) by (apply Rinv_lt_contravar; nra). lra.
  - transitivity (ln (sqrt 2 * sqrt 2)); [rewrite ln_mult by lra; ring|f_equal; lra].
Qed.
Lemma mean_far g : 1 - / 50000 <= g -> h_nfw g / g ^ 2 < 1 / 2.
Proof.
  intros G. assert (H := h_upper g G). rewrite ln_quot in H by lra. assert (U := ln_upper g ltac:(lra)). assert (L := ln2_low). assert (P : 0 < g ^ 2) by nra.
  apply (Rmult_lt_reg_r (g ^ 2)); [exact P|]. unfold Rdiv at 1. rewrite Rmult_assoc, Rinv_l by lra. assert (S := pow2_ge_0 (g - 1)). nra.
Qed.
(** ** inside *)
Lemma h_low a : 0 < a < 1 - eps_nfw -> - a ^ 2 <= h_nfw a.
Proof.
  intros A. assert (E := eps_small). rewrite h_inner by exact A. assert (W := lroot_pos a ltac:(lra)). assert (Q := lroot_sq a ltac:(lra)). unfold wn. set (w := sqrt (1 - a ^ 2)) in *. assert (W1 : w < 1) by nra.
  assert (S : ln (a / 2) + ln ((1 + w) / a) = ln ((1 + w) / 2)). { rewrite !ln_quot by lra. ring. }
  assert (L1 : 0 <= ln ((1 + w) / a)). { rewrite <- ln_1. apply ln_le; [lra|]. apply (Rmult_le_reg_r a); [lra|]. unfold Rdiv. rewrite Rmult_assoc, Rinv_l by lra. lra. }
  assert (L2 : ln ((1 + w) / a) <= ln ((1 + w) / a) / w). { apply (Rmult_le_reg_r w); [lra|]. unfold Rdiv. rewrite (Rmult_assoc _ (/ w)), Rinv_l by lra. nra. }
  assert (L3 := ln_lower ((1 + w) / 2) ltac:(lra)). assert (L4 : 1 - / ((1 + w) / 2) = - (a ^ 2 / (1 + w) ^ 2)). { replace (a ^ 2) with (1 - w ^ 2) by lra. field. lra. }
  assert (L5 : a ^ 2 / (1 + w) ^ 2 <= a ^ 2). { apply (Rmult_le_reg_r ((1 + w) ^ 2)); [nra|]. unfold Rdiv. rewrite Rmult_assoc, Rinv_l by nra. assert (T := pow2_ge_0 a). nra. }
  lra.
Qed.
Lemma outside_window g : 0 < g < 1 - eps_nfw -> eps_nfw < Rabs (g - 1).
Proof. intros G. assert (E := eps_small). rewrite Rabs_left; lra. Qed.
Lemma h_d g : 0 < g < 1 - eps_nfw -> is_derive h_nfw g (g * Gx g).
Proof. intros G. assert (W := outside_window g G). rewrite <- (f_quot_outside g) by (lra || exact W). apply h_derive; [lra|exact W]. Qed.
(** the mean within exceeds the value at the edge *)
Lemma mean_exceeds_weak g : 0 < g < 1 - eps_nfw -> g ^ 2 * Gx g <= 2 * h_nfw g.
Proof.
  intros G. assert (GP := Gx_pos g ltac:(lra)). apply Rnot_lt_le. intros N. set (d := g ^ 2 * Gx g - 2 * h_nfw g). assert (D : 0 < d) by (unfold d; lra).
  set (a := Rmin (g / 2) (Rmin 1 (d / (2 * (3 + Gx g))))).
  assert (A1 : a <= g / 2) by apply Rmin_l. assert (A2 : a <= 1) by (eapply Rle_trans; [apply Rmin_r|apply Rmin_l]). assert (A3 : a <= d / (2 * (3 + Gx g))) by (eapply Rle_trans; [apply Rmin_r|apply Rmin_r]).
  assert (A0 : 0 < a) by (unfold a; repeat apply Rmin_glb_lt; [lra|lra|apply Rdiv_lt_0_compat; lra]).
  destruct (MVT_gen (fun u => 2 * h_nfw u - Gx g * u ^ 2) a g (fun u => 2 * (u * Gx u) - Gx g * (2 * u))) as (z & [Z1 Z2] & E).
  - intros u U. rewrite Rmin_left in U by lra. rewrite Rmax_right in U by lra. apply (is_derive_minus (fun u => 2 * h_nfw u) (fun u => Gx g * u ^ 2)); [apply (is_derive_scal h_nfw), h_d; lra|]. auto_derive; [trivial|]. ring.
  - intros u U. rewrite Rmin_left in U by lra. rewrite Rmax_right in U by lra. apply derivable_continuous_pt. exists (2 * (u * Gx u) - Gx g * (2 * u)). apply is_derive_Reals.
    apply (is_derive_minus (fun u => 2 * h_nfw u) (fun u => Gx g * u ^ 2)); [apply (is_derive_scal h_nfw), h_d; lra|]. auto_derive; [trivial|]. ring.
  - cbv beta in E. rewrite Rmin_left in Z1 by lra. rewrite Rmax_right in Z2 by lra.
    assert (F : Gx g <= Gx z) by (destruct Z2 as [Z2|Z2]; [assert (T := Gx_falls z g ltac:(lra) Z2); lra|rewrite Z2; lra]).
    assert (P : 0 <= (2 * (z * Gx z) - Gx g * (2 * z)) * (g - a)) by (apply Rmult_le_pos; nra). assert (L := h_low a ltac:(lra)).
    assert (M : (2 + Gx g) * a ^ 2 < d). { apply (Rle_lt_trans _ ((2 + Gx g) * a)); [apply Rmult_le_compat_l; nra|]. apply (Rle_lt_trans _ ((2 + Gx g) * (d / (2 * (3 + Gx g))))); [apply Rmult_le_compat_l; lra|].
      apply (Rmult_lt_reg_r (2 * (3 + Gx g))); [lra|]. unfold Rdiv. rewrite !Rmult_assoc, Rinv_l by lra. nra. }
    unfold d in *. nra.
Qed.
Lemma mean_exceeds g : 0 < g < 1 - eps_nfw -> g ^ 2 * Gx g < 2 * h_nfw g.
Proof.
  intros G. assert (GF := Gx_falls (g / 2) g ltac:(lra) ltac:(lra)). assert (W := mean_exceeds_weak (g / 2) ltac:(lra)).
  destruct (MVT_gen (fun u => 2 * h_nfw u - Gx g * u ^ 2) (g / 2) g (fun u => 2 * (u * Gx u) - Gx g * (2 * u))) as (z & [Z1 Z2] & E).
  - intros u U. rewrite Rmin_left in U by lra. rewrite Rmax_right in U by lra. apply (is_derive_minus (fun u => 2 * h_nfw u) (fun u => Gx g * u ^ 2)); [apply (is_derive_scal h_nfw), h_d; lra|]. auto_derive; [trivial|]. ring.
  - intros u U. rewrite Rmin_left in U by lra. rewrite Rmax_right in U by lra. apply derivable_continuous_pt. exists (2 * (u * Gx u) - Gx g * (2 * u)). apply is_derive_Reals.
    apply (is_derive_minus (fun u => 2 * h_nfw u) (fun u => Gx g * u ^ 2)); [apply (is_derive_scal h_nfw), h_d; lra|]. auto_derive; [trivial|]. ring.
  - cbv beta in E. rewrite Rmin_left in Z1 by lra. rewrite Rmax_right in Z2 by lra.
    assert (F : Gx g <= Gx z) by (destruct Z2 as [Z2|Z2]; [assert (T := Gx_falls z g ltac:(lra) Z2); lra|rewrite Z2; lra]).
    assert (P : 0 <= (2 * (z * Gx z) - Gx g * (2 * z)) * (g - g / 2)) by (apply Rmult_le_pos; nra).
    assert (T : Gx g * (g / 2) ^ 2 < (g / 2) ^ 2 * Gx (g / 2)) by (assert (0 < (g / 2) ^ 2) by nra; nra). lra.
Qed.
Definition mean (g : R) : R := h_nfw g / g ^ 2.
Lemma mean_d g : 0 < g < 1 - eps_nfw -> is_derive mean g ((g ^ 2 * Gx g - 2 * h_nfw g) / g ^ 3).
Proof.
  intros G. assert (D2 : is_derive (fun u : R => u ^ 2) g (2 * g)) by (auto_derive; [trivial|ring]).
  assert (N : g ^ 2 <> 0) by nra. evar_last; [apply (is_derive_div h_nfw (fun u => u ^ 2) g _ _ (h_d g G) D2 N)|]. field. lra.
Qed.
Lemma mean_falls g t : 0 < g -> g < t -> t < 1 - eps_nfw -> mean t < mean g.
Proof.
  intros G L T. destruct (MVT_gen mean g t (fun u => (u ^ 2 * Gx u - 2 * h_nfw u) / u ^ 3)) as (z & [Z1 Z2] & E).
  - intros u U. rewrite Rmin_left in U by lra. rewrite Rmax_right in U by lra. apply mean_d. lra.
  - intros u U. rewrite Rmin_left in U by lra. rewrite Rmax_right in U by lra. apply derivable_continuous_pt. eexists. apply is_derive_Reals, mean_d. lra.
  - rewrite Rmin_left in Z1 by lra. rewrite Rmax_right in Z2 by lra. assert (M := mean_exceeds z ltac:(lra)). assert (P : 0 < z ^ 3) by (apply pow_lt; lra).
    assert (Q : (z ^ 2 * Gx z - 2 * h_nfw z) / z ^ 3 < 0) by (assert (I := Rinv_0_lt_compat _ P); unfold Rdiv; nra). nra.
Qed.
(** unbounded towards the centre *)
Lemma mean_big B : exists a, 0 < a < 1 / 2 /\ B < mean a.
Proof.
  set (a := Rmin (1 / 4) (exp (- (2 * Rabs B + 2)))). assert (A0 : 0 < a) by (apply Rmin_glb_lt; [lra|apply exp_pos]). assert (A1 : a <= 1 / 4) by apply Rmin_l. assert (A2 : a <= exp (- (2 * Rabs B + 2))) by apply Rmin_r.
  assert (E := eps_small). exists a. split; [lra|]. assert (M := mean_exceeds a ltac:(lra)).
  assert (L : 2 * Rabs B + 2 <= - ln a). { assert (T : ln a <= ln (exp (- (2 * Rabs B + 2)))) by (apply ln_le; assumption). rewrite ln_exp in T. lra. }
  assert (G : - ln a - 1 <= Gx a).
  { assert (FE := Fx_lt1 a ltac:(lra)). assert (W := lroot_pos a ltac:(lra)). assert (Q := lroot_sq a ltac:(lra)). unfold wn in FE. set (w := sqrt (1 - a ^ 2)) in *. assert (W1 : w < 1) by nra.
    assert (N : - ln a <= ln ((1 + w) / a)). { rewrite ln_quot by lra. assert (T : ln 1 <= ln (1 + w)) by (apply ln_le; lra). rewrite ln_1 in T. lra. }
    assert (N0 : 0 <= ln ((1 + w) / a)) by (assert (T := Rabs_pos B); lra).
    assert (N1 : ln ((1 + w) / a) <= ln ((1 + w) / a) / w). { apply (Rmult_le_reg_r w); [lra|]. unfold Rdiv. rewrite (Rmult_assoc _ (/ w)), Rinv_l by lra. nra. }
    rewrite <- FE in N1. assert (FO := Fx_of a A0 ltac:(lra)). assert (P := Gx_pos a A0). nra. }
  assert (BB := Rle_abs B). unfold mean. apply (Rmult_lt_reg_r (a ^ 2)); [nra|]. unfold Rdiv. rewrite Rmult_assoc, Rinv_l by nra. assert (T : 0 < a ^ 2) by nra. nra.
Qed.
Lemma mean_once k : 0 < k <= 2 -> exists e, 0 < e < 1 /\ forall g, 0 < g -> (k * mean g = 1 <-> g = e).
Proof.
  intros K. assert (E := eps_small). destruct (mean_big (/ k)) as (a & A & AB). set (b := 1 - / 50000).
  assert (FB : forall g, b <= g -> k * mean g < 1). { intros g G. assert (M := mean_far g G). fold (mean g) in M. destruct (Rle_or_lt (mean g) 0); nra. }
  destruct (IVT_interv (fun u => / k - mean u) a b) as (e & [E1 E2] & EE).
  - intros u U. apply derivable_continuous_pt. exists (0 - (u ^ 2 * Gx u - 2 * h_nfw u) / u ^ 3). apply is_derive_Reals. apply (is_derive_minus (fun _ => / k) mean); [apply (is_derive_const (K := R_AbsRing) (V := R_NormedModule))|apply mean_d; unfold b in U; lra].
  - unfold b. lra.
  - lra.
  - assert (T := FB b ltac:(lra)). apply (Rmult_lt_reg_l k); [lra|]. rewrite Rmult_minus_distr_l, Rinv_r by lra. lra.
  - cbv beta in EE. assert (ME : k * mean e = 1) by (replace (mean e) with (/ k) by lra; apply Rinv_r; lra). assert (EB : e < b) by (destruct E2 as [L|L]; [exact L|assert (T := FB e ltac:(lra)); lra]).
    exists e. split; [unfold b in EB; lra|]. intros g G. split; [|intros ->; exact ME]. intros Q. assert (GB : g < b) by (apply Rnot_le_lt; intros T; apply FB in T; lra). unfold b in *.
    destruct (Rtotal_order g e) as [L|[L|L]]; [|exact L|]; exfalso; [assert (T := mean_falls g e G L ltac:(lra))|assert (T := mean_falls e g ltac:(lra) L ltac:(lra))]; nra.
Qed.
Lemma nfw_ring dc cd z_s z_l x0 y0 mass c : 0 < cd z_l -> 0 < c -> 0 < angular_diameter_distance dc z_l -> 0 < angular_diameter_distance dc z_s -> 0 < angular_diameter_distance_z1z2 dc z_l z_s ->
  convergence_s_nfw (critical_surface_density dc z_l z_s) (cd z_l) mass c DELTA <= 1 / 2 ->
  exists E, angular_diameter_distance dc z_l * E * arcsec_to_rad < nfw_get_scale_radius cd z_l mass c /\ einstein_ring (nfw_reduced_deflection_angle dc cd z_s z_l x0 y0 mass c 0) x0 y0 E.
Proof.
  intros Hrho Hc Hl Hs Hls W. set (ks := convergence_s_nfw _ _ _ _ _) in W. assert (KP : 0 < ks) by (apply ks_pos; assumption). destruct (mean_once (4 * ks) ltac:(lra)) as (e & E & U).
  assert (RP := Rs_pos cd z_l mass c Hc). assert (A := arcsec_to_rad_pos). assert (RA : rad_to_arcsec = / arcsec_to_rad) by (unfold arcsec_to_rad; field; apply Rgt_not_eq, rad_to_arcsec_pos).
  assert (KE := ks_eq dc cd z_s z_l mass c Hl Hs Hls). fold ks in KE.
  set (d_l := angular_diameter_distance dc z_l) in *. set (d_s := angular_diameter_distance dc z_s) in *. set (d_ls := angular_diameter_distance_z1z2 dc z_l z_s) in *. set (Rs := nfw_get_scale_radius cd z_l mass c) in *. set (Ds := nfw_get_scale_density cd z_l c) in *.
  set (kk := d_l * arcsec_to_rad / Rs). assert (KK : 0 < kk) by (apply Rdiv_lt_0_compat; [apply Rmult_lt_0_compat|]; assumption).
  set (m := fun r => d_ls / d_s * (16 * PI * G_over_c2 * Ds * Rs ^ 3 * h_nfw (d_l * r * arcsec_to_rad / Rs) * rad_to_arcsec / (d_l * r * arcsec_to_rad)) / r).
  assert (MF : forall r, 0 < r -> m r = 4 * ks * mean (r * kk)).
  { intros r H. unfold m, mean. replace (d_l * r * arcsec_to_rad / Rs) with (r * kk) by (unfold kk; field; lra). rewrite RA, <- KE. generalize (h_nfw (r * kk)). intros hh. unfold kk. field. repeat split; apply Rgt_not_eq; assumption. }
  exists (e / kk). assert (EP : 0 < e / kk) by (apply Rdiv_lt_0_compat; lra). split.
  - replace (d_l * (e / kk) * arcsec_to_rad) with (e * Rs) by (unfold kk; field; repeat split; apply Rgt_not_eq; assumption). nra.
  - apply (ring_of x0 y0 _ m).
    + intros x y. unfold nfw_reduced_deflection_angle, nfw_physical_deflection_angle, physical_deflection_angle_nfw, reduced_from_physical_deflection_angle. cbn [translate_rotate]. cbv zeta. rewrite Rplus_0_r. fold d_l d_s d_ls.
      change (scale_radius_nfw (cd z_l) mass c DELTA) with Rs. change (scale_density_nfw (cd z_l) c DELTA) with Ds. set (r := sqrt _). unfold m, Rdiv. apply (f_equal2 pair); ring.
    + exact EP.
    + intros r H. rewrite (MF r H). rewrite (U (r * kk)) by (apply Rmult_lt_0_compat; assumption). split; intros Q; [rewrite <- Q|rewrite Q]; field; lra.
Qed.
(** such halos exist at any redshift *)
Lemma light_halo sigma rho c : 0 < sigma -> 0 < rho -> 0 < c -> exists mass, 0 < mass /\ convergence_s_nfw sigma rho mass c DELTA <= 1 / 2.
Proof.
  intros S P C. assert (D := scale_density_pos rho c DELTA P C D200). assert (Q := PI_RGT_0). assert (T := D200). set (u := c * sigma / (2 * scale_density_nfw rho c DELTA)).
  assert (U : 0 < u) by (apply Rdiv_lt_0_compat; [apply Rmult_lt_0_compat|]; lra). assert (F : 0 < 4 * PI * DELTA * rho) by (do 2 (apply Rmult_lt_0_compat; [|assumption]); lra).
  exists (u ^ 3 * (4 * PI * DELTA * rho) / 3). split; [apply Rdiv_lt_0_compat; [apply Rmult_lt_0_compat; [apply pow_lt|]; assumption|lra]|].
  unfold convergence_s_nfw. cbv zeta. unfold scale_radius_nfw at 1. cbv zeta. replace (3 * (u ^ 3 * (4 * PI * DELTA * rho) / 3) / (4 * PI * DELTA * rho)) with (u ^ 3) by (field; repeat split; apply Rgt_not_eq; assumption).
  replace (u ^ 3) with (Rpower u 3) by (replace 3 with (INR 3) by (cbn; lra); apply Rpower_pow, U). rewrite Rpower_mult. replace (3 * (1 / 3)) with 1 by field. rewrite Rpower_1 by exact U.
  right. unfold u. field. repeat split; apply Rgt_not_eq; assumption.
Qed.
