(** * The enclosed mass lens *)
From Coq Require Import Reals Lra Psatz.
From Coquelicot Require Import Coquelicot.
From Verif Require Import Const_Model RealFun Derive1 Calc2 Cosmo_Model Geo_Model LensBase_Model Lens_Spec Lens_Lib Nfw_Proofs Tnfw4_Proofs EncMass_Model.
Local Open Scope R_scope.

Lemma rot_norm x y x0 y0 p : let '(a, b) := translate_rotate x y x0 y0 (Some p) in a ^ 2 + b ^ 2 = (x - x0) ^ 2 + (y - y0) ^ 2.
Proof.
  cbn [translate_rotate]. cbv zeta. assert (H : cos p ^ 2 + sin p ^ 2 = 1) by (generalize (sin2_cos2 p); unfold Rsqr; intros; lra).
  transitivity (((x - x0) ^ 2 + (y - y0) ^ 2) * (cos p ^ 2 + sin p ^ 2)); [ring|rewrite H; ring].
Qed.
Lemma circ_norm x y x0 y0 p : let '(a, b) := translate_rotate x y x0 y0 (Some p) in sqrt (a ^ 2 / 1 + 1 * b ^ 2) = sqrt ((x - x0) ^ 2 + (y - y0) ^ 2).
Proof. assert (H := rot_norm x y x0 y0 p). destruct (translate_rotate x y x0 y0 (Some p)) as [a b]. rewrite <- H. f_equal. field. Qed.
Section Class.
Variables (dc : R -> R) (z_s z_l x0 y0 phi : R) (M : R -> R).
Notation d_l := (angular_diameter_distance dc z_l). Notation d_s := (angular_diameter_distance dc z_s). Notation d_ls := (angular_diameter_distance_z1z2 dc z_l z_s).
Hypotheses (Hl : 0 < d_l) (Hs : 0 < d_s) (Hls : 0 < d_ls).
Let A (r : R) : R := d_ls / d_s * (4 * G_over_c2 * (M r / r ^ 2)).
(** a circular profile: radial deflection *)
Lemma circ_alpha u v : enclosed_mass_reduced_deflection_angle dc z_s z_l x0 y0 1 phi M 0 u v =
  framed_alpha (fun u v => let r := sqrt (u ^ 2 + v ^ 2) in (A r * u / r, A r * v / r)) x0 y0 phi u v.
Proof.
  unfold enclosed_mass_reduced_deflection_angle, physical_deflection_angle_enclosed_mass, framed_alpha, reduced_from_physical_deflection_angle. cbn [translate_rotate derotate]. cbv zeta.
  set (a := (u - x0) * cos phi + _). set (b := (v - y0) * cos phi - _). rewrite Rplus_0_r.
  replace (a ^ 2 / 1 + 1 * b ^ 2) with (a ^ 2 + b ^ 2) by field. unfold A, Rdiv. rewrite Rmult_1_l. apply (f_equal2 pair); ring.
Qed.
Lemma circ_kappa u v : enclosed_mass_convergence dc z_s z_l x0 y0 1 phi M 0 u v =
  1 / 2 * Derive M (sqrt ((u - x0) ^ 2 + (v - y0) ^ 2)) / (sqrt ((u - x0) ^ 2 + (v - y0) ^ 2) * PI * critical_surface_density dc z_l z_s).
Proof.
  unfold enclosed_mass_convergence, convergence_enclosed_mass. assert (H := circ_norm u v x0 y0 phi). destruct (translate_rotate u v x0 y0 (Some phi)) as [a b]. rewrite Rplus_0_r, H. reflexivity.
Qed.
Variables (x y : R).
Hypothesis Hxy : x <> x0 \/ y <> y0.
Notation th := (sqrt ((x - x0) ^ 2 + (y - y0) ^ 2)).
Lemma off_centre : 0 < th. Proof. apply norm_pos. destruct Hxy; [left|right]; lra. Qed.
Lemma circ_divergence dM : is_derive M th dM ->
  convergence_is_half_divergence (enclosed_mass_reduced_deflection_angle dc z_s z_l x0 y0 1 phi M 0)
    (fun _ _ => d_ls / d_s * (2 * G_over_c2 * (dM / th ^ 2 - M th / th ^ 3))) x y.
Proof.
  intros D. assert (T := off_centre). set (k := d_ls / d_s * (2 * G_over_c2 * (dM / th ^ 2 - M th / th ^ 3))).
  assert (AD : is_derive A th (d_ls / d_s * (4 * G_over_c2 * ((dM * th ^ 2 - 2 * th * M th) / (th ^ 2) ^ 2)))).
  { unfold A. apply dv_scal, dv_scal. apply (dv_div M (fun r => r ^ 2)); [exact D| |apply pow_nonzero; lra]. auto_derive; trivial. ring. }
  assert (C : lens_consistent (framed (fun u v => A th * sqrt (u ^ 2 + v ^ 2)) x0 y0 phi) (framed_alpha (fun u v => let r := sqrt (u ^ 2 + v ^ 2) in (A r * u / r, A r * v / r)) x0 y0 phi) (framed (fun _ _ => k) x0 y0 phi) x y).
  { apply lens_consistent_framed. assert (RN := rot_norm x y x0 y0 phi). destruct (translate_rotate x y x0 y0 (Some phi)) as [a b].
    assert (AB : a <> 0 \/ b <> 0).
    { destruct (Req_dec a 0) as [Ea|Na]; [|left; exact Na]. right. intros Eb. subst. assert (P := norm2_pos (x - x0) (y - y0) ltac:(destruct Hxy; [left|right]; lra)). nra. }
    eapply (lens_consistent_radial (fun r => A th * r) A _ (fun _ _ => k) a b AB).
    - rewrite RN. eapply dv_val; [apply dv_scal, dv_id|]. ring.
    - rewrite RN. exact AD.
    - rewrite RN. unfold k, A. field. repeat split; lra. }
  destruct C as [_ (p & q & r & t & C1 & C2 & C3 & C4)]. exists p, q, r, t. repeat split; [| |exact C3|exact C4]; (eapply D2_ext; [|eassumption]); intros u v; cbv beta; rewrite circ_alpha; reflexivity.
Qed.
Lemma circ_constant m : (forall r, M r = m) -> m <> 0 ->
  ~ convergence_is_half_divergence (enclosed_mass_reduced_deflection_angle dc z_s z_l x0 y0 1 phi M 0) (enclosed_mass_convergence dc z_s z_l x0 y0 1 phi M 0) x y.
Proof.
  intros HM Hm C. assert (T := off_centre). assert (GP := G_over_c2_pos). assert (DM : is_derive M th 0) by (eapply dv_ext; [intros t; symmetry; apply HM|apply dv_const]).
  assert (E := half_divergence_unique _ _ _ _ _ C (circ_divergence 0 DM)). cbv beta in E. rewrite circ_kappa in E. rewrite (is_derive_unique _ _ _ DM), HM in E.
  replace (1 / 2 * 0 / (th * PI * critical_surface_density dc z_l z_s)) with 0 in E by (unfold Rdiv; ring).
  assert (Q : d_ls / d_s * (2 * G_over_c2) * (m / th ^ 3) = 0). { rewrite <- (Ropp_involutive 0). rewrite Ropp_0. rewrite E at 1. field. split; lra. }
  apply Rmult_integral in Q. destruct Q as [Q|Q].
  - revert Q. apply Rgt_not_eq. apply Rmult_lt_0_compat; [apply Rdiv_lt_0_compat; assumption|lra].
  - apply Hm. apply (Rmult_eq_reg_r (/ th ^ 3)); [rewrite Rmult_0_l; exact Q|]. apply Rinv_neq_0_compat, pow_nonzero. lra.
Qed.
End Class.
(** the deflection of a constant mass falls off as 1/R^2 *)
Lemma circ_fall_off dc z_s z_l x0 y0 phi (M : R -> R) m dx dy : (forall r, M r = m) -> dx <> 0 \/ dy <> 0 ->
  enclosed_mass_reduced_deflection_angle dc z_s z_l x0 y0 1 phi M 0 (x0 + 2 * dx) (y0 + 2 * dy) =
  (let '(ax, ay) := enclosed_mass_reduced_deflection_angle dc z_s z_l x0 y0 1 phi M 0 (x0 + dx) (y0 + dy) in (ax / 4, ay / 4)).
Proof.
  intros HM H. unfold enclosed_mass_reduced_deflection_angle, physical_deflection_angle_enclosed_mass, reduced_from_physical_deflection_angle. cbn [translate_rotate derotate]. cbv zeta. rewrite !Rplus_0_r, !HM.
  set (c := cos phi). set (s := sin phi). replace (x0 + 2 * dx - x0) with (2 * dx) by ring. replace (y0 + 2 * dy - y0) with (2 * dy) by ring. replace (x0 + dx - x0) with dx by ring. replace (y0 + dy - y0) with dy by ring.
  set (a := dx * c + dy * s). set (b := dy * c - dx * s). replace (2 * dx * c + 2 * dy * s) with (2 * a) by (unfold a; ring). replace (2 * dy * c - 2 * dx * s) with (2 * b) by (unfold b; ring).
  assert (N := rot_norm dx dy 0 0 phi). cbn [translate_rotate] in N. cbv zeta in N. rewrite !Rminus_0_r in N. fold c s a b in N. assert (P := norm2_pos dx dy H).
  replace ((2 * a) ^ 2 / 1 + 1 * (2 * b) ^ 2) with (2 ^ 2 * (a ^ 2 + b ^ 2)) by field. replace (a ^ 2 / 1 + 1 * b ^ 2) with (a ^ 2 + b ^ 2) by field. rewrite N. rewrite sqrt_mult by lra. rewrite sqrt_pow2 by lra.
  assert (Q := norm_pos dx dy H). set (r := sqrt (dx ^ 2 + dy ^ 2)) in *. generalize (angular_diameter_distance_z1z2 dc z_l z_s / angular_diameter_distance dc z_s). intros f. apply (f_equal2 pair); field; lra.
Qed.
Lemma circ_not_half dc z_s z_l x0 y0 phi (M : R -> R) m : 0 < angular_diameter_distance dc z_s -> 0 < angular_diameter_distance_z1z2 dc z_l z_s -> (forall r, M r = m) -> m <> 0 ->
  forall dx dy, dx <> 0 \/ dy <> 0 ->
  enclosed_mass_reduced_deflection_angle dc z_s z_l x0 y0 1 phi M 0 (x0 + 2 * dx) (y0 + 2 * dy) <>
  (let '(ax, ay) := enclosed_mass_reduced_deflection_angle dc z_s z_l x0 y0 1 phi M 0 (x0 + dx) (y0 + dy) in (ax / 2, ay / 2)).
Proof.
  intros Hs Hls HM Hm dx dy H E. rewrite (circ_fall_off dc z_s z_l x0 y0 phi M m dx dy HM H) in E. rewrite circ_alpha in E. revert E.
  unfold framed_alpha. assert (RN := rot_norm (x0 + dx) (y0 + dy) x0 y0 phi). destruct (translate_rotate (x0 + dx) (y0 + dy) x0 y0 (Some phi)) as [a b]. replace ((x0 + dx - x0) ^ 2 + (y0 + dy - y0) ^ 2) with (dx ^ 2 + dy ^ 2) in RN by ring.
  cbv zeta. rewrite RN, HM. assert (Q := norm_pos dx dy H). set (r := sqrt (dx ^ 2 + dy ^ 2)) in *. cbn [derotate]. set (A := angular_diameter_distance_z1z2 dc z_l z_s / angular_diameter_distance dc z_s * (4 * G_over_c2 * (m / r ^ 2))).
  assert (HA : A <> 0).
  { unfold A. assert (GP := G_over_c2_pos). apply Rmult_integral_contrapositive_currified; [apply Rgt_not_eq, Rdiv_lt_0_compat; assumption|]. apply Rmult_integral_contrapositive_currified; [lra|].
    unfold Rdiv. apply Rmult_integral_contrapositive_currified; [exact Hm|]. apply Rinv_neq_0_compat, pow_nonzero. lra. }
  intros E. injection E as E1 E2. assert (P := norm2_pos dx dy H). rewrite <- RN in P. assert (CS : cos phi ^ 2 + sin phi ^ 2 = 1) by (generalize (sin2_cos2 phi); unfold Rsqr; intros; lra).
  set (p := A * a / r) in *. set (q := A * b / r) in *. assert (Z1 : p * cos phi - q * sin phi = 0) by lra. assert (Z2 : p * sin phi + q * cos phi = 0) by lra.
  assert (Z : p ^ 2 + q ^ 2 = 0). { transitivity ((p * cos phi - q * sin phi) ^ 2 + (p * sin phi + q * cos phi) ^ 2); [transitivity ((p ^ 2 + q ^ 2) * (cos phi ^ 2 + sin phi ^ 2)); [rewrite CS; ring|ring]|rewrite Z1, Z2; ring]. }
  assert (Z' : p ^ 2 + q ^ 2 = (A / r) ^ 2 * (a ^ 2 + b ^ 2)) by (unfold p, q; field; lra). rewrite Z in Z'. assert (AR : A / r <> 0) by (unfold Rdiv; apply Rmult_integral_contrapositive_currified; [exact HA|apply Rinv_neq_0_compat; lra]).
  assert (0 < (A / r) ^ 2) by (assert (0 <= (A / r) ^ 2) by apply pow2_ge_0; assert ((A / r) ^ 2 <> 0) by (apply pow_nonzero; exact AR); lra). nra.
Qed.
(** the surface density given by the convergence has the enclosed mass the user supplied *)
Lemma circ_mass dc z_s z_l x0 y0 phi (M dM : R -> R) a b t : 0 < angular_diameter_distance dc z_l -> 0 < angular_diameter_distance dc z_s -> 0 < angular_diameter_distance_z1z2 dc z_l z_s ->
  0 < a < b -> (forall r, a <= r <= b -> is_derive M r (dM r)) -> (forall r, a <= r <= b -> continuous dM r) ->
  is_RInt (V := R_NormedModule) (fun r => 2 * PI * r * (critical_surface_density dc z_l z_s * enclosed_mass_convergence dc z_s z_l x0 y0 1 phi M 0 (x0 + r * cos t) (y0 + r * sin t))) a b (M b - M a).
Proof.
  intros Hl Hs Hls [Ha Hb] D C. assert (PP := PI_RGT_0). assert (GP := G_over_c2_pos).
  assert (SG : critical_surface_density dc z_l z_s <> 0).
  { rewrite sigma_eq by assumption. apply Rgt_not_eq. revert PP GP Hl Hs Hls. generalize (angular_diameter_distance dc z_l), (angular_diameter_distance dc z_s), (angular_diameter_distance_z1z2 dc z_l z_s), G_over_c2, PI.
    intros e f g h p P Q H1 H2 H3. repeat apply Rdiv_lt_0_compat; try assumption. repeat apply Rmult_lt_0_compat; lra. }
  apply is_RInt_ext with dM.
  - intros r. rewrite Rmin_left, Rmax_right by lra. intros [H1 H2]. rewrite circ_kappa. replace (x0 + r * cos t - x0) with (r * cos t) by ring. replace (y0 + r * sin t - y0) with (r * sin t) by ring.
    assert (CS : cos t ^ 2 + sin t ^ 2 = 1) by (generalize (sin2_cos2 t); unfold Rsqr; intros; lra). replace ((r * cos t) ^ 2 + (r * sin t) ^ 2) with (r ^ 2 * (cos t ^ 2 + sin t ^ 2)) by ring. rewrite CS, Rmult_1_r, sqrt_pow2 by lra.
    rewrite (is_derive_unique _ _ _ (D r ltac:(lra))). match goal with |- @eq _ ?a ?b => change (@eq R a b) end. field. repeat split; lra.
  - apply (is_RInt_derive (V := R_CompleteNormedModule) M dM); intros r; rewrite Rmin_left, Rmax_right by lra; intros H; [apply D|apply C]; lra.
Qed.
