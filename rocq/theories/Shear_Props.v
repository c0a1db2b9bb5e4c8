(** * C99: shear, convergence and magnification of one lens fit together *)
From Coq Require Import Reals Lra.
From Coquelicot Require Import Coquelicot.
From Verif Require Import Py Calc2 Const_Model Cosmo_Model LensBase_Model Lens_Spec LensBasic_Model Jaffe_Model Nfw_Model Tnfw_Model LensBasic_Proofs Shear_Spec Shear_Proofs
  LensBasic_Props Jaffe_Props Nfw_Props Tnfw_Props.
Local Open Scope R_scope.

(** ** The circular lenses shear tangentially, by mean convergence minus convergence *)
Theorem C99_tangential : forall psi alpha kappa x0 y0 x y, lens_consistent psi alpha kappa x y -> deflects_radially alpha x0 y0 -> x <> x0 \/ y <> y0 ->
  tangential_shear alpha (kappa x y) x0 y0 x y.
Proof. exact radial_shear. Qed.
Print Assumptions C99_tangential.
Theorem C99_sis : forall x0 y0 Rein x y, x <> x0 \/ y <> y0 ->
  tangential_shear (reduced_deflection_angle_sis x0 y0 Rein 0) (convergence_sis x0 y0 Rein 0 x y) x0 y0 x y.
Proof. intros. eapply radial_shear; [apply sis_consistent|apply sis_radial|]; assumption. Qed.
Print Assumptions C99_sis.
Theorem C99_point : forall x0 y0 Rein x y k, convergence_point x0 y0 x y = Some k -> x <> x0 \/ y <> y0 ->
  tangential_shear (reduced_deflection_angle_point x0 y0 Rein 0) k x0 y0 x y.
Proof. intros. eapply (radial_shear _ _ (fun _ _ => k)); [apply point_consistent|apply point_radial|]; assumption. Qed.
Print Assumptions C99_point.
Theorem C99_pseudo_jaffe : forall dc z_s z_l mass Rc Rs x0 y0 x y, 0 < Rc -> 0 < Rs -> Rc <> Rs ->
  0 < angular_diameter_distance dc z_l -> 0 < angular_diameter_distance dc z_s -> 0 < angular_diameter_distance_z1z2 dc z_l z_s -> x <> x0 \/ y <> y0 ->
  tangential_shear (jaffe_reduced_deflection_angle dc z_s z_l x0 y0 mass Rc Rs) (jaffe_convergence dc z_s z_l x0 y0 mass Rc Rs x y) x0 y0 x y.
Proof. intros. eapply radial_shear; [apply C51_consistent|apply jaffe_radial|]; assumption. Qed.
Print Assumptions C99_pseudo_jaffe.
Theorem C99_nfw : forall dc cd z_s z_l x0 y0 mass c, 0 < cd z_l -> 0 < mass -> 0 < c ->
  0 < angular_diameter_distance dc z_l -> 0 < angular_diameter_distance dc z_s -> 0 < angular_diameter_distance_z1z2 dc z_l z_s ->
  forall x y, x <> x0 \/ y <> y0 ->
  1 / 1000000 < Rabs (angular_diameter_distance dc z_l * sqrt ((x - x0) ^ 2 + (y - y0) ^ 2) * arcsec_to_rad / nfw_get_scale_radius cd z_l mass c - 1) ->
  exists k, nfw_convergence dc cd z_s z_l x0 y0 mass c 0 x y = Some k /\
  tangential_shear (nfw_reduced_deflection_angle dc cd z_s z_l x0 y0 mass c 0) k x0 y0 x y.
Proof.
  intros dc cd z_s z_l x0 y0 mass c H1 H2 H3 H4 H5 H6 x y N W. destruct (C52_consistent dc cd z_s z_l x0 y0 mass c H1 H2 H3 H4 H5 H6 x y N W) as (k & E & C).
  exists k. split; [exact E|]. exact (radial_shear _ _ _ _ _ _ _ C (nfw_radial _ _ _ _ _ _ _ _ _) N).
Qed.
Print Assumptions C99_nfw.
Theorem C99_tnfw : forall dc cd tot z_s z_l x0 y0 mass Rs tau, 0 < Rs -> 0 < tau ->
  0 < angular_diameter_distance dc z_l -> 0 < angular_diameter_distance dc z_s -> 0 < angular_diameter_distance_z1z2 dc z_l z_s ->
  forall x y, x <> x0 \/ y <> y0 -> 1 / 100 < Rabs (sqrt ((x - x0) ^ 2 + (y - y0) ^ 2) / Rs - 1) ->
  tangential_shear (tnfw_reduced_deflection_angle dc cd tot z_s z_l x0 y0 mass Rs tau 0) (tnfw_convergence dc cd tot z_s z_l x0 y0 mass Rs tau 0 x y) x0 y0 x y.
Proof. intros. eapply radial_shear; [apply C55_consistent|apply tnfw_radial|]; assumption. Qed.
Print Assumptions C99_tnfw.

(** ** Isothermal lenses: as much shear as convergence, magnification 1 / |1 - 2 kappa| *)
Theorem C99_sis_isothermal : forall x0 y0 Rein x y, x <> x0 \/ y <> y0 -> let k := convergence_sis x0 y0 Rein 0 x y in
  (exists g1 g2, reports_shear (reduced_deflection_angle_sis x0 y0 Rein 0) x y (g1, g2) /\ g1 ^ 2 + g2 ^ 2 = k ^ 2) /\
  magnification (reduced_deflection_angle_sis x0 y0 Rein 0) x y = (if Req_EM_T (1 - 2 * k) 0 then None else Some (1 / Rabs (1 - 2 * k))).
Proof. intros. eapply isothermal_flat; [apply sis_consistent|apply sis_scale_free|]; eassumption. Qed.
Print Assumptions C99_sis_isothermal.
Theorem C99_sie_isothermal : forall x0 y0 q phi Rein x y, 0 < q < 1 -> x <> x0 \/ y <> y0 -> let k := convergence_sie x0 y0 q phi Rein 0 x y in
  (exists g1 g2, reports_shear (reduced_deflection_angle_sie x0 y0 q phi Rein 0) x y (g1, g2) /\ g1 ^ 2 + g2 ^ 2 = k ^ 2) /\
  magnification (reduced_deflection_angle_sie x0 y0 q phi Rein 0) x y = (if Req_EM_T (1 - 2 * k) 0 then None else Some (1 / Rabs (1 - 2 * k))).
Proof.
  intros x0 y0 q phi Rein x y Hq N. eapply isothermal_flat.
  - apply sie_consistent; [exact Hq|left; reflexivity|tauto].
  - apply sie_scale_free; [lra|exact N].
  - exact N.
Qed.
Print Assumptions C99_sie_isothermal.

(** ** A minimum of the arrival time is never demagnified *)
Theorem C99_minimum : forall psi alpha kappa x y, lens_consistent psi alpha kappa x y -> 0 <= kappa x y ->
  forall g1 g2, reports_shear alpha x y (g1, g2) -> g1 ^ 2 + g2 ^ 2 < (1 - kappa x y) ^ 2 -> kappa x y < 1 ->
  exists mu, magnification alpha x y = Some mu /\ 1 <= mu.
Proof. exact minimum_magnified. Qed.
Print Assumptions C99_minimum.

Example C99_hyps : 0 < 1 / 2 < 1 /\ (3 <> 0 \/ 4 <> 0) /\
  lens_consistent (potential_sis 0 0 1 0) (reduced_deflection_angle_sis 0 0 1 0) (convergence_sis 0 0 1 0) 3 4 /\
  0 <= convergence_sis 0 0 1 0 3 4 < 1 /\
  exists g1 g2, reports_shear (reduced_deflection_angle_sis 0 0 1 0) 3 4 (g1, g2) /\ g1 ^ 2 + g2 ^ 2 < (1 - convergence_sis 0 0 1 0 3 4) ^ 2.
Proof.
  assert (N : 3 <> 0 \/ 4 <> 0) by (left; lra). split; [lra|]. split; [exact N|]. split; [apply sis_consistent; exact N|].
  assert (E : convergence_sis 0 0 1 0 3 4 = 1 / 10).
  { unfold convergence_sis, Geo_Model.translate_rotate. cbv zeta. replace ((3 - 0) ^ 2 + (4 - 0) ^ 2) with (5 ^ 2) by ring. rewrite sqrt_pow2 by lra. lra. }
  destruct (C99_sis_isothermal 0 0 1 3 4 N) as [(g1 & g2 & A & B) _]. cbv zeta in B. split; [rewrite E; lra|]. exists g1, g2. split; [exact A|]. rewrite B, E. lra.
Qed.
