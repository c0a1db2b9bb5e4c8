(** * C157: the shear around a round lens weighs it *)
From Coq Require Import Reals Lra.
From Coquelicot Require Import Coquelicot.
From Verif Require Import Py Cosmo_Model LensBase_Model Lens_Spec LensBasic_Model Jaffe_Model LensBasic_Proofs Shear_Spec Shear_Proofs Jaffe_Props Zeta_Spec Zeta_Proofs.
Local Open Scope R_scope.

(** Any lens that deflects towards its centre, whose methods are consistent and whose convergence is continuous off the centre. *)
Theorem C157_weighs : forall psi alpha kappa x0 y0, deflects_radially alpha x0 y0 -> (forall x y, x <> x0 \/ y <> y0 -> lens_consistent psi alpha kappa x y) ->
  (forall t r, 0 < r -> continuous (fun r => kappa (px x0 t r) (py y0 t r)) r) -> shear_weighs alpha x0 y0 /\ mean_is_mean alpha kappa x0 y0.
Proof. intros psi alpha kappa x0 y0 A B C. split; [exact (weighs psi alpha kappa x0 y0 A B C)|exact (mean_mean psi alpha kappa x0 y0 A B C)]. Qed.
Print Assumptions C157_weighs.
Theorem C157_sis : forall x0 y0 Rein, shear_weighs (reduced_deflection_angle_sis x0 y0 Rein 0) x0 y0 /\ mean_is_mean (reduced_deflection_angle_sis x0 y0 Rein 0) (convergence_sis x0 y0 Rein 0) x0 y0.
Proof. intros x0 y0 Rein. exact (C157_weighs _ _ _ x0 y0 (sis_radial x0 y0 Rein 0) (sis_consistent x0 y0 Rein) (sis_cont x0 y0 Rein)). Qed.
Print Assumptions C157_sis.
(** A Point has no mass off its centre. *)
Theorem C157_point : forall x0 y0 Rein, shear_weighs (reduced_deflection_angle_point x0 y0 Rein 0) x0 y0 /\ mean_is_mean (reduced_deflection_angle_point x0 y0 Rein 0) (fun _ _ => 0) x0 y0 /\
  forall x y, x <> x0 \/ y <> y0 -> convergence_point x0 y0 x y = Some 0.
Proof. exact point_weighs. Qed.
Print Assumptions C157_point.
Theorem C157_pseudo_jaffe : forall dc z_s z_l mass Rc Rs x0 y0, 0 < Rc -> 0 < Rs -> Rc <> Rs ->
  0 < angular_diameter_distance dc z_l -> 0 < angular_diameter_distance dc z_s -> 0 < angular_diameter_distance_z1z2 dc z_l z_s ->
  shear_weighs (jaffe_reduced_deflection_angle dc z_s z_l x0 y0 mass Rc Rs) x0 y0 /\ mean_is_mean (jaffe_reduced_deflection_angle dc z_s z_l x0 y0 mass Rc Rs) (jaffe_convergence dc z_s z_l x0 y0 mass Rc Rs) x0 y0.
Proof. intros dc z_s z_l mass Rc Rs x0 y0 A B C D E F. exact (C157_weighs _ _ _ x0 y0 (jaffe_radial dc z_s z_l x0 y0 mass Rc Rs) (fun x y N => C51_consistent dc z_s z_l mass Rc Rs x0 y0 x y A B C D E F N) (jaffe_cont dc z_s z_l x0 y0 mass Rc Rs)). Qed.
Print Assumptions C157_pseudo_jaffe.

(** A case: an SIS with Rein = 2; between r = 1 and r = 4 the mean convergence falls from 2 to 1/2. *)
Example C157_hyps : deflects_radially (reduced_deflection_angle_sis 0 0 2 0) 0 0 /\ 0 < 1 <= 4 /\
  mean_convergence (reduced_deflection_angle_sis 0 0 2 0) 0 0 (px 0 0 1) (py 0 0 1) = 2 /\ mean_convergence (reduced_deflection_angle_sis 0 0 2 0) 0 0 (px 0 0 4) (py 0 0 4) = 1 / 2.
Proof. split; [exact (sis_radial 0 0 2 0)|]. split; [lra|]. split; [rewrite (case_r 1 ltac:(lra)); field|rewrite (case_r 4 ltac:(lra)); field]. Qed.
