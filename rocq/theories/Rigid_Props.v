(** * C94: a lens or source that is moved and turned carries everything along *)
From Coq Require Import Reals Lra List.
From Coquelicot Require Import Coquelicot.
From Verif Require Import Py Geo_Model Cosmo_Model LensBase_Model LensBasic_Model Epl_Model Multipole_Model Jaffe_Model Nfw_Model Tnfw_Model EncMass_Model Light_Model Rigid_Spec Rigid_Proofs.
Local Open Scope R_scope.

(** [t]: angle of the motion; [(a, b)]: shift; the centre moves along and position angles grow by [t] *)
Notation mx t a b x y := (fst (motion t a b x y)).
Notation my t a b x y := (snd (motion t a b x y)).

Theorem C94_mass_sheet : forall t a b x0 y0 kappa x y,
  carried_vector t a b (reduced_deflection_angle_mass_sheet x0 y0 kappa) (reduced_deflection_angle_mass_sheet (mx t a b x0 y0) (my t a b x0 y0) kappa) x y /\
  carried t a b (potential_mass_sheet x0 y0 kappa) (potential_mass_sheet (mx t a b x0 y0) (my t a b x0 y0) kappa) x y /\
  carried t a b (fun x y => convergence_mass_sheet kappa x) (fun x y => convergence_mass_sheet kappa x) x y.
Proof. exact mass_sheet_moves. Qed.
Print Assumptions C94_mass_sheet.

Theorem C94_shear : forall t a b x0 y0 gamma phi x y,
  let g1 p := gamma_phi_to_gamma1 gamma p in let g2 p := gamma_phi_to_gamma2 gamma p in
  carried_vector t a b (reduced_deflection_angle_external_shear x0 y0 (g1 phi) (g2 phi)) (reduced_deflection_angle_external_shear (mx t a b x0 y0) (my t a b x0 y0) (g1 (phi + t)) (g2 (phi + t))) x y /\
  carried t a b (potential_external_shear x0 y0 (g1 phi) (g2 phi)) (potential_external_shear (mx t a b x0 y0) (my t a b x0 y0) (g1 (phi + t)) (g2 (phi + t))) x y.
Proof. exact shear_moves. Qed.
Print Assumptions C94_shear.

Theorem C94_sis : forall t a b x0 y0 Rein s x y,
  carried_vector t a b (reduced_deflection_angle_sis x0 y0 Rein s) (reduced_deflection_angle_sis (mx t a b x0 y0) (my t a b x0 y0) Rein s) x y /\
  carried t a b (potential_sis x0 y0 Rein s) (potential_sis (mx t a b x0 y0) (my t a b x0 y0) Rein s) x y /\
  carried t a b (convergence_sis x0 y0 Rein s) (convergence_sis (mx t a b x0 y0) (my t a b x0 y0) Rein s) x y.
Proof. exact sis_moves. Qed.
Print Assumptions C94_sis.

Theorem C94_point : forall t a b x0 y0 Rein s x y,
  carried_vector t a b (reduced_deflection_angle_point x0 y0 Rein s) (reduced_deflection_angle_point (mx t a b x0 y0) (my t a b x0 y0) Rein s) x y /\
  carried t a b (potential_point x0 y0 Rein s) (potential_point (mx t a b x0 y0) (my t a b x0 y0) Rein s) x y /\
  carried t a b (convergence_point x0 y0) (convergence_point (mx t a b x0 y0) (my t a b x0 y0)) x y.
Proof. exact point_moves. Qed.
Print Assumptions C94_point.

Theorem C94_sie : forall t a b x0 y0 q phi Rein s x y,
  carried_vector t a b (reduced_deflection_angle_sie x0 y0 q phi Rein s) (reduced_deflection_angle_sie (mx t a b x0 y0) (my t a b x0 y0) q (phi + t) Rein s) x y /\
  carried t a b (potential_sie x0 y0 q phi Rein s) (potential_sie (mx t a b x0 y0) (my t a b x0 y0) q (phi + t) Rein s) x y /\
  carried t a b (convergence_sie x0 y0 q phi Rein s) (convergence_sie (mx t a b x0 y0) (my t a b x0 y0) q (phi + t) Rein s) x y.
Proof. exact sie_moves. Qed.
Print Assumptions C94_sie.

Theorem C94_epl : forall t a b x0 y0 q phi Rein tt n ck s x y,
  (forall al, reduced_deflection_angle_epl x0 y0 q phi Rein tt n ck x y = Ok al -> reduced_deflection_angle_epl (mx t a b x0 y0) (my t a b x0 y0) q (phi + t) Rein tt n ck (mx t a b x y) (my t a b x y) = Ok (turn t al)) /\
  (forall e, reduced_deflection_angle_epl x0 y0 q phi Rein tt n ck x y = Raise e -> reduced_deflection_angle_epl (mx t a b x0 y0) (my t a b x0 y0) q (phi + t) Rein tt n ck (mx t a b x y) (my t a b x y) = Raise e) /\
  carried t a b (potential_epl x0 y0 q phi Rein tt n ck) (potential_epl (mx t a b x0 y0) (my t a b x0 y0) q (phi + t) Rein tt n ck) x y /\
  carried t a b (convergence_epl x0 y0 q phi Rein tt s) (convergence_epl (mx t a b x0 y0) (my t a b x0 y0) q (phi + t) Rein tt s) x y.
Proof. exact epl_moves. Qed.
Print Assumptions C94_epl.

Theorem C94_multipole : forall t a b x0 y0 l x y, x <> x0 \/ y <> y0 ->
  let l' := map (fun '(m, a_m, phi_m) => (m, a_m, phi_m + t)) l in
  carried_vector t a b (reduced_deflection_angle_multipole x0 y0 l) (reduced_deflection_angle_multipole (mx t a b x0 y0) (my t a b x0 y0) l') x y /\
  carried t a b (potential_multipole x0 y0 l) (potential_multipole (mx t a b x0 y0) (my t a b x0 y0) l') x y /\
  carried t a b (convergence_multipole x0 y0 l) (convergence_multipole (mx t a b x0 y0) (my t a b x0 y0) l') x y.
Proof. exact multipole_moves. Qed.
Print Assumptions C94_multipole.

Theorem C94_jaffe : forall t a b dc z_s z_l x0 y0 mass Rc Rs x y,
  carried_vector t a b (jaffe_reduced_deflection_angle dc z_s z_l x0 y0 mass Rc Rs) (jaffe_reduced_deflection_angle dc z_s z_l (mx t a b x0 y0) (my t a b x0 y0) mass Rc Rs) x y /\
  carried t a b (jaffe_potential dc z_s z_l x0 y0 mass Rc Rs) (jaffe_potential dc z_s z_l (mx t a b x0 y0) (my t a b x0 y0) mass Rc Rs) x y /\
  carried t a b (jaffe_convergence dc z_s z_l x0 y0 mass Rc Rs) (jaffe_convergence dc z_s z_l (mx t a b x0 y0) (my t a b x0 y0) mass Rc Rs) x y.
Proof. exact jaffe_moves. Qed.
Print Assumptions C94_jaffe.

Theorem C94_nfw : forall t a b dc cd z_s z_l x0 y0 mass c s x y,
  carried_vector t a b (nfw_physical_deflection_angle dc cd z_l x0 y0 mass c s) (nfw_physical_deflection_angle dc cd z_l (mx t a b x0 y0) (my t a b x0 y0) mass c s) x y /\
  carried_vector t a b (nfw_reduced_deflection_angle dc cd z_s z_l x0 y0 mass c s) (nfw_reduced_deflection_angle dc cd z_s z_l (mx t a b x0 y0) (my t a b x0 y0) mass c s) x y /\
  carried t a b (nfw_potential dc cd z_s z_l x0 y0 mass c s) (nfw_potential dc cd z_s z_l (mx t a b x0 y0) (my t a b x0 y0) mass c s) x y /\
  carried t a b (nfw_convergence dc cd z_s z_l x0 y0 mass c s) (nfw_convergence dc cd z_s z_l (mx t a b x0 y0) (my t a b x0 y0) mass c s) x y.
Proof. exact nfw_moves. Qed.
Print Assumptions C94_nfw.

Theorem C94_tnfw : forall t a b dc cd tot z_s z_l x0 y0 mass Rs tau s x y, x <> x0 \/ y <> y0 ->
  carried_vector t a b (tnfw_physical_deflection_angle dc cd tot z_l x0 y0 mass Rs tau s) (tnfw_physical_deflection_angle dc cd tot z_l (mx t a b x0 y0) (my t a b x0 y0) mass Rs tau s) x y /\
  carried_vector t a b (tnfw_reduced_deflection_angle dc cd tot z_s z_l x0 y0 mass Rs tau s) (tnfw_reduced_deflection_angle dc cd tot z_s z_l (mx t a b x0 y0) (my t a b x0 y0) mass Rs tau s) x y /\
  carried t a b (tnfw_potential dc cd tot z_s z_l x0 y0 mass Rs tau s) (tnfw_potential dc cd tot z_s z_l (mx t a b x0 y0) (my t a b x0 y0) mass Rs tau s) x y /\
  carried t a b (tnfw_convergence dc cd tot z_s z_l x0 y0 mass Rs tau s) (tnfw_convergence dc cd tot z_s z_l (mx t a b x0 y0) (my t a b x0 y0) mass Rs tau s) x y.
Proof. exact tnfw_moves. Qed.
Print Assumptions C94_tnfw.

Theorem C94_enclosed : forall t a b dc z_s z_l x0 y0 q phi M s x y,
  carried_vector t a b (enclosed_mass_reduced_deflection_angle dc z_s z_l x0 y0 q phi M s) (enclosed_mass_reduced_deflection_angle dc z_s z_l (mx t a b x0 y0) (my t a b x0 y0) q (phi + t) M s) x y /\
  carried t a b (enclosed_mass_convergence dc z_s z_l x0 y0 q phi M s) (enclosed_mass_convergence dc z_s z_l (mx t a b x0 y0) (my t a b x0 y0) q (phi + t) M s) x y.
Proof. exact enclosed_moves. Qed.
Print Assumptions C94_enclosed.

Theorem C94_sersic : forall t a b lk s x0 y0 q phi n Re Ie x y, carried t a b (sersic_brightness lk s x0 y0 q phi n Re Ie) (sersic_brightness lk s (mx t a b x0 y0) (my t a b x0 y0) q (phi + t) n Re Ie) x y.
Proof. exact sersic_moves. Qed.
Print Assumptions C94_sersic.

Theorem C94_star : forall t a b x0 y0 theta_s Ie gamma x y, carried t a b (fun x y => brightness_star x0 y0 theta_s Ie x y gamma) (fun x y => brightness_star (mx t a b x0 y0) (my t a b x0 y0) theta_s Ie x y gamma) x y.
Proof. exact star_moves. Qed.
Print Assumptions C94_star.

Example C94_hyps : motion (PI / 2) 1 2 3 5 = (-4, 5) /\ (3 : R) <> 0.
Proof. split; [|lra]. unfold motion, turn; cbn [fst snd]. rewrite cos_PI2, sin_PI2. f_equal; ring. Qed.
