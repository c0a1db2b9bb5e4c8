(** * C106: mirror images and symmetries *)
From Coq Require Import Reals Lra ZArith List.
From Verif Require Import Py Cosmo_Model LensBase_Model LensBasic_Model Epl_Model Multipole_Model Jaffe_Model Nfw_Model Tnfw_Model EncMass_Model Light_Model Rigid_Spec Mirror_Spec Mirror_Proofs Mirror2_Proofs.
Import ListNotations.
Local Open Scope R_scope.

(** In a mirror along the x axis the ordinate of the centre, position angles and [gamma_2] change sign; everything else of the lens stays. *)
Theorem C106_mass_sheet : forall x0 y0 kappa x y, mirrored_vector (reduced_deflection_angle_mass_sheet x0 y0 kappa) (reduced_deflection_angle_mass_sheet x0 (- y0) kappa) x y /\
  mirrored (potential_mass_sheet x0 y0 kappa) (potential_mass_sheet x0 (- y0) kappa) x y /\
  mirrored (fun x _ => convergence_mass_sheet kappa x) (fun x _ => convergence_mass_sheet kappa x) x y.
Proof. exact sheet_mirrored. Qed.
Theorem C106_external_shear : forall x0 y0 g1 g2 x y, mirrored_vector (reduced_deflection_angle_external_shear x0 y0 g1 g2) (reduced_deflection_angle_external_shear x0 (- y0) g1 (- g2)) x y /\
  mirrored (potential_external_shear x0 y0 g1 g2) (potential_external_shear x0 (- y0) g1 (- g2)) x y.
Proof. exact shear_mirrored. Qed.
Theorem C106_sis : forall x0 y0 Rein s x y, mirrored_vector (reduced_deflection_angle_sis x0 y0 Rein s) (reduced_deflection_angle_sis x0 (- y0) Rein s) x y /\
  mirrored (potential_sis x0 y0 Rein s) (potential_sis x0 (- y0) Rein s) x y /\ mirrored (convergence_sis x0 y0 Rein s) (convergence_sis x0 (- y0) Rein s) x y.
Proof. exact sis_mirrored. Qed.
Theorem C106_point : forall x0 y0 Rein s x y, mirrored_vector (reduced_deflection_angle_point x0 y0 Rein s) (reduced_deflection_angle_point x0 (- y0) Rein s) x y /\
  mirrored (potential_point x0 y0 Rein s) (potential_point x0 (- y0) Rein s) x y /\ mirrored (convergence_point x0 y0) (convergence_point x0 (- y0)) x y.
Proof. exact point_mirrored. Qed.
Theorem C106_sie : forall x0 y0 q phi Rein s x y, 0 < q <= 1 -> 0 <= s -> x <> x0 \/ y <> y0 ->
  mirrored_vector (reduced_deflection_angle_sie x0 y0 q phi Rein s) (reduced_deflection_angle_sie x0 (- y0) q (- phi) Rein s) x y /\
  mirrored (potential_sie x0 y0 q phi Rein s) (potential_sie x0 (- y0) q (- phi) Rein s) x y /\
  mirrored (convergence_sie x0 y0 q phi Rein s) (convergence_sie x0 (- y0) q (- phi) Rein s) x y.
Proof. exact sie_mirrored. Qed.
Theorem C106_epl : forall x0 y0 q phi Rein t n c s x y, reduced_deflection_angle_epl x0 (- y0) q (- phi) Rein t n c x (- y) = bind (reduced_deflection_angle_epl x0 y0 q phi Rein t n c x y) (fun a => Ok (flip a)) /\
  mirrored (potential_epl x0 y0 q phi Rein t n c) (potential_epl x0 (- y0) q (- phi) Rein t n c) x y /\
  mirrored (convergence_epl x0 y0 q phi Rein t s) (convergence_epl x0 (- y0) q (- phi) Rein t s) x y.
Proof. exact epl_mirrored. Qed.
Theorem C106_multipole : forall x0 y0 l x y, x <> x0 \/ y <> y0 -> let l' := map (fun '(m, a_m, phi_m) => (m, a_m, - phi_m)) l in
  mirrored_vector (reduced_deflection_angle_multipole x0 y0 l) (reduced_deflection_angle_multipole x0 (- y0) l') x y /\
  mirrored (potential_multipole x0 y0 l) (potential_multipole x0 (- y0) l') x y /\
  mirrored (convergence_multipole x0 y0 l) (convergence_multipole x0 (- y0) l') x y.
Proof. exact multipole_mirrored. Qed.
Theorem C106_pseudo_jaffe : forall dc z_s z_l x0 y0 mass Rc Rs x y, mirrored_vector (jaffe_reduced_deflection_angle dc z_s z_l x0 y0 mass Rc Rs) (jaffe_reduced_deflection_angle dc z_s z_l x0 (- y0) mass Rc Rs) x y /\
  mirrored (jaffe_potential dc z_s z_l x0 y0 mass Rc Rs) (jaffe_potential dc z_s z_l x0 (- y0) mass Rc Rs) x y /\
  mirrored (jaffe_convergence dc z_s z_l x0 y0 mass Rc Rs) (jaffe_convergence dc z_s z_l x0 (- y0) mass Rc Rs) x y.
Proof. exact jaffe_mirrored. Qed.
Theorem C106_nfw : forall dc cd z_s z_l x0 y0 mass c s x y, mirrored_vector (nfw_reduced_deflection_angle dc cd z_s z_l x0 y0 mass c s) (nfw_reduced_deflection_angle dc cd z_s z_l x0 (- y0) mass c s) x y /\
  mirrored (nfw_potential dc cd z_s z_l x0 y0 mass c s) (nfw_potential dc cd z_s z_l x0 (- y0) mass c s) x y /\
  mirrored (nfw_convergence dc cd z_s z_l x0 y0 mass c s) (nfw_convergence dc cd z_s z_l x0 (- y0) mass c s) x y.
Proof. exact nfw_mirrored. Qed.
Theorem C106_tnfw : forall dc cd tot z_s z_l x0 y0 mass Rs tau s x y, x <> x0 \/ y <> y0 ->
  mirrored_vector (tnfw_reduced_deflection_angle dc cd tot z_s z_l x0 y0 mass Rs tau s) (tnfw_reduced_deflection_angle dc cd tot z_s z_l x0 (- y0) mass Rs tau s) x y /\
  mirrored (tnfw_potential dc cd tot z_s z_l x0 y0 mass Rs tau s) (tnfw_potential dc cd tot z_s z_l x0 (- y0) mass Rs tau s) x y /\
  mirrored (tnfw_convergence dc cd tot z_s z_l x0 y0 mass Rs tau s) (tnfw_convergence dc cd tot z_s z_l x0 (- y0) mass Rs tau s) x y.
Proof. exact tnfw_mirrored. Qed.
Theorem C106_enclosed_mass : forall dc z_s z_l x0 y0 q phi M s x y, mirrored_vector (enclosed_mass_reduced_deflection_angle dc z_s z_l x0 y0 q phi M s) (enclosed_mass_reduced_deflection_angle dc z_s z_l x0 (- y0) q (- phi) M s) x y /\
  mirrored (enclosed_mass_convergence dc z_s z_l x0 y0 q phi M s) (enclosed_mass_convergence dc z_s z_l x0 (- y0) q (- phi) M s) x y.
Proof. exact enclosed_mirrored. Qed.
Theorem C106_sersic : forall lk s x0 y0 q phi n Re Ie x y, mirrored (sersic_brightness lk s x0 y0 q phi n Re Ie) (sersic_brightness lk s x0 (- y0) q (- phi) n Re Ie) x y.
Proof. exact sersic_mirrored. Qed.
Theorem C106_star_source : forall x0 y0 theta_s Ie gamma x y, mirrored (fun x y => brightness_star x0 y0 theta_s Ie x y gamma) (fun x y => brightness_star x0 (- y0) theta_s Ie x y gamma) x y.
Proof. exact star_mirrored. Qed.
(** Hence an elliptical lens or source is symmetric about its axis, and a multipole of order [m] about its own angle and under a turn by [2 PI / m]. *)
Theorem C106_sie_symmetric : forall x0 y0 q phi Rein s x y, 0 < q <= 1 -> 0 <= s -> x <> x0 \/ y <> y0 ->
  symmetric_vector x0 y0 phi (reduced_deflection_angle_sie x0 y0 q phi Rein s) x y /\ symmetric x0 y0 phi (potential_sie x0 y0 q phi Rein s) x y /\ symmetric x0 y0 phi (convergence_sie x0 y0 q phi Rein s) x y.
Proof. exact sie_symmetric. Qed.
Theorem C106_epl_symmetric : forall x0 y0 q phi Rein t n c s x y, (let m := reflect x0 y0 phi x y in reduced_deflection_angle_epl x0 y0 q phi Rein t n c (fst m) (snd m) = bind (reduced_deflection_angle_epl x0 y0 q phi Rein t n c x y) (fun a => Ok (reflect_vector phi a))) /\
  symmetric x0 y0 phi (potential_epl x0 y0 q phi Rein t n c) x y /\ symmetric x0 y0 phi (convergence_epl x0 y0 q phi Rein t s) x y.
Proof. exact epl_symmetric. Qed.
Theorem C106_sersic_symmetric : forall lk s x0 y0 q phi n Re Ie x y, symmetric x0 y0 phi (sersic_brightness lk s x0 y0 q phi n Re Ie) x y.
Proof. exact sersic_symmetric. Qed.
Theorem C106_multipole_symmetric : forall x0 y0 m a_m phi_m x y, x <> x0 \/ y <> y0 -> let l := [(m, a_m, phi_m)] in
  symmetric_vector x0 y0 phi_m (reduced_deflection_angle_multipole x0 y0 l) x y /\ symmetric x0 y0 phi_m (potential_multipole x0 y0 l) x y /\ symmetric x0 y0 phi_m (convergence_multipole x0 y0 l) x y.
Proof. exact multipole_symmetric. Qed.
Theorem C106_multipole_fold : forall x0 y0 m a_m phi_m x y, (m <> 0)%Z -> x <> x0 \/ y <> y0 -> let l := [(m, a_m, phi_m)] in let t := 2 * PI / IZR m in
  unturned_vector x0 y0 t (reduced_deflection_angle_multipole x0 y0 l) x y /\ unturned x0 y0 t (potential_multipole x0 y0 l) x y /\ unturned x0 y0 t (convergence_multipole x0 y0 l) x y.
Proof. exact multipole_fold. Qed.
Example C106_hyps : 0 < 1 / 2 <= 1 /\ (3 <> 1 \/ 4 <> 2) /\ (3 <> 0)%Z /\ reflect 1 2 0 3 5 = (3, -1) /\ about 1 2 (PI / 2) 3 5 = (-2, 4).
Proof.
  split; [lra|]. split; [left; lra|]. split; [discriminate|]. unfold reflect, reflect_vector, about, turn. cbv zeta. cbn [fst snd]. rewrite Rmult_0_r, cos_0, sin_0, cos_PI2, sin_PI2. split; apply (f_equal2 pair); ring.
Qed.
Print Assumptions C106_mass_sheet.
Print Assumptions C106_external_shear.
Print Assumptions C106_sis.
Print Assumptions C106_point.
Print Assumptions C106_sie.
Print Assumptions C106_epl.
Print Assumptions C106_multipole.
Print Assumptions C106_pseudo_jaffe.
Print Assumptions C106_nfw.
Print Assumptions C106_tnfw.
Print Assumptions C106_enclosed_mass.
Print Assumptions C106_sersic.
Print Assumptions C106_star_source.
Print Assumptions C106_sie_symmetric.
Print Assumptions C106_epl_symmetric.
Print Assumptions C106_sersic_symmetric.
Print Assumptions C106_multipole_symmetric.
Print Assumptions C106_multipole_fold.
