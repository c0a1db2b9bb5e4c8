(** * C51, C78: pseudo Jaffe *)
From Coq Require Import Reals Lra.
From Coquelicot Require Import Coquelicot.
From Verif Require Import Const_Model Cosmo_Model Lens_Spec Jaffe_Model Jaffe_Proofs Jaffe2_Proofs.
Local Open Scope R_scope.

(** The class, for every cosmology dc with positive distances d_l, d_s and d_ls. *)
Theorem C51_consistent : forall dc z_s z_l mass Rc Rs x0 y0 x y, 0 < Rc -> 0 < Rs -> Rc <> Rs ->
  0 < angular_diameter_distance dc z_l -> 0 < angular_diameter_distance dc z_s -> 0 < angular_diameter_distance_z1z2 dc z_l z_s -> x <> x0 \/ y <> y0 ->
  lens_consistent (jaffe_potential dc z_s z_l x0 y0 mass Rc Rs) (jaffe_reduced_deflection_angle dc z_s z_l x0 y0 mass Rc Rs) (jaffe_convergence dc z_s z_l x0 y0 mass Rc Rs) x y.
Proof. exact class_consistent. Qed.
Print Assumptions C51_consistent.
(** r in arcsec; the surface density in solar masses per square arcsec is kappa Sigma_cr (d_l arcsec_to_rad)^2. *)
Theorem C51_enclosed_mass : forall dc z_s z_l mass Rc Rs r, 0 < Rc -> 0 < Rs -> Rc <> Rs ->
  0 < angular_diameter_distance dc z_l -> 0 < angular_diameter_distance dc z_s -> 0 < angular_diameter_distance_z1z2 dc z_l z_s ->
  is_derive (fun r => jaffe_mass_enclosed_2d r mass Rc Rs) r
    (2 * PI * r * (jaffe_convergence dc z_s z_l 0 0 mass Rc Rs r 0 * critical_surface_density dc z_l z_s * (angular_diameter_distance dc z_l * arcsec_to_rad) ^ 2)) /\
  jaffe_mass_enclosed_2d 0 mass Rc Rs = 0 /\
  is_lim (fun r => jaffe_mass_enclosed_2d r mass Rc Rs) p_infty mass.
Proof. exact class_mass. Qed.
Print Assumptions C51_enclosed_mass.
Theorem C51_deflection_of_enclosed_mass : forall dc z_s z_l mass Rc Rs x0 y0 x y, 0 < Rc -> 0 < Rs -> Rc <> Rs ->
  0 < angular_diameter_distance dc z_l -> 0 < angular_diameter_distance dc z_s -> 0 < angular_diameter_distance_z1z2 dc z_l z_s -> x <> x0 \/ y <> y0 ->
  let r := sqrt ((x - x0) ^ 2 + (y - y0) ^ 2) in
  let a := jaffe_mass_enclosed_2d r mass Rc Rs / (PI * r * critical_surface_density dc z_l z_s * (angular_diameter_distance dc z_l * arcsec_to_rad) ^ 2) in
  jaffe_reduced_deflection_angle dc z_s z_l x0 y0 mass Rc Rs x y = (a * ((x - x0) / r), a * ((y - y0) / r)).
Proof. exact class_deflection. Qed.
Print Assumptions C51_deflection_of_enclosed_mass.
Example C51_hyps : 0 < 1 /\ 0 < 2 /\ 1 <> 2 /\ 0 < angular_diameter_distance (fun z => z) (1 / 2) /\ 0 < angular_diameter_distance (fun z => z) 1 /\
  0 < angular_diameter_distance_z1z2 (fun z => z) (1 / 2) 1 /\ (3 <> 0 \/ 4 <> 0).
Proof. unfold angular_diameter_distance_z1z2, angular_diameter_distance, comoving_distance_z1z2. repeat split; lra. Qed.

(** C78: get_convergence_0 is the convergence at the centre, and central_convergence is the projection of the three-dimensional density. *)
Theorem C78_central_value : forall dc z_s z_l mass Rc Rs x0 y0, 0 < Rc -> 0 < Rs -> Rc <> Rs ->
  jaffe_convergence dc z_s z_l x0 y0 mass Rc Rs x0 y0 = get_convergence_0 dc z_s z_l mass Rc Rs.
Proof. exact class_central. Qed.
Print Assumptions C78_central_value.
Theorem C78_projected_density : forall rho_0 Rc Rs sigma_cr, 0 < Rc -> 0 < Rs -> Rc <> Rs -> 0 < sigma_cr ->
  is_lim (fun Z => RInt (fun z => rho_0 / ((1 + z ^ 2 / Rc ^ 2) * (1 + z ^ 2 / Rs ^ 2))) (- Z) Z) p_infty (central_convergence rho_0 Rc Rs sigma_cr * sigma_cr).
Proof. exact central_projection. Qed.
Print Assumptions C78_projected_density.
Example C78_hyps : 0 < 1 /\ 0 < 2 /\ 1 <> 2 /\ 0 < 5.
Proof. repeat split; lra. Qed.
