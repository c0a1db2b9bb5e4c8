(** * C81: the unit conversions and physical constants are mutually consistent *)
From Coq Require Import Reals Lra.
From Verif Require Import Const_Model Cosmo_Model Const_Proofs.
Open Scope R_scope.

(** a full turn is 360 degrees, 1296000 arcsec and 2 pi; each conversion undoes its inverse *)
Theorem C81_angles : rad_to_deg * (2 * PI) = 360 /\ rad_to_arcsec * (2 * PI) = 1296000 /\ deg_to_arcsec * 360 = 1296000 /\
  (forall a, deg_to_rad * (rad_to_deg * a) = a) /\ (forall a, arcsec_to_rad * (rad_to_arcsec * a) = a) /\
  (forall a, arcsec_to_deg * (deg_to_arcsec * a) = a).
Proof. exact angles. Qed.
Print Assumptions C81_angles.
(** the critical surface density, computed from G_over_c2, is c^2 / (4 pi G) d_s / (d_l d_ls) with the library's c and G *)
Theorem C81_critical_surface_density : forall cd zl zs,
  angular_diameter_distance cd zl <> 0 -> angular_diameter_distance_z1z2 cd zl zs <> 0 ->
  critical_surface_density cd zl zs = 10 ^ 6 * c_km_s ^ 2 / (4 * PI * G) * (angular_diameter_distance cd zs / (angular_diameter_distance cd zl * angular_diameter_distance_z1z2 cd zl zs)).
Proof. exact sigma_cr_G. Qed.
Print Assumptions C81_critical_surface_density.
(** the Hubble distance, computed from c in Mpc/s and the hard-coded kilometre, is c / (100 h0 km/s/Mpc) to one part in 10^10 *)
Theorem C81_hubble_distance : forall h0, 0 < h0 -> Rabs (hubble_distance h0 * h0 / (c_km_s / 100) - 1) <= 1 / 10 ^ 10.
Proof. exact hubble_dist. Qed.
Print Assumptions C81_hubble_distance.
(** the light travel time used for delays: a distance in Mpc, in days (a parsec is 648000/pi astronomical units of 149597870700 m, light travels
    299792458 m in a second, a day has 86400 seconds) *)
Theorem C81_light_travel_time : forall d, d / c_Mpc_s / days_to_seconds = d * (10 ^ 6 * (648000 / PI) * 149597870700) / 299792458 / 86400.
Proof. exact light_time. Qed.
Print Assumptions C81_light_travel_time.
Example C81_hyps : 0 < 0.7 /\ angular_diameter_distance (fun z => z) 1 <> 0 /\ angular_diameter_distance_z1z2 (fun z => z) 1 2 <> 0.
Proof. unfold angular_diameter_distance_z1z2, angular_diameter_distance, comoving_distance_z1z2. lra. Qed.
