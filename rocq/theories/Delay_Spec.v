(** * Specification for C103: lenses and the unit of their time delays *)
From Coq Require Import Reals.
From Verif Require Import Const_Model Cosmo_Model LensBase_Model LensBasic_Model.
Local Open Scope R_scope.

(** days per square arcsecond of the Fermat surface *)
Definition delay_unit (cd : R -> R) (zl zs : R) : R := time_delay_distance cd zl zs / c_Mpc_s * arcsec_to_rad ^ 2 / days_to_seconds.
Definition sis_lens (z x0 y0 Rein : R) : thin_lens := ThinLens z (reduced_deflection_angle_sis x0 y0 Rein 0) (potential_sis x0 y0 Rein 0) (convergence_sis x0 y0 Rein 0).
Definition sie_lens (z x0 y0 q phi Rein : R) : thin_lens := ThinLens z (reduced_deflection_angle_sie x0 y0 q phi Rein 0) (potential_sie x0 y0 q phi Rein 0) (convergence_sie x0 y0 q phi Rein 0).
(** the convergence of a Point lens plays no part in the delay *)
Definition point_lens (z x0 y0 Rein : R) : thin_lens := ThinLens z (reduced_deflection_angle_point x0 y0 Rein 0) (potential_point x0 y0 Rein 0) (fun _ _ => 0).
