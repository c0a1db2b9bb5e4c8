(** * The concrete halos as thin lenses, so that the methods of the base class (lenses/base.py) apply to them *)
From Coq Require Import Reals.
From Verif Require Import Const_Model Cosmo_Model Geo_Model LensBase_Model LensBasic_Model Jaffe_Model Nfw_Model Tnfw_Model.
Local Open Scope R_scope.

(** lenses/pseudo_jaffe.py:15: class PseudoJaffe(ThinLens); [z_s] is the source redshift parameter of the instance *)
Definition jaffe_lens (dc : R -> R) (z_s z_l x0 y0 mass Rc Rs : R) : thin_lens :=
  ThinLens z_l (jaffe_reduced_deflection_angle dc z_s z_l x0 y0 mass Rc Rs)
    (jaffe_potential dc z_s z_l x0 y0 mass Rc Rs) (jaffe_convergence dc z_s z_l x0 y0 mass Rc Rs).
(** lenses/tnfw.py:15: class TNFW(ThinLens) *)
Definition tnfw_lens (dc cd : R -> R) (tot : bool) (z_s z_l x0 y0 mass Rs tau s : R) : thin_lens :=
  ThinLens z_l (tnfw_reduced_deflection_angle dc cd tot z_s z_l x0 y0 mass Rs tau s)
    (tnfw_potential dc cd tot z_s z_l x0 y0 mass Rs tau s) (tnfw_convergence dc cd tot z_s z_l x0 y0 mass Rs tau s).
(** lenses/nfw.py:15: class NFW(ThinLens), whose convergence may be NaN: deflection and potential only *)
Definition nfw_lens (dc cd : R -> R) (z_s z_l x0 y0 mass c s : R) (kappa : R -> R -> R) : thin_lens :=
  ThinLens z_l (nfw_reduced_deflection_angle dc cd z_s z_l x0 y0 mass c s) (nfw_potential dc cd z_s z_l x0 y0 mass c s) kappa.
(** lenses/base.py:793-824 for NFW, whose convergence may be NaN (None), which a product keeps *)
Definition nfw_surface_density (dc cd : R -> R) (z_s z_l x0 y0 mass c s x y : R) : option R :=
  option_map (fun k => k * critical_surface_density dc z_l z_s) (nfw_convergence dc cd z_s z_l x0 y0 mass c s x y).
(** lenses/mass_sheet.py:13: class MassSheet(ThinLens) *)
Definition mass_sheet_lens (z x0 y0 kappa : R) : thin_lens :=
  ThinLens z (reduced_deflection_angle_mass_sheet x0 y0 kappa) (potential_mass_sheet x0 y0 kappa) (fun x _ => convergence_mass_sheet kappa x).
(** lenses/sis.py:13: class SIS(ThinLens) *)
Definition sis_lens (z x0 y0 Rein s : R) : thin_lens :=
  ThinLens z (reduced_deflection_angle_sis x0 y0 Rein s) (potential_sis x0 y0 Rein s) (convergence_sis x0 y0 Rein s).
