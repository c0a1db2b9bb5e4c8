(** * Cosmology (model of src/caustics/cosmology/base.py and FlatLambdaCDM.py). *)
From Coq Require Import Reals.
From Verif Require Import Const_Model.
Open Scope R_scope.

(** base.py: an arbitrary cosmology is given by its comoving distance function *)
Section Base.
Variable comoving_distance : R -> R.

(** base.py:116-140 *)
Definition comoving_distance_z1z2 (z1 z2 : R) : R := comoving_distance z2 - comoving_distance z1.
(** base.py:174-193 (1 + z is non-zero for every redshift z > -1) *)
Definition angular_diameter_distance (z : R) : R := comoving_distance z / (1 + z).
(** base.py:196-220 *)
Definition angular_diameter_distance_z1z2 (z1 z2 : R) : R := comoving_distance_z1z2 z1 z2 / (1 + z2).
(** base.py:223-254 *)
Definition time_delay_distance (z_l z_s : R) : R :=
  let d_l := angular_diameter_distance z_l in
  let d_s := angular_diameter_distance z_s in
  let d_ls := angular_diameter_distance_z1z2 z_l z_s in
  (1 + z_l) * d_l * d_s / d_ls.
(** base.py:257-288 *)
Definition critical_surface_density (z_l z_s : R) : R :=
  let d_l := angular_diameter_distance z_l in
  let d_s := angular_diameter_distance z_s in
  let d_ls := angular_diameter_distance_z1z2 z_l z_s in
  d_s / (4 * PI * G_over_c2 * d_l * d_ls).
End Base.

(** base.py:143-171 transverse distances, from the transverse comoving distance function *)
Definition transverse_comoving_distance_z1z2 (tcd : R -> R) (z1 z2 : R) : R := tcd z2 - tcd z1.

(** FlatLambdaCDM.py:92-106 *)
Definition hubble_distance (h0 : R) : R := c_Mpc_s / (100 * km_to_Mpc) / h0.
(** FlatLambdaCDM.py:109-129 *)
Definition critical_density (z critical_density_0 Om0 : R) : R :=
  let Ode0 := 1 - Om0 in critical_density_0 * (Om0 * (1 + z) ^ 3 + Ode0).
(** FlatLambdaCDM.py:156-180; [helper] models _comoving_distance_helper (132-153), i.e.
    interp1d on the table built in __init__ (66-79); x ** (1/3) on positive x is Rpower *)
Definition comoving_distance_flat (helper : R -> R) (z h0 Om0 : R) : R :=
  let Ode0 := 1 - Om0 in
  let ratio := Rpower (Om0 / Ode0) (1 / 3) in
  let DH := hubble_distance h0 in
  let DC1z := helper ((1 + z) * ratio) in
  let DC := helper ratio in
  DH * (DC1z - DC) / (Rpower Om0 (1 / 3) * Rpower Ode0 (1 / 6)).
(** FlatLambdaCDM.py:183-184 *)
Definition transverse_comoving_distance_flat (helper : R -> R) (z h0 Om0 : R) : R :=
  comoving_distance_flat helper z h0 Om0.
