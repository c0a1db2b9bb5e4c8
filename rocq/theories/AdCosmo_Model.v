(** * Distances as automatic differentiation sees them (utils.py:794-861, cosmology/FlatLambdaCDM.py, cosmology/base.py)

    The table of distances is made of plain numbers.  The index found by searchsorted is an integer and carries no tangent; what is looked up with
    it appears as [Pick].  Redshifts and cosmological parameters may be traced. *)
From Coq Require Import Reals ZArith List.
From Verif Require Import RealFun Const_Model Interp1_Model CosmoTable_Model Ad_Model AdLens_Model.
Import ListNotations.
Local Open Scope R_scope.
Local Open Scope ad_scope.

(** utils.py:811-816: row of the matrix A times the powers of t *)
Definition t_row (c0 c1 c2 c3 : R) (t : expr) : expr := Cst c0 * t ^ 0 + Cst c1 * t ^ 1 + Cst c2 * t ^ 2 + Cst c3 * t ^ 3.
Definition t_h_poly (t : expr) (i : nat) : expr :=
  match i with
  | 0%nat => t_row 1 0 (-3) 2 t
  | 1%nat => t_row 0 1 (-2) 1 t
  | 2%nat => t_row 0 0 3 (-2) t
  | _ => t_row 0 0 (-1) 1 t
  end.
(** utils.py:850-855 for one query, with the default extend="extrapolate" *)
Definition t_interp1d (n : nat) (x y : nat -> R) (xs : expr) : expr :=
  let idx (u : R) := (Z.of_nat (searchsorted x (n - 1) u) - 1)%Z in
  let entry (a : nat -> R) (d : Z) := Pick (fun u _ => Cst (wrap a n (idx u + d))) xs xs in
  let dx := Pick (fun u _ => Cst (wrap x n (idx u + 1) - wrap x n (idx u))) xs xs in
  let hh := t_h_poly ((xs - entry x 0%Z) / dx) in
  hh 0%nat * entry y 0%Z + hh 1%nat * entry (tangent n x y) 0%Z * dx + hh 2%nat * entry y 1%Z + hh 3%nat * entry (tangent n x y) 1%Z * dx.

(** FlatLambdaCDM.py:92-106 *)
Definition t_hubble_distance (h0 : expr) : expr := Cst (c_Mpc_s / (100 * km_to_Mpc)) / h0.
(** FlatLambdaCDM.py:109-129 *)
Definition t_critical_density (z critical_density_0 Om0 : expr) : expr :=
  let Ode0 := Cst 1 - Om0 in critical_density_0 * (Om0 * (Cst 1 + z) ^ 3 + Ode0).
(** FlatLambdaCDM.py:132-153, 156-184 *)
Definition t_helper : expr -> expr := t_interp1d table_size x_grid y_grid.
Definition t_comoving_distance (z h0 Om0 : expr) : expr :=
  let Ode0 := Cst 1 - Om0 in
  let ratio := RPow (Om0 / Ode0) (Cst (1 / 3)) in
  let DH := t_hubble_distance h0 in
  let DC1z := t_helper ((Cst 1 + z) * ratio) in
  let DC := t_helper ratio in
  DH * (DC1z - DC) / (RPow Om0 (Cst (1 / 3)) * RPow Ode0 (Cst (1 / 6))).

(** cosmology/base.py:116-140, 173-193, 195-220, 223-254, 257-288, from a traced comoving distance *)
Section Base.
Variable cd : expr -> expr.
Definition t_comoving_distance_z1z2 (z1 z2 : expr) : expr := cd z2 - cd z1.
Definition t_angular_diameter_distance (z : expr) : expr := cd z / (Cst 1 + z).
Definition t_angular_diameter_distance_z1z2 (z1 z2 : expr) : expr := t_comoving_distance_z1z2 z1 z2 / (Cst 1 + z2).
Definition t_time_delay_distance (z_l z_s : expr) : expr :=
  let d_l := t_angular_diameter_distance z_l in
  let d_s := t_angular_diameter_distance z_s in
  let d_ls := t_angular_diameter_distance_z1z2 z_l z_s in
  (Cst 1 + z_l) * d_l * d_s / d_ls.
Definition t_critical_surface_density (z_l z_s : expr) : expr :=
  let d_l := t_angular_diameter_distance z_l in
  let d_s := t_angular_diameter_distance z_s in
  let d_ls := t_angular_diameter_distance_z1z2 z_l z_s in
  d_s / (Cst (4 * PI * G_over_c2) * d_l * d_ls).
End Base.
