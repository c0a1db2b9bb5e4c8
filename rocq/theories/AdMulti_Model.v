(** * Several lenses as automatic differentiation sees them (lenses/singleplane.py, lenses/multiplane.py and the conversions of lenses/base.py)

    The redshifts are plain numbers.  The distances are traced, since the parameters of the cosmology may be differentiated. *)
From Coq Require Import Reals List Arith.
From Verif Require Import Py Const_Model Multiplane_Model Ad_Model AdLens_Model AdSim_Model.
Import ListNotations.
Local Open Scope R_scope.
Local Open Scope ad_scope.

(** a thin lens: LensBase_Model.thin_lens on traced positions *)
Record t_thin := TThin { t_z : R; t_deflection : expr -> expr -> expr * expr; t_psi : expr -> expr -> expr; t_kappa : expr -> expr -> expr }.

(** singleplane.py:58-98, 101-134, 137-170 *)
Definition t_singleplane_deflection (lenses : list t_thin) (x y : expr) : expr * expr :=
  fold_left (fun a lens => let '(ax_cur, ay_cur) := t_deflection lens x y in (fst a + ax_cur, snd a + ay_cur)) lenses (Cst 0, Cst 0).
Definition t_singleplane_convergence (lenses : list t_thin) (x y : expr) : expr := fold_left (fun a lens => a + t_kappa lens x y) lenses (Cst 0).
Definition t_singleplane_potential (lenses : list t_thin) (x y : expr) : expr := fold_left (fun a lens => a + t_psi lens x y) lenses (Cst 0).
Definition t_singleplane (z : R) (lenses : list t_thin) : t_thin :=
  TThin z (t_singleplane_deflection lenses) (t_singleplane_potential lenses) (t_singleplane_convergence lenses).

Section Cosmology.
(** the comoving and the transverse comoving distance to a redshift *)
Variables t_cd t_tcd : R -> expr.
(** cosmology/base.py:173-193, 195-220, 142-168 *)
Definition t_add (z : R) : expr := t_cd z / Cst (1 + z).
Definition t_add2 (z1 z2 : R) : expr := (t_cd z2 - t_cd z1) / Cst (1 + z2).
Definition t_tcd2 (z1 z2 : R) : expr := t_tcd z2 - t_tcd z1.
(** base.py:670-710 *)
Definition t_physical_deflection (lens : t_thin) (z_s : R) (x y : expr) : expr * expr :=
  let d_s := t_add z_s in
  let d_ls := t_add2 (t_z lens) z_s in
  let '(ax, ay) := t_deflection lens x y in
  (d_s / d_ls * ax, d_s / d_ls * ay).
(** base.py:866-876, 879-944 *)
Definition t_arcsec2_to_days (z_s z_l : R) : expr :=
  Cst ((1 + z_l) / c_Mpc_s) * t_add z_s * t_add z_l / t_add2 z_l z_s * Cst (arcsec_to_rad ^ 2) / Cst days_to_seconds.
Definition t_time_delay (lens : t_thin) (z_s : R) (x y : expr) (shapiro geometric : bool) : expr :=
  let TD := Cst 0 in
  let TD := if shapiro then TD - t_psi lens x y else TD in
  let TD := if geometric then
    let '(ax, ay) := t_deflection lens x y in
    let fp := Cst (1 / 2) * (ax ^ 2 + ay ^ 2) in TD + fp else TD in
  t_arcsec2_to_days z_s (t_z lens) * TD.

(** ** multiplane.py *)
Section Helper.
Variables (lenses : list t_thin) (z_s : R) (shapiro geometric : bool).
Let z_ls := map t_z lenses.
Definition t_state : Type := (expr * expr * expr * expr * expr)%type.
(** multiplane.py:92 *)
Definition t_z_next (i last : nat) : result R := if Nat.eqb i last then Ok z_s else py_get z_ls (i + 1).
(** multiplane.py:107-116 *)
Definition t_plane_delay (lens : t_thin) (D_l D D_is D_next D_s X Y ax ay : expr) : expr :=
  let tau_ij := Cst (1 + t_z lens) * D_l * D_next / (D * Cst c_Mpc_s) / Cst days_to_seconds in
  let t1 := if shapiro then
      let beta_ij := D * D_s / (D_next * D_is) in
      (- tau_ij * beta_ij * Cst (arcsec_to_rad ^ 2)) * t_psi lens (X * Cst rad_to_arcsec / D_l) (Y * Cst rad_to_arcsec / D_l)
    else Cst 0 in
  let t2 := if geometric then (tau_ij * Cst (arcsec_to_rad ^ 2) * Cst (1 / 2)) * (ax ^ 2 + ay ^ 2) else Cst 0 in
  t1 + t2.
(** multiplane.py:91-120, one iteration *)
Definition t_plane_step (last : nat) (D_s : expr) (i : nat) (st : t_state) : result t_state :=
  let '(X, Y, theta_x, theta_y, TD) := st in
  bind (t_z_next i last) (fun z_next =>
  bind (py_get lenses i) (fun lens =>
  let D_l := t_tcd (t_z lens) in
  let D := t_tcd2 (t_z lens) z_next in
  let D_is := t_tcd2 (t_z lens) z_s in
  let D_next := t_tcd z_next in
  let '(alpha_x, alpha_y) := t_physical_deflection lens z_s (X * Cst rad_to_arcsec / D_l) (Y * Cst rad_to_arcsec / D_l) in
  let theta_x := theta_x - alpha_x in
  let theta_y := theta_y - alpha_y in
  let TD := if (shapiro || geometric)%bool then TD + t_plane_delay lens D_l D D_is D_next D_s X Y alpha_x alpha_y else TD in
  Ok (X + D * theta_x * Cst arcsec_to_rad, Y + D * theta_y * Cst arcsec_to_rad, theta_x, theta_y, TD))).
(** multiplane.py:66-123 *)
Definition t_raytrace_core (x y : expr) : result (expr * expr * expr) :=
  let planes := lens_planes z_ls in
  let D_s := t_tcd z_s in
  bind (py_get planes 0) (fun first =>
  bind (py_get planes (length planes - 1)) (fun last =>
  bind (py_get z_ls first) (fun z0 =>
  let D := t_tcd z0 in
  bind (for_loop (t_plane_step last D_s) planes (x * Cst arcsec_to_rad * D, y * Cst arcsec_to_rad * D, x, y, Cst 0)) (fun st =>
  let '(X, Y, _, _, TD) := st in
  let D_end := t_tcd z_s in
  Ok (X * Cst rad_to_arcsec / D_end, Y * Cst rad_to_arcsec / D_end, TD))))).
End Helper.
(** multiplane.py:135-200, 203-209, 250-312 *)
Definition t_multiplane_raytrace (lenses : list t_thin) (z_s : R) (x y : expr) : result (expr * expr) :=
  bind (t_raytrace_core lenses z_s false false x y) (fun r => Ok (fst r)).
Definition t_multiplane_effective_deflection (lenses : list t_thin) (z_s : R) (x y : expr) : result (expr * expr) :=
  bind (t_multiplane_raytrace lenses z_s x y) (fun b => Ok (x - fst b, y - snd b)).
Definition t_multiplane_time_delay (lenses : list t_thin) (z_s : R) (x y : expr) (shapiro geometric : bool) : result expr :=
  bind (t_raytrace_core lenses z_s shapiro geometric x y) (fun r => if (shapiro || geometric)%bool then Ok (snd r) else Raise ValueError).
End Cosmology.
