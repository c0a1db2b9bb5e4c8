(** * Multi-plane lensing (model of src/caustics/lenses/multiplane.py:35-132, 135-209, 250-312). *)
From Coq Require Import Reals List.
From Verif Require Import Py Const_Model Cosmo_Model LensBase_Model.
Import ListNotations.
Open Scope R_scope.

(** a division whose zero denominator (inf or NaN in the code) is visible *)
Definition odiv (a b : R) : option R := if Req_EM_T b 0 then None else Some (a / b).

Section Multiplane.
(** the cosmology: comoving and transverse comoving distance to a redshift *)
Variable comoving_distance : R -> R.
Variable transverse_comoving_distance : R -> R.
Local Notation cd := comoving_distance.
Local Notation tcd := transverse_comoving_distance.
Local Notation tcd2 := (transverse_comoving_distance_z1z2 tcd).

(** multiplane.py:76-77 *)
Definition lens_planes (z_ls : list R) : list nat :=
  map fst (py_sorted snd (enumerate z_ls)).

(** loop state: X, Y, theta_x, theta_y, TD (None: inf or NaN) *)
Definition mp_state : Type := R * R * R * R * option R.

Section Helper.
Variables (lenses : list thin_lens) (z_s : R) (shapiro geometric : bool).
Let z_ls := map z_l lenses.

(** multiplane.py:92 *)
Definition z_next_of (i last : nat) : result R :=
  if Nat.eqb i last then Ok z_s else py_get z_ls (i + 1).

(** multiplane.py:107-116: what one plane adds to the time delay *)
Definition plane_delay (lens : thin_lens) (D_l D D_is D_next D_s X Y ax ay : R) : option R :=
  match odiv ((1 + z_l lens) * D_l * D_next) (D * c_Mpc_s) with
  | None => None
  | Some q =>
    let tau_ij := q / days_to_seconds in
    let t1 :=
      if shapiro then
        match odiv (D * D_s) (D_next * D_is) with
        | None => None
        | Some beta_ij =>
          Some ((- tau_ij * beta_ij * arcsec_to_rad ^ 2)
                * potential lens (X * rad_to_arcsec / D_l) (Y * rad_to_arcsec / D_l))
        end
      else Some 0 in
    let t2 := if geometric then (tau_ij * arcsec_to_rad ^ 2 * (1 / 2)) * (ax ^ 2 + ay ^ 2) else 0 in
    match t1 with None => None | Some a => Some (a + t2) end
  end.

(** multiplane.py:91-120, one iteration *)
Definition plane_step (last : nat) (D_s : R) (i : nat) (st : mp_state) : result mp_state :=
  let '(X, Y, theta_x, theta_y, TD) := st in
  bind (z_next_of i last) (fun z_next =>
  bind (py_get lenses i) (fun lens =>
  let D_l := tcd (z_l lens) in
  let D := tcd2 (z_l lens) z_next in
  let D_is := tcd2 (z_l lens) z_s in
  let D_next := tcd z_next in
  let '(alpha_x, alpha_y) :=
    physical_deflection_angle cd lens z_s (X * rad_to_arcsec / D_l) (Y * rad_to_arcsec / D_l) in
  let theta_x := theta_x - alpha_x in
  let theta_y := theta_y - alpha_y in
  let TD := if (shapiro || geometric)%bool then
      match TD, plane_delay lens D_l D D_is D_next D_s X Y alpha_x alpha_y with
      | Some a, Some b => Some (a + b) | _, _ => None end
    else TD in
  Ok (X + D * theta_x * arcsec_to_rad, Y + D * theta_y * arcsec_to_rad, theta_x, theta_y, TD))).

(** multiplane.py:66-123 up to the choice of what to return; the result is the position on the
    source plane and the delay *)
Definition raytrace_core (x y : R) : result (R * R * option R) :=
  let planes := lens_planes z_ls in
  let D_s := tcd z_s in
  bind (py_get planes 0) (fun first =>
  bind (py_get planes (length planes - 1)) (fun last =>
  bind (py_get z_ls first) (fun z0 =>
  let D := tcd z0 in
  bind (for_loop (plane_step last D_s) planes
          (x * arcsec_to_rad * D, y * arcsec_to_rad * D, x, y, Some 0)) (fun st =>
  let '(X, Y, _, _, TD) := st in
  let D_end := tcd z_s in
  Ok (X * rad_to_arcsec / D_end, Y * rad_to_arcsec / D_end, TD))))).
End Helper.

(** multiplane.py:135-200 *)
Definition multiplane_raytrace (lenses : list thin_lens) (z_s x y : R) : result (R * R) :=
  bind (raytrace_core lenses z_s false false x y) (fun r => Ok (fst r)).
(** multiplane.py:250-312; with both flags off nothing is asked for (130-132) *)
Definition multiplane_time_delay (lenses : list thin_lens) (z_s x y : R) (shapiro geometric : bool)
  : result (option R) :=
  bind (raytrace_core lenses z_s shapiro geometric x y) (fun r =>
  if (shapiro || geometric)%bool then Ok (snd r) else Raise ValueError).
(** multiplane.py:203-209 *)
Definition multiplane_effective_deflection (lenses : list thin_lens) (z_s x y : R) : result (R * R) :=
  bind (multiplane_raytrace lenses z_s x y) (fun b => Ok (x - fst b, y - snd b)).
End Multiplane.
