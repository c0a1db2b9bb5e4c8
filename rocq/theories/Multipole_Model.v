(** * Multipole lens (model of src/caustics/lenses/func/multipole.py and lenses/multipole.py)

    The tensors m, a_m and phi_m have one shape and are a list of triples (order, amplitude, angle).  The orders are integers (multipole.py:74);
    their int32 range is not modelled. *)
From Coq Require Import Reals ZArith List.
From Verif Require Import Py RealFun Geo_Model.
Import ListNotations.
Local Open Scope R_scope.

Definition order : Type := (Z * R * R)%type.
(** backend.sum(..., dim=0) *)
Definition msum (f : order -> R) (l : list order) : R := fold_right (fun a s => f a + s) 0 l.
(** lenses/multipole.py:74-75: the assertion of the constructor *)
Definition orders_accepted (l : list order) : bool := forallb (fun '(m, _, _) => (2 <=? m)%Z) l.

(** func/multipole.py:5-48 *)
Definition reduced_deflection_angle_multipole (x0 y0 : R) (l : list order) (x y : R) : R * R :=
  let '(x, y) := translate_rotate x y x0 y0 None in
  let phi := atan2 y x in
  (msum (fun '(m, a_m, phi_m) => let m := IZR m in
     cos phi * a_m / (1 - m ^ 2) * cos (m * (phi - phi_m)) + sin phi * m * a_m / (1 - m ^ 2) * sin (m * (phi - phi_m))) l,
   msum (fun '(m, a_m, phi_m) => let m := IZR m in
     sin phi * a_m / (1 - m ^ 2) * cos (m * (phi - phi_m)) - cos phi * m * a_m / (1 - m ^ 2) * sin (m * (phi - phi_m))) l).
(** func/multipole.py:51-91 *)
Definition potential_multipole (x0 y0 : R) (l : list order) (x y : R) : R :=
  let '(x, y) := translate_rotate x y x0 y0 None in
  let r := sqrt (x ^ 2 + y ^ 2) in
  let phi := atan2 y x in
  msum (fun '(m, a_m, phi_m) => let m := IZR m in r * a_m / (1 - m ^ 2) * cos (m * (phi - phi_m))) l.
(** func/multipole.py:94-134 *)
Definition convergence_multipole (x0 y0 : R) (l : list order) (x y : R) : R :=
  let '(x, y) := translate_rotate x y x0 y0 None in
  let r := sqrt (x ^ 2 + y ^ 2) in
  let phi := atan2 y x in
  msum (fun '(m, a_m, phi_m) => let m := IZR m in 1 / (2 * r) * a_m * cos (m * (phi - phi_m))) l.
