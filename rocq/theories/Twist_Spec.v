(** * How light that passes several planes is focused, sheared and turned *)
From Coq Require Import Reals List.
From Coquelicot Require Import Coquelicot.
From Verif Require Import Calc2 LensBase_Model Multiplane_Props.
Local Open Scope R_scope.

(** convergence and shear of one lens at one place *)
Record tide := Tide { conv : R; gam1 : R; gam2 : R }.
Definition has_tide (t : thin_lens) (p : R * R) (u : tide) : Prop :=
  D2 (fun a b => fst (reduced_deflection_angle t a b)) (fst p) (snd p) (conv u + gam1 u) (gam2 u) /\
  D2 (fun a b => snd (reduced_deflection_angle t a b)) (fst p) (snd p) (gam2 u) (conv u - gam1 u).
Definition tides (lenses : list thin_lens) (th : nat -> R * R) (u : nat -> tide) : Prop :=
  forall i t, nth_error lenses i = Some t -> has_tide t (th i) (u i).
(** share of the deflection at redshift [a] that is seen at redshift [b]; it is one at the source *)
Definition share (D : R -> R) (z_s a b : R) : R := (D b - D a) * D z_s / (D b * (D z_s - D a)).
(** the matrices of the planes, each from the ones before it *)
Definition matrices (D : R -> R) (z_s : R) (lenses : list thin_lens) (u : nat -> tide) (A : nat -> mat2) : Prop :=
  forall j, (j <= length lenses)%nat ->
    let w i := share D z_s (redshift lenses z_s i) (redshift lenses z_s j) in
    m00 (A j) = 1 - Sum j (fun i => w i * ((conv (u i) + gam1 (u i)) * m00 (A i) + gam2 (u i) * m10 (A i))) /\
    m01 (A j) = 0 - Sum j (fun i => w i * ((conv (u i) + gam1 (u i)) * m01 (A i) + gam2 (u i) * m11 (A i))) /\
    m10 (A j) = 0 - Sum j (fun i => w i * (gam2 (u i) * m00 (A i) + (conv (u i) - gam1 (u i)) * m10 (A i))) /\
    m11 (A j) = 1 - Sum j (fun i => w i * (gam2 (u i) * m01 (A i) + (conv (u i) - gam1 (u i)) * m11 (A i))).
(** lenses in front of one another, distances in order *)
Definition line_up (D : R -> R) (z_s : R) (lenses : list thin_lens) : Prop :=
  lenses <> nil /\ Sorting.Sorted.StronglySorted Rle (map z_l lenses) /\ (forall t, In t lenses -> D (z_l t) <> 0 /\ D z_s <> D (z_l t)) /\ D z_s <> 0 /\ 1 + z_s <> 0.
(** a lens that is round about a point *)
Definition round_about (x0 y0 : R) (t : thin_lens) : Prop :=
  exists g : R -> R, forall x y, let m := g ((x - x0) ^ 2 + (y - y0) ^ 2) in reduced_deflection_angle t x y = (m * (x - x0), m * (y - y0)).
