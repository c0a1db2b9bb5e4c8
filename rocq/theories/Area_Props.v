(** * C139: magnification is image area over source area *)
From Coq Require Import Reals String.
From Coquelicot Require Import Coquelicot.
From Verif Require Import Py Lens_Spec LensBase_Model LensBasic_Model Area_Spec Area_Proofs.
Local Open Scope string_scope.
Local Open Scope R_scope.

(** For triangles of any shape that shrink to a position, area on the sky over area of the ray-traced triangle tends to the magnification; where that is
    infinite, the traced area vanishes faster than the area on the sky. *)
Theorem C139_area : forall alpha x y u v w, differentiable_at alpha x y -> cross3 u v w <> 0 ->
  match magnification alpha x y with
  | Some mu => is_lim (fun h => image_area x y u v w h / source_area (raytrace alpha) x y u v w h) 0 mu
  | None => is_lim (fun h => source_area (raytrace alpha) x y u v w h / image_area x y u v w h) 0 0
  end.
Proof. exact magnification_area. Qed.
Print Assumptions C139_area.
(** Small triangles keep their orientation where the determinant of the Jacobian of the lens equation is positive, and are mirrored where it is negative. *)
Theorem C139_parity : forall alpha x y u v w shape X Y ps i j, differentiable_at alpha x y -> cross3 u v w <> 0 -> X i j = x -> Y i j = y ->
  exists A, jacobian_lens_equation alpha shape X Y "autograd" ps = Ok A /\
  let d := m00 (A i j) * m11 (A i j) - m01 (A i j) * m10 (A i j) in
  d <> 0 -> Rbar_locally' 0 (fun h => 0 < d * orientation (raytrace alpha) x y u v w h).
Proof. exact parity_area. Qed.
Print Assumptions C139_parity.
(** Under a lens with a constant Jacobian (sheets and shears) every triangle, of any size, is magnified exactly. *)
Theorem C139_affine : forall a b e c d f p q r mu, let alpha x y := (a * x + b * y + e, c * x + d * y + f) in
  magnification alpha (fst p) (snd p) = Some mu ->
  area p q r = mu * area (raytrace alpha (fst p) (snd p)) (raytrace alpha (fst q) (snd q)) (raytrace alpha (fst r) (snd r)).
Proof. exact affine_area. Qed.
Print Assumptions C139_affine.
(** The hypothesis holds for every lens whose potential, deflection and convergence are consistent, so for the lenses of C42 to C55 where they are. *)
Theorem C139_lenses : (forall psi alpha kappa x y, lens_consistent psi alpha kappa x y -> differentiable_at alpha x y) /\
  (forall x0 y0 kappa x y, differentiable_at (reduced_deflection_angle_mass_sheet x0 y0 kappa) x y) /\
  (forall x0 y0 g1 g2 x y, differentiable_at (reduced_deflection_angle_external_shear x0 y0 g1 g2) x y) /\
  (forall x0 y0 Rein x y, x <> x0 \/ y <> y0 -> differentiable_at (reduced_deflection_angle_sis x0 y0 Rein 0) x y) /\
  (forall x0 y0 Rein x y, x <> x0 \/ y <> y0 -> differentiable_at (reduced_deflection_angle_point x0 y0 Rein 0) x y).
Proof. exact (conj consistent_differentiable (conj sheet_diff (conj shear_diff (conj sis_diff point_diff)))). Qed.
Print Assumptions C139_lenses.
Example C139_hyps : differentiable_at (reduced_deflection_angle_sis 0 0 1 0) 3 0 /\ cross3 (0, 0) (1, 0) (0, 1) <> 0 /\
  magnification (fun x y => (1 / 2 * x + 0 * y + 0, 0 * x + 1 / 2 * y + 0)) 0 0 = Some 4.
Proof. exact area_hyps. Qed.
