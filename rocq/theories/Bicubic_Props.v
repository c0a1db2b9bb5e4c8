(** * C11, C12, C77: bicubic interpolation and PixelatedPotential *)
From Coq Require Import Reals List Lra Lia.
From Coquelicot Require Import Coquelicot.
From Verif Require Import Py Calc2 Lens_Spec Interp2_Spec Bicubic_Model Bicubic_Proofs Bicubic2_Proofs.
Import ListNotations.
Open Scope R_scope.

(** at a pixel centre the supplied value, x-, y- and cross derivative come back *)
Theorem C11_supplied_data : forall dx dy h w Z dZ1 dZ2 dZ12 i j, (dx <= 1)%nat -> (dy <= 1)%nat ->
  (2 <= h)%nat -> (2 <= w)%nat -> (i < h)%nat -> (j < w)%nat -> exists Y11 Y22,
  interp_bicubic (2%nat, dx, dy) h w (centre w j) (centre h i) Z (Some dZ1) (Some dZ2) (Some dZ12) true true true =
  Ok [Z i j; dZ1 i j; dZ2 i j; dZ12 i j; Y11; Y22].
Proof. exact supplied_data. Qed.
Print Assumptions C11_supplied_data.
(** the six returned numbers are one function and its derivatives; one pixel is 2/w by 2/h in query units.
    Value, first and cross derivatives are right and continuous across cell boundaries too, the pure second derivatives
    inside each cell. *)
Theorem C11_true_derivatives : forall dx dy h w Z dZ1 dZ2 dZ12, (dx <= 1)%nat -> (dy <= 1)%nat -> (2 <= h)%nat -> (2 <= w)%nat ->
  exists Y Y1 Y2 Y12 Y11 Y22 : R -> R -> R,
  (forall x y get_Y get_dY get_ddY, interp_bicubic (2%nat, dx, dy) h w x y Z dZ1 dZ2 dZ12 get_Y get_dY get_ddY =
     Ok ((if get_Y then [Y x y] else []) ++ (if get_dY then [Y1 x y; Y2 x y] else []) ++
         (if get_ddY then [Y12 x y; Y11 x y; Y22 x y] else []))%list) /\
  (forall x y, continuity_2d_pt Y x y /\ continuity_2d_pt Y1 x y /\ continuity_2d_pt Y2 x y /\ continuity_2d_pt Y12 x y) /\
  (forall x y, -1 < x < 1 -> -1 < y < 1 ->
     D2 Y x y (INR w / 2 * Y1 x y) (INR h / 2 * Y2 x y) /\
     is_derive (fun v => Y1 x v) y (INR h / 2 * Y12 x y) /\ is_derive (fun u => Y2 u y) x (INR w / 2 * Y12 x y)) /\
  (forall x y, -1 < x < 1 -> -1 < y < 1 ->
     (forall j, (1 <= j <= w - 2)%nat -> x <> centre w j) -> (forall i, (1 <= i <= h - 2)%nat -> y <> centre h i) ->
     D2 Y1 x y (INR w / 2 * Y11 x y) (INR h / 2 * Y12 x y) /\ D2 Y2 x y (INR w / 2 * Y12 x y) (INR h / 2 * Y22 x y)).
Proof. exact returned_derivatives. Qed.
Print Assumptions C11_true_derivatives.
Theorem C11_errors : forall dz dx dy h w x y Z dZ1 dZ2 dZ12 g1 g2 g3, dz <> 2%nat \/ (1 < dx)%nat \/ (1 < dy)%nat ->
  interp_bicubic (dz, dx, dy) h w x y Z dZ1 dZ2 dZ12 g1 g2 g3 = Raise ValueError.
Proof. exact bicubic_errors. Qed.
Print Assumptions C11_errors.
(** a 3 by 4 grid; the query is inside a cell *)
Example C11_hyps : (2 <= 3)%nat /\ (2 <= 4)%nat /\ -1 < 1 / 10 < 1 /\
  (forall j, (1 <= j <= 4 - 2)%nat -> 1 / 10 <> centre 4 j) /\ (forall i, (1 <= i <= 3 - 2)%nat -> 1 / 10 <> centre 3 i).
Proof.
  split; [lia|]. split; [lia|]. split; [lra|]. unfold centre. split; intros j Hj.
  - assert (J : (j = 1 \/ j = 2)%nat) by lia. destruct J as [-> | ->]; simpl; lra.
  - assert (J : (j = 1)%nat) by lia. subst. simpl; lra.
Qed.

(** The default derivative estimates have the sign reversed and the axes exchanged.  For every size and every affine map,
    at every pixel centre, with gradient (b, c) per pixel: *)
Theorem C12_actual_default_deflection_partial : forall h w, (2 <= h)%nat -> (2 <= w)%nat -> forall map x0 y0 pixelscale, 0 < pixelscale ->
  forall a b c i j, (forall i j, (i < h)%nat -> (j < w)%nat -> map i j = a + b * INR j + c * INR i) ->
  (i < h)%nat -> (j < w)%nat ->
  let x := x0 + (INR j + 1 / 2 - INR w / 2) * pixelscale in
  let y := y0 + (INR i + 1 / 2 - INR h / 2) * pixelscale in
  pp_potential h w map x0 y0 pixelscale x y = Ok (map i j) /\
  pp_reduced_deflection_angle h w map x0 y0 pixelscale x y = Ok (- c / pixelscale, - b / pixelscale).
Proof. exact pp_affine. Qed.
Print Assumptions C12_actual_default_deflection_partial.
(** for a quadratic map, off the border: the estimates by row and by column are minus the derivatives, the mixed one is right *)
Theorem C12_actual_kernels_partial : forall h w Z d1 d2 a b c d e f i j, d1 <> 0 -> d2 <> 0 -> (0 < i < h - 1)%nat -> (0 < j < w - 1)%nat ->
  (forall i j, (i < h)%nat -> (j < w)%nat -> Z i j = a + b * INR j + c * INR i + d * INR i * INR j + e * INR j ^ 2 + f * INR i ^ 2) ->
  kernel_dZ1 h Z d1 i j = - (c + d * INR j + 2 * f * INR i) / d1 /\ kernel_dZ2 w Z d2 i j = - (b + d * INR i + 2 * e * INR j) / d2 /\
  kernel_dZ12 h w Z d1 d2 i j = d / (d1 * d2).
Proof. exact default_quadratic. Qed.
Print Assumptions C12_actual_kernels_partial.
(** so an affine potential does not deflect along its gradient (b, c) / pixelscale *)
Theorem C12_deflection_refuted : exists h w map x0 y0 pixelscale b c x y alpha, (2 <= h)%nat /\ (2 <= w)%nat /\ 0 < pixelscale /\
  (forall i j, (i < h)%nat -> (j < w)%nat -> map i j = b * INR j + c * INR i) /\
  pp_reduced_deflection_angle h w map x0 y0 pixelscale x y = Ok alpha /\ alpha <> (b / pixelscale, c / pixelscale).
Proof.
  exists 3%nat, 3%nat, (fun i j => 1 * INR j + 0 * INR i), 0, 0, 1, 1, 0.
  exists (0 + (INR 1 + 1 / 2 - INR 3 / 2) * 1), (0 + (INR 1 + 1 / 2 - INR 3 / 2) * 1), (- 0 / 1, - 1 / 1).
  split; [lia|]. split; [lia|]. split; [lra|]. split; [reflexivity|]. split.
  - apply (pp_affine 3 3 ltac:(lia) ltac:(lia) (fun i j => 1 * INR j + 0 * INR i) 0 0 1 ltac:(lra) 0 1 0 1 1); try lia. intros; ring.
  - intros E. injection E as E1 E2. lra.
Qed.
Print Assumptions C12_deflection_refuted.
(** nor is the affine map itself reproduced between pixel centres: 5/32 instead of 1/4 *)
Theorem C12_value_refuted : exists h w map x y v, (2 <= h)%nat /\ (2 <= w)%nat /\
  (forall i j, (i < h)%nat -> (j < w)%nat -> map i j = centre w j + 1 / 2) /\ centre w 0 < x < centre w (w - 1) /\ y = centre h 0 /\
  interp_bicubic (2, 0, 0)%nat h w x y map None None None true false false = Ok [v] /\ v <> x + 1 / 2.
Proof.
  exists 2%nat, 2%nat, (fun i j => INR j), (- / 4), (centre 2 0), (5 / 32).
  split; [lia|]. split; [lia|]. split.
  { intros i j Hi Hj. assert (J : (j = 0 \/ j = 1)%nat) by lia. destruct J as [-> | ->]; unfold centre; simpl; field. }
  split; [unfold centre; simpl; lra|]. split; [reflexivity|]. split; [exact value_not_reproduced|lra].
Qed.
Print Assumptions C12_value_refuted.
(** with the right derivative maps supplied, affine maps are reproduced everywhere *)
Theorem C12_supplied_affine_partial : forall dx dy h w Z dZ1 dZ2 dZ12 a b c x y, (dx <= 1)%nat -> (dy <= 1)%nat -> (2 <= h)%nat -> (2 <= w)%nat ->
  (forall i j, (i < h)%nat -> (j < w)%nat -> Z i j = a + b * centre w j + c * centre h i) ->
  (forall i j, (i < h)%nat -> (j < w)%nat -> dZ1 i j = b * (2 / INR w)) ->
  (forall i j, (i < h)%nat -> (j < w)%nat -> dZ2 i j = c * (2 / INR h)) ->
  (forall i j, (i < h)%nat -> (j < w)%nat -> dZ12 i j = 0) -> -1 <= x <= 1 -> -1 <= y <= 1 ->
  interp_bicubic (2%nat, dx, dy) h w x y Z (Some dZ1) (Some dZ2) (Some dZ12) true true false =
  Ok [a + b * x + c * y; b * (2 / INR w); c * (2 / INR h)].
Proof. exact supplied_affine. Qed.
Print Assumptions C12_supplied_affine_partial.
Example C12_hyps : (2 <= 3)%nat /\ (2 <= 4)%nat /\ exists Z, Z 1%nat 2%nat <> Z 0%nat 0%nat /\
  forall i j, (i < 3)%nat -> (j < 4)%nat -> Z i j = 1 + 2 * centre 4 j + 3 * centre 3 i.
Proof.
  split; [lia|]. split; [lia|]. exists (fun i j => 1 + 2 * centre 4 j + 3 * centre 3 i). split; [unfold centre; simpl; lra|reflexivity].
Qed.

(** PixelatedPotential agrees with itself: whatever the map, inside the grid *)
Theorem C77_pixelated_potential_consistent : forall h w, (2 <= h)%nat -> (2 <= w)%nat -> forall map x0 y0 pixelscale, 0 < pixelscale ->
  exists psi alpha kappa,
  (forall x y, pp_potential h w map x0 y0 pixelscale x y = Ok (psi x y)) /\
  (forall x y, pp_reduced_deflection_angle h w map x0 y0 pixelscale x y = Ok (alpha x y)) /\
  (forall x y, pp_convergence h w map x0 y0 pixelscale x y = Ok (kappa x y)) /\
  (forall x y, Rabs (x - x0) < INR w * pixelscale / 2 -> Rabs (y - y0) < INR h * pixelscale / 2 -> deflection_is_gradient psi alpha x y) /\
  (forall x y, Rabs (x - x0) < INR w * pixelscale / 2 -> Rabs (y - y0) < INR h * pixelscale / 2 ->
    (forall j, (1 <= j <= w - 2)%nat -> x <> x0 + (INR j + 1 / 2 - INR w / 2) * pixelscale) ->
    (forall i, (1 <= i <= h - 2)%nat -> y <> y0 + (INR i + 1 / 2 - INR h / 2) * pixelscale) ->
    convergence_is_half_divergence alpha kappa x y).
Proof.
  intros h w Hh Hw map x0 y0 ps Hps. exists (pp_psi h w map x0 y0 ps), (pp_alpha h w map x0 y0 ps), (pp_kappa h w map x0 y0 ps).
  split; [exact (pp_psi_ok h w Hh Hw map x0 y0 ps)|]. split; [exact (pp_alpha_ok h w Hh Hw map x0 y0 ps)|].
  split; [exact (pp_kappa_ok h w Hh Hw map x0 y0 ps)|].
  split; [exact (pp_gradient h w Hh Hw map x0 y0 ps Hps)|exact (pp_divergence h w Hh Hw map x0 y0 ps Hps)].
Qed.
Print Assumptions C77_pixelated_potential_consistent.
Example C77_hyps : Rabs (1 / 5 - 0) < INR 3 * 1 / 2 /\ (forall j, (1 <= j <= 3 - 2)%nat -> 1 / 5 <> 0 + (INR j + 1 / 2 - INR 3 / 2) * 1).
Proof.
  split; [rewrite Rabs_right; simpl; lra|]. intros j Hj. assert (J : (j = 1)%nat) by lia. subst. simpl; lra.
Qed.
