(** * C104: the unit of angle does not matter *)
From Coq Require Import Reals Lra ZArith List String.
From Coquelicot Require Import Coquelicot.
From Verif Require Import Py Calc2 Cosmo_Model LensBase_Model LensBasic_Model Epl_Model Multipole_Model Jaffe_Model Tnfw_Model Light_Model PixConv_Model Scale_Spec Scale_Proofs Scale2_Proofs Scale3_Proofs.
Import ListNotations.
Local Open Scope R_scope.

Theorem C104_mass_sheet : forall l x0 y0 x y kappa, lens_scales l (potential_mass_sheet x0 y0 kappa) (potential_mass_sheet (l * x0) (l * y0) kappa)
  (reduced_deflection_angle_mass_sheet x0 y0 kappa) (reduced_deflection_angle_mass_sheet (l * x0) (l * y0) kappa)
  (fun u _ => convergence_mass_sheet kappa u) (fun u _ => convergence_mass_sheet kappa u) x y.
Proof. exact sheet_scales. Qed.
Theorem C104_external_shear : forall l x0 y0 x y g1 g2, lens_scales l (potential_external_shear x0 y0 g1 g2) (potential_external_shear (l * x0) (l * y0) g1 g2)
  (reduced_deflection_angle_external_shear x0 y0 g1 g2) (reduced_deflection_angle_external_shear (l * x0) (l * y0) g1 g2)
  convergence_external_shear convergence_external_shear x y.
Proof. exact shear_scales. Qed.
Theorem C104_sis : forall l x0 y0 x y, 0 < l -> x <> x0 \/ y <> y0 -> forall Rein s, 0 <= s ->
  lens_scales l (potential_sis x0 y0 Rein s) (potential_sis (l * x0) (l * y0) (l * Rein) (l * s))
  (reduced_deflection_angle_sis x0 y0 Rein s) (reduced_deflection_angle_sis (l * x0) (l * y0) (l * Rein) (l * s))
  (convergence_sis x0 y0 Rein s) (convergence_sis (l * x0) (l * y0) (l * Rein) (l * s)) x y.
Proof. exact sis_scales. Qed.
(** The logarithm of the potential of a point mass adds a constant. *)
Theorem C104_point : forall l x0 y0 x y Rein s, 0 < l -> x <> x0 \/ y <> y0 -> 0 <= s ->
  deflection_scales l (reduced_deflection_angle_point x0 y0 Rein s) (reduced_deflection_angle_point (l * x0) (l * y0) (l * Rein) (l * s)) x y /\
  potential_scales_up_to ((l * Rein) ^ 2 * ln l) l (potential_point x0 y0 Rein s) (potential_point (l * x0) (l * y0) (l * Rein) (l * s)) x y /\
  convergence_point (l * x0) (l * y0) (l * x) (l * y) = convergence_point x0 y0 x y.
Proof. exact point_lens_scales. Qed.
(** The potential of SIE replaces core radii below 1e-6 by 1e-6, a number with a unit. *)
Theorem C104_sie_partial : forall l x0 y0 x y q phi Rein s, 0 < l -> x <> x0 \/ y <> y0 -> 0 < q <= 1 -> 0 <= s ->
  deflection_scales l (reduced_deflection_angle_sie x0 y0 q phi Rein s) (reduced_deflection_angle_sie (l * x0) (l * y0) q phi (l * Rein) (l * s)) x y /\
  convergence_scales l (convergence_sie x0 y0 q phi Rein s) (convergence_sie (l * x0) (l * y0) q phi (l * Rein) (l * s)) x y /\
  (s = 0 \/ 1 / 10 ^ 6 <= s /\ 1 / 10 ^ 6 <= l * s -> potential_scales l (potential_sie x0 y0 q phi Rein s) (potential_sie (l * x0) (l * y0) q phi (l * Rein) (l * s)) x y).
Proof. exact sie_lens_scales. Qed.
Theorem C104_sie_tiny_core_refuted : forall l x0 y0 x y q phi Rein s, 0 < l -> x <> x0 \/ y <> y0 -> 0 < q <= 1 -> 0 <= s -> 0 < s < 1 / 10 ^ 6 -> 1 < l -> 0 < Rein ->
  ~ potential_scales l (potential_sie x0 y0 q phi Rein s) (potential_sie (l * x0) (l * y0) q phi (l * Rein) (l * s)) x y.
Proof. exact sie_tiny_core. Qed.
(** Every chunk size, also those that raise. *)
Theorem C104_epl : forall l x0 y0 q phi Rein t n c x y s, 0 < l -> 0 < q -> x <> x0 \/ y <> y0 ->
  reduced_deflection_angle_epl (l * x0) (l * y0) q phi (l * Rein) t n c (l * x) (l * y) = bind (reduced_deflection_angle_epl x0 y0 q phi Rein t n c x y) (fun a => Ok (l * fst a, l * snd a)) /\
  potential_epl (l * x0) (l * y0) q phi (l * Rein) t n c (l * x) (l * y) = bind (potential_epl x0 y0 q phi Rein t n c x y) (fun p => Ok (l ^ 2 * p)) /\
  convergence_scales l (convergence_epl x0 y0 q phi Rein t s) (convergence_epl (l * x0) (l * y0) q phi (l * Rein) t (l * s)) x y.
Proof. exact epl_lens_scales. Qed.
(** [larger l o]: the amplitudes, which are angles, are l times larger. *)
Theorem C104_multipole : forall l x0 y0 o x y, 0 < l -> x <> x0 \/ y <> y0 ->
  lens_scales l (potential_multipole x0 y0 o) (potential_multipole (l * x0) (l * y0) (larger l o))
  (reduced_deflection_angle_multipole x0 y0 o) (reduced_deflection_angle_multipole (l * x0) (l * y0) (larger l o))
  (convergence_multipole x0 y0 o) (convergence_multipole (l * x0) (l * y0) (larger l o)) x y.
Proof. exact multipole_scales. Qed.
(** The mass is larger by l squared when angles are l times larger at the same distance.  Without softening, as the class calls these functions. *)
Theorem C104_pseudo_jaffe_partial : forall l x0 y0 mass Rc Rs x y d_l d_s d_ls sigma, 0 < l -> x <> x0 \/ y <> y0 -> 0 < Rc -> 0 < Rs -> Rc <> Rs -> 0 < d_l -> d_s <> 0 -> 0 < sigma ->
  deflection_scales l (fun u v => reduced_deflection_angle_pseudo_jaffe x0 y0 mass Rc Rs u v d_l sigma 0) (fun u v => reduced_deflection_angle_pseudo_jaffe (l * x0) (l * y0) (l ^ 2 * mass) (l * Rc) (l * Rs) u v d_l sigma 0) x y /\
  convergence_scales l (fun u v => convergence_pseudo_jaffe x0 y0 mass Rc Rs u v d_l sigma 0) (fun u v => convergence_pseudo_jaffe (l * x0) (l * y0) (l ^ 2 * mass) (l * Rc) (l * Rs) u v d_l sigma 0) x y /\
  exists c, forall u v, potential_scales_up_to c l (fun u v => potential_pseudo_jaffe x0 y0 mass Rc Rs u v d_l d_s d_ls 0) (fun u v => potential_pseudo_jaffe (l * x0) (l * y0) (l ^ 2 * mass) (l * Rc) (l * Rs) u v d_l d_s d_ls 0) u v.
Proof. exact jaffe_lens_scales. Qed.
(** The functional interface adds a softening, an angle, to the square of a radius. *)
Theorem C104_pseudo_jaffe_softened_refuted : forall l x0 y0 mass Rc Rs x y d_l sigma s, 0 < l -> l <> 1 -> 0 < mass -> 0 < Rc < Rs -> 0 < d_l -> 0 < sigma -> 0 < s ->
  ~ convergence_scales l (fun u v => convergence_pseudo_jaffe x0 y0 mass Rc Rs u v d_l sigma s)
      (fun u v => convergence_pseudo_jaffe (l * x0) (l * y0) (l ^ 2 * mass) (l * Rc) (l * Rs) u v d_l sigma (l * s)) x y.
Proof. exact jaffe_softened_depends. Qed.
(** TNFW whose mass parameter is the total mass. *)
Theorem C104_tnfw : forall dc rho_c l z_s z_l x0 y0 mass Rs tau s x y, 0 < l -> x <> x0 \/ y <> y0 -> 0 < Rs -> 0 <= s -> 0 < angular_diameter_distance dc z_l -> critical_surface_density dc z_l z_s <> 0 ->
  lens_scales l (tnfw_potential dc rho_c true z_s z_l x0 y0 mass Rs tau s) (tnfw_potential dc rho_c true z_s z_l (l * x0) (l * y0) (l ^ 2 * mass) (l * Rs) tau (l * s))
  (tnfw_reduced_deflection_angle dc rho_c true z_s z_l x0 y0 mass Rs tau s) (tnfw_reduced_deflection_angle dc rho_c true z_s z_l (l * x0) (l * y0) (l ^ 2 * mass) (l * Rs) tau (l * s))
  (tnfw_convergence dc rho_c true z_s z_l x0 y0 mass Rs tau s) (tnfw_convergence dc rho_c true z_s z_l (l * x0) (l * y0) (l ^ 2 * mass) (l * Rs) tau (l * s)) x y.
Proof. exact tnfw_class_scales. Qed.
(** PixelatedConvergence with a larger pixelscale, in either convolution mode and with every padding. *)
Theorem C104_pixelated_deflection : forall l ps n, 0 < l -> 0 < ps -> (1 <= n)%nat -> forall padding mode wk L0 L1 x0 y0 A sc x y,
  new_pixconv ps 2 (n, n) padding mode wk = Ok L0 -> new_pixconv (l * ps) 2 (n, n) padding mode wk = Ok L1 ->
  pc_reduced_deflection_angle L1 (l * x0) (l * y0) A sc (l * x) (l * y) = bind (pc_reduced_deflection_angle L0 x0 y0 A sc x y) (fun a => Ok (l * fst a, l * snd a)).
Proof. exact pix_deflection_scales. Qed.
Theorem C104_pixelated_convergence : forall l ps n, 0 < l -> 0 < ps -> (1 <= n)%nat -> forall padding mode wk L0 L1 x0 y0 A sc x y,
  new_pixconv ps 2 (n, n) padding mode wk = Ok L0 -> new_pixconv (l * ps) 2 (n, n) padding mode wk = Ok L1 ->
  pc_convergence L1 (l * x0) (l * y0) A sc (l * x) (l * y) = pc_convergence L0 x0 y0 A sc x y.
Proof. exact pix_convergence_scales. Qed.
Theorem C104_sersic : forall b l s x0 y0 q phi n Re Ie x y, 0 < l -> 0 < Re -> 0 < q ->
  sersic_brightness b (l * s) (l * x0) (l * y0) q phi n (l * Re) Ie (l * x) (l * y) = sersic_brightness b s x0 y0 q phi n Re Ie x y.
Proof. exact sersic_scales. Qed.
(** Hence, for any two lenses related in this way: images stay images, and magnifications do not change. *)
Theorem C104_raytrace : forall l alpha alpha' x y, deflection_scales l alpha alpha' x y -> raytrace alpha' (l * x) (l * y) = (l * fst (raytrace alpha x y), l * snd (raytrace alpha x y)).
Proof. exact raytrace_scales. Qed.
Theorem C104_magnification : forall l alpha alpha' x y axx axy ayx ayy, 0 < l -> locally_2d (deflection_scales l alpha alpha') x y ->
  D2 (fun u v => fst (alpha u v)) x y axx axy -> D2 (fun u v => snd (alpha u v)) x y ayx ayy ->
  D2 (fun u v => fst (alpha' u v)) (l * x) (l * y) axx axy /\ D2 (fun u v => snd (alpha' u v)) (l * x) (l * y) ayx ayy /\ magnification alpha' (l * x) (l * y) = magnification alpha x y.
Proof. exact magnification_scales. Qed.
Example C104_hyps : 0 < 1000 /\ (1 <> 0 \/ 2 <> 0) /\ 0 < 1 / 2 <= 1 /\ 0 < 1 / 10 ^ 7 < 1 / 10 ^ 6 /\ 0 < 1 < 2 /\ orders_accepted [(3%Z, 1 / 10, 1)] = true /\
  (exists L0 L1, new_pixconv 1 2 (5, 5)%nat "zero" "fft" (-1) = Ok L0 /\ new_pixconv (1000 * 1) 2 (5, 5)%nat "zero" "fft" (-1) = Ok L1) /\
  locally_2d (deflection_scales 1000 (fun u v => (u / 2, v / 2)) (fun u v => (u / 2, v / 2))) 1 2.
Proof.
  split; [lra|]. split; [left; lra|]. split; [lra|]. split; [lra|]. split; [lra|]. split; [reflexivity|]. split; [eexists; eexists; split; reflexivity|]. apply locally_2d_forall. intros u v. unfold deflection_scales. cbn [fst snd]. lra.
Qed.
Print Assumptions C104_mass_sheet.
Print Assumptions C104_external_shear.
Print Assumptions C104_sis.
Print Assumptions C104_point.
Print Assumptions C104_sie_partial.
Print Assumptions C104_sie_tiny_core_refuted.
Print Assumptions C104_epl.
Print Assumptions C104_multipole.
Print Assumptions C104_pseudo_jaffe_partial.
Print Assumptions C104_pseudo_jaffe_softened_refuted.
Print Assumptions C104_tnfw.
Print Assumptions C104_pixelated_deflection.
Print Assumptions C104_pixelated_convergence.
Print Assumptions C104_sersic.
Print Assumptions C104_raytrace.
Print Assumptions C104_magnification.
