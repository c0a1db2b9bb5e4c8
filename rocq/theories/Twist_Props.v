(** * C130: how several planes focus, shear and turn the light *)
From Coq Require Import Reals List.
From Verif Require Import Py Lens_Spec LensBase_Model Multiplane_Model Multiplane_Props LensBasic_Model Twist_Spec Twist_Proofs.
Import ListNotations.
Local Open Scope R_scope.

(** The Jacobian of the traced rays follows the matrix recursion of multi-plane lensing, for any number of planes. *)
Theorem C130_matrix : forall cd z_s lenses, line_up cd z_s lenses -> forall rt, (forall x y, multiplane_raytrace cd cd lenses z_s x y = Ok (rt x y)) ->
  forall x y th u, lens_equation cd cd z_s lenses x y th -> tides lenses th u ->
  exists A, matrices cd z_s lenses u A /\ jacfwd rt x y = A (length lenses) /\
    jacfwd (effective_reduced_deflection_angle rt) x y = mat2_sub eye2 (A (length lenses)).
Proof.
  intros cd z_s lenses Hl rt Hrt x y th u Hth Hu. destruct (matrices_exist cd z_s lenses u) as [A HA]. exists A. split; [exact HA|].
  split; [exact (jacobian_matrix cd z_s lenses Hl rt Hrt x y th u Hth Hu A HA)|exact (effective_jacobian cd z_s lenses Hl rt Hrt x y th u Hth Hu A HA)].
Qed.
Print Assumptions C130_matrix.
(** The tide that enters is the convergence and the shear the lens itself reports. *)
Theorem C130_tide : forall t p, convergence_is_half_divergence (reduced_deflection_angle t) (convergence t) (fst p) (snd p) ->
  (exists u, has_tide t p u) /\
  forall u, has_tide t p u -> conv u = convergence t (fst p) (snd p) /\
    shear_of_jacobian (jacfwd (raytrace (reduced_deflection_angle t)) (fst p) (snd p)) = (gam1 u, gam2 u).
Proof. intros t p H. split; [exact (tide_exists t p H)|intros u; exact (tide_is t p u H)]. Qed.
Print Assumptions C130_tide.
(** Two planes: convergence and rotation of the light. *)
Theorem C130_two_planes : forall cd z_s a b rt x y ua ub, line_up cd z_s [a; b] -> (forall u v, multiplane_raytrace cd cd [a; b] z_s u v = Ok (rt u v)) ->
  let w := share cd z_s (z_l a) (z_l b) in
  has_tide a (x, y) ua -> has_tide b (x - w * fst (reduced_deflection_angle a x y), y - w * snd (reduced_deflection_angle a x y)) ub ->
  let J := jacfwd (effective_reduced_deflection_angle rt) x y in
  effective_convergence_div J = conv ua + conv ub - w * (conv ua * conv ub + gam1 ua * gam1 ub + gam2 ua * gam2 ub) /\
  effective_convergence_curl J = w * (gam2 ua * gam1 ub - gam1 ua * gam2 ub).
Proof. exact two_planes. Qed.
Print Assumptions C130_two_planes.
(** Any number of planes whose shears have one axis do not turn the light. *)
Theorem C130_aligned : forall cd z_s lenses rt x y th u c s, line_up cd z_s lenses -> (forall a b, multiplane_raytrace cd cd lenses z_s a b = Ok (rt a b)) ->
  lens_equation cd cd z_s lenses x y th -> tides lenses th u -> c <> 0 \/ s <> 0 -> (forall i, (i < length lenses)%nat -> gam1 (u i) * s = gam2 (u i) * c) ->
  effective_convergence_curl (jacfwd (effective_reduced_deflection_angle rt) x y) = 0.
Proof. exact aligned_no_twist. Qed.
Print Assumptions C130_aligned.
(** Nor do any number of lenses that are round about one line of sight. *)
Theorem C130_round : forall cd z_s lenses rt x0 y0 x y th u, line_up cd z_s lenses -> (forall a b, multiplane_raytrace cd cd lenses z_s a b = Ok (rt a b)) ->
  (forall t, In t lenses -> round_about x0 y0 t) -> lens_equation cd cd z_s lenses x y th -> tides lenses th u ->
  effective_convergence_curl (jacfwd (effective_reduced_deflection_angle rt) x y) = 0.
Proof. exact round_no_twist. Qed.
Print Assumptions C130_round.

Example C130_hyps : line_up (fun z => z) 3 [shear_lens 1 (1 / 10) 0; shear_lens 2 0 (1 / 10)] /\
  (forall z a b p, has_tide (shear_lens z a b) p (Tide 0 a b)) /\
  (exists rt, (forall u v, multiplane_raytrace (fun z => z) (fun z => z) [shear_lens 1 (1 / 10) 0; shear_lens 2 0 (1 / 10)] 3 u v = Ok (rt u v)) /\
    forall x y, effective_convergence_curl (jacfwd (effective_reduced_deflection_angle rt) x y) = - (3 / 400)) /\
  (forall z x0 y0 Rein s k, round_about x0 y0 (ThinLens z (reduced_deflection_angle_sis x0 y0 Rein s) (potential_sis x0 y0 Rein s) (convergence_sis x0 y0 Rein s)) /\
    round_about x0 y0 (ThinLens z (reduced_deflection_angle_mass_sheet x0 y0 k) (potential_mass_sheet x0 y0 k) (fun x _ => convergence_mass_sheet k x))).
Proof. split; [exact shears_line_up|]. split; [exact shear_tide|]. split; [exact shears_twist|exact round_lenses]. Qed.
