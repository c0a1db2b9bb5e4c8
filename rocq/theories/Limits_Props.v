(** * C113: halo models are limits of one another *)
From Coq Require Import Reals Lra.
From Coquelicot Require Import Coquelicot.
From Verif Require Import Const_Model Cosmo_Model LensBasic_Model Jaffe_Model Nfw_Model Tnfw_Model Falls_Spec Limits_Proofs.
Local Open Scope R_scope.

(** TNFW without truncation is NFW: the concentration is the one the TNFW class reports; the positions avoid the window in which the TNFW class uses a series *)
Theorem C113_tnfw_nfw_potential : forall dc cd z_s z_l x0 y0 mass Rs s x y,
  0 < angular_diameter_distance dc z_l -> 0 < angular_diameter_distance dc z_s -> 0 < angular_diameter_distance_z1z2 dc z_l z_s ->
  0 < cd z_l -> 0 < mass -> 0 < Rs -> 0 <= s -> x <> x0 \/ y <> y0 -> 1 / 100 < Rabs ((distance x0 y0 x y + s) / Rs - 1) ->
  is_lim (fun tau => tnfw_potential dc cd false z_s z_l x0 y0 mass Rs tau s x y) p_infty
    (nfw_potential dc cd z_s z_l x0 y0 mass (tnfw_get_concentration dc cd z_l mass Rs) s x y).
Proof. intros dc cd z_s z_l x0 y0 mass Rs s x y H1 H2 H3 H4 H5. exact (tnfw_to_nfw_potential dc cd z_s z_l x0 y0 mass Rs s x y H1 H2 H3). Qed.
Print Assumptions C113_tnfw_nfw_potential.
Theorem C113_tnfw_nfw_deflection : forall dc cd z_s z_l x0 y0 mass Rs x y,
  0 < angular_diameter_distance dc z_l -> 0 < angular_diameter_distance dc z_s -> 0 < angular_diameter_distance_z1z2 dc z_l z_s ->
  0 < cd z_l -> 0 < mass -> 0 < Rs -> x <> x0 \/ y <> y0 -> 1 / 100 < Rabs (distance x0 y0 x y / Rs - 1) ->
  let a := nfw_reduced_deflection_angle dc cd z_s z_l x0 y0 mass (tnfw_get_concentration dc cd z_l mass Rs) 0 x y in
  is_lim (fun tau => fst (tnfw_reduced_deflection_angle dc cd false z_s z_l x0 y0 mass Rs tau 0 x y)) p_infty (fst a) /\
  is_lim (fun tau => snd (tnfw_reduced_deflection_angle dc cd false z_s z_l x0 y0 mass Rs tau 0 x y)) p_infty (snd a).
Proof. exact tnfw_to_nfw_deflection_0. Qed.
Print Assumptions C113_tnfw_nfw_deflection.
Theorem C113_tnfw_nfw_convergence : forall dc cd z_s z_l x0 y0 mass Rs s x y,
  0 < angular_diameter_distance dc z_l -> 0 < angular_diameter_distance dc z_s -> 0 < angular_diameter_distance_z1z2 dc z_l z_s ->
  0 < cd z_l -> 0 < mass -> 0 < Rs -> 0 <= s -> x <> x0 \/ y <> y0 -> 1 / 100 < Rabs ((distance x0 y0 x y + s) / Rs - 1) ->
  forall k, nfw_convergence dc cd z_s z_l x0 y0 mass (tnfw_get_concentration dc cd z_l mass Rs) s x y = Some k ->
  is_lim (fun tau => tnfw_convergence dc cd false z_s z_l x0 y0 mass Rs tau s x y) p_infty k.
Proof. intros dc cd z_s z_l x0 y0 mass Rs s x y H1 H2 H3 H4 H5. exact (tnfw_to_nfw_convergence dc cd z_s z_l x0 y0 mass Rs s x y H1 H2 H3). Qed.
Print Assumptions C113_tnfw_nfw_convergence.
(** with a softening the limit of the deflection is longer than that of the NFW class by (r + s) / r *)
Theorem C113_tnfw_nfw_softened : forall dc cd z_s z_l x0 y0 mass Rs s x y,
  0 < angular_diameter_distance dc z_l -> 0 < angular_diameter_distance dc z_s -> 0 < angular_diameter_distance_z1z2 dc z_l z_s ->
  0 < cd z_l -> 0 < mass -> 0 < Rs -> 0 <= s -> x <> x0 \/ y <> y0 -> 1 / 100 < Rabs ((distance x0 y0 x y + s) / Rs - 1) ->
  let a := nfw_reduced_deflection_angle dc cd z_s z_l x0 y0 mass (tnfw_get_concentration dc cd z_l mass Rs) s x y in
  let k := (distance x0 y0 x y + s) / distance x0 y0 x y in
  is_lim (fun tau => fst (tnfw_reduced_deflection_angle dc cd false z_s z_l x0 y0 mass Rs tau s x y)) p_infty (fst a * k) /\
  is_lim (fun tau => snd (tnfw_reduced_deflection_angle dc cd false z_s z_l x0 y0 mass Rs tau s x y)) p_infty (snd a * k).
Proof. intros dc cd z_s z_l x0 y0 mass Rs s x y H1 H2 H3 H4 H5. exact (tnfw_to_nfw_deflection dc cd z_s z_l x0 y0 mass Rs s x y H1 H2). Qed.
Print Assumptions C113_tnfw_nfw_softened.
(** a PseudoJaffe lens of small core radius and large transition radius is an SIS, with an error bound *)
Theorem C113_pseudo_jaffe_sis : forall dc z_s z_l x0 y0 Rein Rc Rs x y,
  let d_l := angular_diameter_distance dc z_l in let sigma := critical_surface_density dc z_l z_s in
  d_l <> 0 -> sigma <> 0 -> 0 < Rein -> 0 < Rc < Rs -> x <> x0 \/ y <> y0 ->
  let mass := PI * Rein * sigma * Rs * (d_l * arcsec_to_rad) ^ 2 in let r := distance x0 y0 x y in
  let a := jaffe_reduced_deflection_angle dc z_s z_l x0 y0 mass Rc Rs x y in let b := reduced_deflection_angle_sis x0 y0 Rein 0 x y in
  let E := Rein * ((2 * Rc * Rs / r + r / 2 + Rc) / (Rs - Rc)) in
  Rabs (fst a - fst b) <= E /\ Rabs (snd a - snd b) <= E /\
  Rabs (jaffe_convergence dc z_s z_l x0 y0 mass Rc Rs x y - convergence_sis x0 y0 Rein 0 x y) <= Rein / 2 * ((Rc * Rs / r ^ 2 + 1 + Rc / r) / (Rs - Rc)).
Proof.
  intros dc z_s z_l x0 y0 Rein Rc Rs x y d_l sigma H1 H2 H3 H4 H5. destruct (jaffe_to_sis_alpha dc z_s z_l x0 y0 Rein Rc Rs x y H1 H2 H3 H4 H5) as [A B]. split; [exact A|]. split; [exact B|].
  exact (jaffe_to_sis_kappa dc z_s z_l x0 y0 Rein Rc Rs x y H1 H2 H3 H4 H5).
Qed.
Print Assumptions C113_pseudo_jaffe_sis.
Example C113_hyps : let dc := fun z => 1000 * z in
  0 < angular_diameter_distance dc 1 /\ 0 < angular_diameter_distance dc 2 /\ 0 < angular_diameter_distance_z1z2 dc 1 2 /\ critical_surface_density dc 1 2 <> 0 /\
  (3 <> 0 \/ 4 <> 0) /\ 1 / 100 < Rabs (distance 0 0 3 4 / 2 - 1) /\ 0 < 1 / 100 < 100.
Proof.
  cbv zeta. assert (D : distance 0 0 3 4 = 5) by (unfold distance; replace ((3 - 0) ^ 2 + (4 - 0) ^ 2) with (5 ^ 2) by ring; apply sqrt_pow2; lra). rewrite D, Rabs_pos_eq by lra.
  unfold angular_diameter_distance, angular_diameter_distance_z1z2, comoving_distance_z1z2. repeat split; try lra. apply example_sigma.
Qed.
