(** * C115: a small softening only matters near the centre *)
From Coq Require Import Reals Lra.
From Verif Require Import Const_Model Cosmo_Model LensBasic_Model Nfw_Model Nfw3_Proofs Tnfw_Model Epl_Model Falls_Spec Soft_Spec Soft_Proofs Soft2_Proofs.
Local Open Scope R_scope.

(** explicit bounds: of first order in s / r, on the length of the change of the deflection *)
Theorem C115_sis : forall x0 y0 Rein s x y, 0 < Rein -> 0 <= s -> x <> x0 \/ y <> y0 -> let r := distance x0 y0 x y in
  apart (reduced_deflection_angle_sis x0 y0 Rein s x y) (reduced_deflection_angle_sis x0 y0 Rein 0 x y) <= Rein * s / r /\
  Rabs (potential_sis x0 y0 Rein s x y - potential_sis x0 y0 Rein 0 x y) <= Rein * s /\
  Rabs (convergence_sis x0 y0 Rein s x y - convergence_sis x0 y0 Rein 0 x y) <= Rein * s / (2 * r ^ 2).
Proof. exact sis_soft. Qed.
Print Assumptions C115_sis.
Theorem C115_point : forall x0 y0 Rein s x y, 0 < Rein -> 0 <= s -> x <> x0 \/ y <> y0 -> let r := distance x0 y0 x y in
  apart (reduced_deflection_angle_point x0 y0 Rein s x y) (reduced_deflection_angle_point x0 y0 Rein 0 x y) <= 2 * Rein ^ 2 * s / r ^ 2 /\
  Rabs (potential_point x0 y0 Rein s x y - potential_point x0 y0 Rein 0 x y) <= Rein ^ 2 * s / r.
Proof. exact point_soft. Qed.
Print Assumptions C115_point.
Theorem C115_sie : forall x0 y0 q phi Rein s x y, 0 < q < 1 -> 0 < Rein -> 0 <= s -> x <> x0 \/ y <> y0 -> let r := distance x0 y0 x y in
  apart (reduced_deflection_angle_sie x0 y0 q phi Rein s x y) (reduced_deflection_angle_sie x0 y0 q phi Rein 0 x y) <= Rein * sqrt q * (1 + q) / q ^ 2 * s / r /\
  Rabs (convergence_sie x0 y0 q phi Rein s x y - convergence_sie x0 y0 q phi Rein 0 x y) <= Rein * sqrt q * s ^ 2 / (4 * q * r ^ 3).
Proof. exact sie_soft. Qed.
Print Assumptions C115_sie.
Theorem C115_sie_round : forall x0 y0 phi Rein s x y, 0 < Rein -> 0 <= s -> x <> x0 \/ y <> y0 ->
  apart (reduced_deflection_angle_sie x0 y0 1 phi Rein s x y) (reduced_deflection_angle_sie x0 y0 1 phi Rein 0 x y) <= 3 * Rein * s / distance x0 y0 x y.
Proof. exact sie_soft_round. Qed.
Print Assumptions C115_sie_round.
Theorem C115_sie_potential : forall x0 y0 q phi Rein x y, 0 < q <= 1 -> 0 < Rein -> x <> x0 \/ y <> y0 -> fades (fun s => potential_sie x0 y0 q phi Rein s x y).
Proof. exact sie_potential_fades. Qed.
Print Assumptions C115_sie_potential.
(** the softening of EPL enters its convergence only *)
Theorem C115_epl : forall x0 y0 q phi Rein t x y, 0 < q -> 0 < Rein -> x <> x0 \/ y <> y0 -> fades (fun s => convergence_epl x0 y0 q phi Rein t s x y).
Proof. exact epl_fades. Qed.
Print Assumptions C115_epl.
(** a softened halo shows at every position what the halo itself has a distance s further out; NFW shortens the deflection as well *)
Theorem C115_nfw : forall dc cd z_s z_l x0 y0 mass x y, x <> x0 \/ y <> y0 -> forall c s, 0 <= s ->
  let r := distance x0 y0 x y in let p := further_out x0 y0 s x y in let a := nfw_reduced_deflection_angle dc cd z_s z_l x0 y0 mass c 0 (fst p) (snd p) in
  nfw_potential dc cd z_s z_l x0 y0 mass c s x y = nfw_potential dc cd z_s z_l x0 y0 mass c 0 (fst p) (snd p) /\
  nfw_convergence dc cd z_s z_l x0 y0 mass c s x y = nfw_convergence dc cd z_s z_l x0 y0 mass c 0 (fst p) (snd p) /\
  nfw_reduced_deflection_angle dc cd z_s z_l x0 y0 mass c s x y = (r / (r + s) * fst a, r / (r + s) * snd a).
Proof. exact nfw_shift. Qed.
Print Assumptions C115_nfw.
Theorem C115_tnfw : forall dc cd z_s z_l x0 y0 mass x y, x <> x0 \/ y <> y0 -> forall tot Rs tau s, 0 <= s -> let p := further_out x0 y0 s x y in
  tnfw_potential dc cd tot z_s z_l x0 y0 mass Rs tau s x y = tnfw_potential dc cd tot z_s z_l x0 y0 mass Rs tau 0 (fst p) (snd p) /\
  tnfw_convergence dc cd tot z_s z_l x0 y0 mass Rs tau s x y = tnfw_convergence dc cd tot z_s z_l x0 y0 mass Rs tau 0 (fst p) (snd p) /\
  tnfw_reduced_deflection_angle dc cd tot z_s z_l x0 y0 mass Rs tau s x y = tnfw_reduced_deflection_angle dc cd tot z_s z_l x0 y0 mass Rs tau 0 (fst p) (snd p).
Proof. exact tnfw_shift. Qed.
Print Assumptions C115_tnfw.
(** and so fades, outside the windows around the scale radius in which the formulas are replaced *)
Theorem C115_nfw_fades : forall dc cd z_s z_l x0 y0 mass x y, x <> x0 \/ y <> y0 ->
  0 < angular_diameter_distance dc z_l -> 0 < angular_diameter_distance dc z_s -> 0 < angular_diameter_distance_z1z2 dc z_l z_s ->
  forall c, 0 < cd z_l -> 0 < mass -> 0 < c ->
  1 / 1000000 < Rabs (angular_diameter_distance dc z_l * distance x0 y0 x y * arcsec_to_rad / nfw_get_scale_radius cd z_l mass c - 1) ->
  fades (fun s => nfw_potential dc cd z_s z_l x0 y0 mass c s x y) /\
  fades (fun s => fst (nfw_reduced_deflection_angle dc cd z_s z_l x0 y0 mass c s x y)) /\ fades (fun s => snd (nfw_reduced_deflection_angle dc cd z_s z_l x0 y0 mass c s x y)) /\
  exists k delta, 0 < delta /\ (forall s, 0 <= s < delta -> nfw_convergence dc cd z_s z_l x0 y0 mass c s x y = Some (k s)) /\ fades k.
Proof. exact nfw_fades. Qed.
Print Assumptions C115_nfw_fades.
Theorem C115_tnfw_fades : forall dc cd z_s z_l x0 y0 mass x y, x <> x0 \/ y <> y0 ->
  0 < angular_diameter_distance dc z_l -> 0 < angular_diameter_distance dc z_s -> 0 < angular_diameter_distance_z1z2 dc z_l z_s ->
  forall tot Rs tau, 0 < Rs -> 0 < tau -> 1 / 100 < Rabs (distance x0 y0 x y / Rs - 1) ->
  fades (fun s => tnfw_potential dc cd tot z_s z_l x0 y0 mass Rs tau s x y) /\
  fades (fun s => fst (tnfw_reduced_deflection_angle dc cd tot z_s z_l x0 y0 mass Rs tau s x y)) /\ fades (fun s => snd (tnfw_reduced_deflection_angle dc cd tot z_s z_l x0 y0 mass Rs tau s x y)) /\
  fades (fun s => tnfw_convergence dc cd tot z_s z_l x0 y0 mass Rs tau s x y).
Proof. exact tnfw_fades. Qed.
Print Assumptions C115_tnfw_fades.
Example C115_hyps : let dc := fun z => 1000 * z in
  0 < angular_diameter_distance dc 1 /\ 0 < angular_diameter_distance dc 2 /\ 0 < angular_diameter_distance_z1z2 dc 1 2 /\ (3 <> 0 \/ 4 <> 0) /\ 0 <= 1 / 1000 /\ 0 < 7 / 10 < 1 /\
  1 / 100 < Rabs (distance 0 0 3 4 / 2 - 1) /\ further_out 0 0 5 3 4 = (6, 8).
Proof.
  cbv zeta. assert (D : distance 0 0 3 4 = 5) by (unfold distance; replace ((3 - 0) ^ 2 + (4 - 0) ^ 2) with (5 ^ 2) by ring; apply sqrt_pow2; lra). unfold further_out. rewrite D, Rabs_pos_eq by lra.
  unfold angular_diameter_distance, angular_diameter_distance_z1z2, comoving_distance_z1z2. repeat split; try lra. f_equal; lra.
Qed.
Example C115_nfw_hyps : let dc := fun z : R => z in let cd := fun _ : R => 3 * 1 / (4 * PI * DELTA) in
  0 < cd (1 / 2) /\ 0 < 1 /\ 0 < angular_diameter_distance dc (1 / 2) /\ 0 < angular_diameter_distance dc 1 /\ 0 < angular_diameter_distance_z1z2 dc (1 / 2) 1 /\ (6 * rad_to_arcsec <> 0 \/ 0 <> 0) /\
  1 / 1000000 < Rabs (angular_diameter_distance dc (1 / 2) * distance 0 0 (6 * rad_to_arcsec) 0 * arcsec_to_rad / nfw_get_scale_radius cd (1 / 2) 1 1 - 1).
Proof. exact nfw_example. Qed.
