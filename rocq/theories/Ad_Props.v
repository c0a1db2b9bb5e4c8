(** * C95, C96: automatic differentiation of the lens models *)
From Coq Require Import Reals List ZArith Lra.
From Coquelicot Require Import Coquelicot.
From Verif Require Import Py RealFun Const_Model LensBase_Model LensBasic_Model Jaffe_Model Nfw_Model Tnfw_Model Multipole_Model Epl_Model Light_Model
  Ad_Model Ad_Spec Ad_Proofs AdLens_Model AdLens_Spec AdLens2_Proofs AdLens3_Proofs AdEpl_Model AdEpl_Spec AdEpl_Proofs AdEpl2_Proofs.
Import ListNotations.
Local Open Scope R_scope.
Local Notation "a @ n" := (a n%nat) (at level 9, only parsing).
Local Notation V n := (Var n%nat).

(** ** C95 *)
(** any formula of the primitives: where value and tangent are finite and no threshold is hit, the tangent is the derivative *)
Theorem C95_finite_is_exact : forall (env : nat -> R) (seed : nat -> option R) (e : expr),
  regular env seed e -> finite (jvp env seed e) -> exact env seed e.
Proof. exact (fun env seed e R F => ok_exact env seed e (sound env seed e R F)). Qed.
Print Assumptions C95_finite_is_exact.
(** jacfwd with respect to the position is the matrix of partial derivatives *)
Theorem C95_jacobian : forall (F : (nat -> R) -> R * R) (t : expr * expr) (a : nat -> R),
  ad_exact2 F t a (unit_seed 0) -> ad_exact2 F t a (unit_seed 1) ->
  entries (ad_jacfwd t a) (jacfwd (fun x y => F (moved a x y)) a@0 a@1).
Proof. exact jacfwd_is_ad. Qed.
Print Assumptions C95_jacobian.
(** arguments: x y x0 y0 kappa *)
Theorem C95_mass_sheet : forall (a : nat -> R) (seed : nat -> option R),
  ad_exact2 (fun a => reduced_deflection_angle_mass_sheet a@2 a@3 a@4 a@0 a@1) (t_deflection_mass_sheet (V 2) (V 3) (V 4) (V 0) (V 1)) a seed /\
  ad_exact (fun a => potential_mass_sheet a@2 a@3 a@4 a@0 a@1) (t_potential_mass_sheet (V 2) (V 3) (V 4) (V 0) (V 1)) a seed.
Proof. exact mass_sheet_ad. Qed.
Print Assumptions C95_mass_sheet.
(** x y x0 y0 gamma_1 gamma_2 *)
Theorem C95_external_shear : forall (a : nat -> R) (seed : nat -> option R),
  ad_exact2 (fun a => reduced_deflection_angle_external_shear a@2 a@3 a@4 a@5 a@0 a@1) (t_deflection_external_shear (V 2) (V 3) (V 4) (V 5) (V 0) (V 1)) a seed /\
  ad_exact (fun a => potential_external_shear a@2 a@3 a@4 a@5 a@0 a@1) (t_potential_external_shear (V 2) (V 3) (V 4) (V 5) (V 0) (V 1)) a seed.
Proof. exact shear_ad. Qed.
Print Assumptions C95_external_shear.
(** x y x0 y0 Rein s *)
Theorem C95_sis : forall (a : nat -> R) (seed : nat -> option R),
  (a@0 <> a@2 \/ a@1 <> a@3) -> 0 <= a@5 ->
  ad_exact2 (fun a => reduced_deflection_angle_sis a@2 a@3 a@4 a@5 a@0 a@1) (t_deflection_sis (V 2) (V 3) (V 4) (V 5) (V 0) (V 1)) a seed /\
  ad_exact (fun a => potential_sis a@2 a@3 a@4 a@5 a@0 a@1) (t_potential_sis (V 2) (V 3) (V 4) (V 5) (V 0) (V 1)) a seed /\
  ad_exact (fun a => convergence_sis a@2 a@3 a@4 a@5 a@0 a@1) (t_convergence_sis (V 2) (V 3) (V 4) (V 5) (V 0) (V 1)) a seed.
Proof. exact sis_ad. Qed.
Print Assumptions C95_sis.
(** x y x0 y0 Rein s *)
Theorem C95_point : forall (a : nat -> R) (seed : nat -> option R),
  (a@0 <> a@2 \/ a@1 <> a@3) -> 0 <= a@5 ->
  ad_exact2 (fun a => reduced_deflection_angle_point a@2 a@3 a@4 a@5 a@0 a@1) (t_deflection_point (V 2) (V 3) (V 4) (V 5) (V 0) (V 1)) a seed /\
  ad_exact (fun a => potential_point a@2 a@3 a@4 a@5 a@0 a@1) (t_potential_point (V 2) (V 3) (V 4) (V 5) (V 0) (V 1)) a seed.
Proof. exact point_ad. Qed.
Print Assumptions C95_point.
(** x y x0 y0 q phi Rein s *)
Theorem C95_sie : forall (a : nat -> R) (seed : nat -> option R),
  (a@0 <> a@2 \/ a@1 <> a@3) \/ 0 < a@7 -> 0 <= a@7 -> 0 < a@4 <= 1 -> a@4 < 1 \/ seed 4%nat = None ->
  ad_exact2 (fun a => reduced_deflection_angle_sie a@2 a@3 a@4 a@5 a@6 a@7 a@0 a@1) (t_deflection_sie (V 2) (V 3) (V 4) (V 5) (V 6) (V 7) (V 0) (V 1)) a seed /\
  ad_exact (fun a => convergence_sie a@2 a@3 a@4 a@5 a@6 a@7 a@0 a@1) (t_convergence_sie (V 2) (V 3) (V 4) (V 5) (V 6) (V 7) (V 0) (V 1)) a seed /\
  (seed 7%nat = None ->
   ad_exact (fun a => potential_sie a@2 a@3 a@4 a@5 a@6 a@7 a@0 a@1) (t_potential_sie (V 2) (V 3) (V 4) (V 5) (V 6) (V 7) (V 0) (V 1)) a seed).
Proof. exact sie_ad. Qed.
Print Assumptions C95_sie.
(** x y x0 y0 mass Rc Rs d_l sigma_cr s d_s d_ls *)
Theorem C95_pseudo_jaffe : forall (a : nat -> R) (seed : nat -> option R),
  0 < a@5 -> 0 < a@6 -> a@5 <> a@6 -> 0 < a@7 -> 0 < a@8 -> 0 <= a@9 -> 0 < a@10 ->
  (a@0 <> a@2 \/ a@1 <> a@3 ->
   ad_exact2 (fun a => reduced_deflection_angle_pseudo_jaffe a@2 a@3 a@4 a@5 a@6 a@0 a@1 a@7 a@8 a@9) (t_deflection_pseudo_jaffe (V 2) (V 3) (V 4) (V 5) (V 6) (V 0) (V 1) (V 7) (V 8) (V 9)) a seed) /\
  ad_exact (fun a => potential_pseudo_jaffe a@2 a@3 a@4 a@5 a@6 a@0 a@1 a@7 a@10 a@11 a@9) (t_potential_pseudo_jaffe (V 2) (V 3) (V 4) (V 5) (V 6) (V 0) (V 1) (V 7) (V 10) (V 11) (V 9)) a seed /\
  ad_exact (fun a => convergence_pseudo_jaffe a@2 a@3 a@4 a@5 a@6 a@0 a@1 a@7 a@8 a@9) (t_convergence_pseudo_jaffe (V 2) (V 3) (V 4) (V 5) (V 6) (V 0) (V 1) (V 7) (V 8) (V 9)) a seed.
Proof. exact jaffe_ad. Qed.
Print Assumptions C95_pseudo_jaffe.
(** x y x0 y0 mass c critical_density d_l DELTA s sigma_cr *)
Theorem C95_nfw : forall (a : nat -> R) (seed : nat -> option R),
  a@0 <> a@2 \/ a@1 <> a@3 -> 0 < a@4 -> 0 < a@5 -> 0 < a@6 -> 0 < a@7 -> 0 < a@8 -> 0 <= a@9 -> 0 < a@10 ->
  clear_of_1 eps_nfw (a@7 * (sqrt ((a@0 - a@2) ^ 2 + (a@1 - a@3) ^ 2) + a@9) * arcsec_to_rad / scale_radius_nfw a@6 a@4 a@5 a@8) ->
  ad_exact2 (fun a => physical_deflection_angle_nfw a@2 a@3 a@4 a@5 a@6 a@7 a@0 a@1 a@8 a@9) (t_deflection_nfw (V 2) (V 3) (V 4) (V 5) (V 6) (V 7) (V 0) (V 1) (V 8) (V 9)) a seed /\
  ad_exact (fun a => potential_nfw a@10 a@6 a@2 a@3 a@4 a@5 a@7 a@0 a@1 a@8 a@9) (t_potential_nfw (V 10) (V 6) (V 2) (V 3) (V 4) (V 5) (V 7) (V 0) (V 1) (V 8) (V 9)) a seed /\
  ad_exact_opt (fun a => convergence_nfw a@10 a@6 a@2 a@3 a@4 a@5 a@0 a@1 a@7 a@8 a@9) (t_convergence_nfw (V 10) (V 6) (V 2) (V 3) (V 4) (V 5) (V 0) (V 1) (V 7) (V 8) (V 9)) a seed.
Proof. exact nfw_ad. Qed.
Print Assumptions C95_nfw.
(** x y x0 y0 Rs tau M0 d_l s critical_surface_density d_s d_ls *)
Theorem C95_tnfw : forall (a : nat -> R) (seed : nat -> option R),
  a@0 <> a@2 \/ a@1 <> a@3 -> 0 < a@4 -> 0 < a@5 -> 0 < a@7 -> 0 <= a@8 -> 0 < a@9 -> 0 < a@10 ->
  let g := (sqrt ((a@0 - a@2) ^ 2 + (a@1 - a@3) ^ 2) + a@8) / a@4 in
  g <> 1 - 1 / 100 -> g <> 1 + 1 / 100 ->
  ad_exact2 (fun a => physical_deflection_angle_tnfw a@2 a@3 a@4 a@5 a@0 a@1 a@6 a@7 a@8) (t_deflection_tnfw (V 2) (V 3) (V 4) (V 5) (V 0) (V 1) (V 6) (V 7) (V 8)) a seed /\
  (g <> 1 - 1 / 1000 -> g <> 1 + 1 / 1000 ->
   ad_exact (fun a => potential_tnfw a@2 a@3 a@4 a@5 a@0 a@1 a@6 a@7 a@10 a@11 a@8) (t_potential_tnfw (V 2) (V 3) (V 4) (V 5) (V 0) (V 1) (V 6) (V 7) (V 10) (V 11) (V 8)) a seed) /\
  (g <> 1 -> ad_exact (fun a => convergence_tnfw a@2 a@3 a@4 a@5 a@0 a@1 a@9 a@6 a@7 a@8) (t_convergence_tnfw (V 2) (V 3) (V 4) (V 5) (V 0) (V 1) (V 9) (V 6) (V 7) (V 8)) a seed).
Proof. exact tnfw_ad. Qed.
Print Assumptions C95_tnfw.
(** x y x0 y0, then amplitude and angle of each order *)
Theorem C95_multipole : forall (a : nat -> R) (seed : nat -> option R) (ms : list Z),
  orders_accepted (mode_vals ms a) = true -> a@0 <> a@2 \/ a@1 <> a@3 ->
  ad_exact2 (fun a => reduced_deflection_angle_multipole a@2 a@3 (mode_vals ms a) a@0 a@1) (t_deflection_multipole (V 2) (V 3) (mode_args ms) (V 0) (V 1)) a seed /\
  ad_exact (fun a => potential_multipole a@2 a@3 (mode_vals ms a) a@0 a@1) (t_potential_multipole (V 2) (V 3) (mode_args ms) (V 0) (V 1)) a seed /\
  ad_exact (fun a => convergence_multipole a@2 a@3 (mode_vals ms a) a@0 a@1) (t_convergence_multipole (V 2) (V 3) (mode_args ms) (V 0) (V 1)) a seed.
Proof. exact multipole_ad. Qed.
Print Assumptions C95_multipole.
(** x y x0 y0 q phi Rein t s *)
Theorem C95_epl_convergence : forall (a : nat -> R) (seed : nat -> option R),
  0 < a@4 -> 0 < a@6 -> (a@0 <> a@2 \/ a@1 <> a@3) \/ a@8 <> 0 ->
  ad_exact (fun a => convergence_epl a@2 a@3 a@4 a@5 a@6 a@7 a@8 a@0 a@1) (t_convergence_epl (V 2) (V 3) (V 4) (V 5) (V 6) (V 7) (V 0) (V 1) (V 8)) a seed.
Proof. exact epl_kappa_ad. Qed.
Print Assumptions C95_epl_convergence.
(** x y x0 y0 q phi Rein t; every number of series terms and chunk size for which the series can be summed *)
Theorem C95_epl : forall (a : nat -> R) (n_iter : nat) (n_chunk : option nat),
  0 < a@4 -> 0 < a@6 -> a@7 < 4 -> a@0 <> a@2 \/ a@1 <> a@3 -> forall (seed : nat -> option R) (v : R * R),
  reduced_deflection_angle_epl a@2 a@3 a@4 a@5 a@6 a@7 n_iter n_chunk a@0 a@1 = Ok v ->
  ad_exact2_ret (fun a => reduced_deflection_angle_epl a@2 a@3 a@4 a@5 a@6 a@7 n_iter n_chunk a@0 a@1)
    (t_deflection_epl (V 2) (V 3) (V 4) (V 5) (V 6) (V 7) (V 0) (V 1) n_iter n_chunk) a seed /\
  (a@7 <> 2 ->
   ad_exact_ret (fun a => potential_epl a@2 a@3 a@4 a@5 a@6 a@7 n_iter n_chunk a@0 a@1)
     (t_potential_epl (V 2) (V 3) (V 4) (V 5) (V 6) (V 7) (V 0) (V 1) n_iter n_chunk) a seed).
Proof. exact epl_ad. Qed.
Print Assumptions C95_epl.
(** x y x0 y0 q phi n Re Ie k s *)
Theorem C95_sersic : forall (a : nat -> R) (seed : nat -> option R),
  0 < a@4 -> 0 < a@6 -> 0 < a@7 -> 0 <= a@10 -> (a@0 <> a@2 \/ a@1 <> a@3) ->
  ad_exact_opt (fun a => brightness_sersic a@2 a@3 a@4 a@5 a@6 a@7 a@8 a@0 a@1 a@9 a@10) (t_brightness_sersic (V 2) (V 3) (V 4) (V 5) (V 6) (V 7) (V 8) (V 0) (V 1) (V 9) (V 10)) a seed.
Proof. exact sersic_ad. Qed.
Print Assumptions C95_sersic.

(** concrete cases meeting the hypotheses *)
Definition at_ (l : list R) (n : nat) : R := nth n l 0.
Example C95_hyps :
  (let a := at_ [1; 0; 0; 0; 1; 1 / 10] in (a@0 <> a@2 \/ a@1 <> a@3) /\ 0 <= a@5) /\
  (let a := at_ [0; 0; 0; 0; 1 / 2; 1; 1; 1 / 10] in let seed := unit_seed 0 in
   ((a@0 <> a@2 \/ a@1 <> a@3) \/ 0 < a@7) /\ 0 <= a@7 /\ 0 < a@4 <= 1 /\ (a@4 < 1 \/ seed 4%nat = None) /\ seed 7%nat = None) /\
  (let a := at_ [3; 0; 0; 0; 1; 1; 1; 1; 0; 1; 2; 1] in (a@0 <> a@2 \/ a@1 <> a@3) /\ 0 < a@4 /\ 0 < a@5 /\ 0 < a@7 /\ 0 <= a@8 /\ 0 < a@9 /\ 0 < a@10 /\
   let g := (sqrt ((a@0 - a@2) ^ 2 + (a@1 - a@3) ^ 2) + a@8) / a@4 in
   g <> 1 - 1 / 100 /\ g <> 1 + 1 / 100 /\ g <> 1 - 1 / 1000 /\ g <> 1 + 1 / 1000 /\ g <> 1) /\
  orders_accepted (mode_vals [3%Z; 4%Z] (at_ [-1; 0; 0; 0; 1; 0; 1; 0])) = true.
Proof.
  split; [|split; [|split; [|reflexivity]]]; cbn [at_ nth]; cbv zeta.
  - lra.
  - repeat split; try lra; try reflexivity.
  - replace ((3 - 0) ^ 2 + (0 - 0) ^ 2) with (3 ^ 2) by ring. rewrite sqrt_pow2 by lra. lra.
Qed.
Example C95_hyps_epl : let a := at_ [1; 0; 0; 0; 1 / 2; 0; 1; 1] in 0 < a@4 /\ 0 < a@6 /\ a@7 < 4 /\ (a@0 <> a@2 \/ a@1 <> a@3) /\ a@7 <> 2 /\
  (exists v, reduced_deflection_angle_epl a@2 a@3 a@4 a@5 a@6 a@7 18 None a@0 a@1 = Ok v) /\
  (exists e, t_deflection_epl (V 2) (V 3) (V 4) (V 5) (V 6) (V 7) (V 0) (V 1) 18 (Some 6%nat) = Ok e).
Proof. cbv zeta. cbn [at_ nth]. repeat split; try lra; eexists; reflexivity. Qed.
(** a point where thresholds and distances of an NFW lens are met: the scaled radius is exactly 2 *)
Example C95_hyps_nfw : exists a : nat -> R, (a@0 <> a@2 \/ a@1 <> a@3) /\ 0 < a@4 /\ 0 < a@5 /\ 0 < a@6 /\ 0 < a@7 /\ 0 < a@8 /\ 0 <= a@9 /\ 0 < a@10 /\
  clear_of_1 eps_nfw (a@7 * (sqrt ((a@0 - a@2) ^ 2 + (a@1 - a@3) ^ 2) + a@9) * arcsec_to_rad / scale_radius_nfw a@6 a@4 a@5 a@8).
Proof.
  set (rs := scale_radius_nfw 1 1 1 200). assert (P : 0 < rs) by (unfold rs, scale_radius_nfw; cbv zeta; apply Rdiv_lt_0_compat; [apply exp_pos|lra]).
  pose proof arcsec_to_rad_pos as PA. exists (at_ [2 * rs / arcsec_to_rad; 0; 0; 0; 1; 1; 1; 1; 200; 0; 1]). cbn [at_ nth]. fold rs.
  assert (P2 : 0 < 2 * rs / arcsec_to_rad) by (apply Rdiv_lt_0_compat; lra).
  replace ((2 * rs / arcsec_to_rad - 0) ^ 2 + (0 - 0) ^ 2) with ((2 * rs / arcsec_to_rad) ^ 2) by ring. rewrite sqrt_pow2 by lra.
  replace (1 * (2 * rs / arcsec_to_rad + 0) * arcsec_to_rad / rs) with 2 by (field; lra).
  unfold clear_of_1, eps_nfw. repeat split; lra.
Qed.

(** ** C96: the centre of a softened lens *)
(** SIE and EPL convergence: finite and exact at every position *)
Theorem C96_sie_partial : forall (a : nat -> R) (seed : nat -> option R),
  0 < a@7 -> 0 < a@4 <= 1 -> a@4 < 1 \/ seed 4%nat = None ->
  ad_exact2 (fun a => reduced_deflection_angle_sie a@2 a@3 a@4 a@5 a@6 a@7 a@0 a@1) (t_deflection_sie (V 2) (V 3) (V 4) (V 5) (V 6) (V 7) (V 0) (V 1)) a seed.
Proof. exact (fun a seed H Q N => proj1 (sie_ad a seed (or_intror H) (Rlt_le _ _ H) Q N)). Qed.
Print Assumptions C96_sie_partial.
Theorem C96_epl_convergence_partial : forall (a : nat -> R) (seed : nat -> option R), 0 < a@8 -> 0 < a@4 -> 0 < a@6 ->
  ad_exact (fun a => convergence_epl a@2 a@3 a@4 a@5 a@6 a@7 a@8 a@0 a@1) (t_convergence_epl (V 2) (V 3) (V 4) (V 5) (V 6) (V 7) (V 0) (V 1) (V 8)) a seed.
Proof. exact (fun a seed H P Q => epl_kappa_ad a seed P Q (or_intror (Rgt_not_eq _ _ H))). Qed.
Print Assumptions C96_epl_convergence_partial.
(** SIS and Point: the deflection at the centre is computed, its derivatives exist, but every entry of the automatic Jacobian is NaN *)
Theorem C96_sis_centre : forall (a : nat -> R) (seed : nat -> option R), a@0 = a@2 -> a@1 = a@3 -> 0 < a@5 ->
  fst (jvp a seed (fst (t_deflection_sis (V 2) (V 3) (V 4) (V 5) (V 0) (V 1)))) = Fin 0 /\
  fst (jvp a seed (snd (t_deflection_sis (V 2) (V 3) (V 4) (V 5) (V 0) (V 1)))) = Fin 0 /\
  isotropic_at (reduced_deflection_angle_sis a@2 a@3 a@4 a@5) a@2 a@3 (a@4 / a@5) /\
  all_nan (ad_jacfwd (t_deflection_sis (V 2) (V 3) (V 4) (V 5) (V 0) (V 1)) a).
Proof.
  exact (fun a seed C0 C1 S => let v := sis_values a seed C0 C1 S in
    conj (proj1 v) (conj (proj2 v) (conj (sis_centre _ _ _ _ S) (sis_nan a C0 C1)))).
Qed.
Print Assumptions C96_sis_centre.
Theorem C96_point_centre : forall (a : nat -> R) (seed : nat -> option R), a@0 = a@2 -> a@1 = a@3 -> 0 < a@5 ->
  fst (jvp a seed (fst (t_deflection_point (V 2) (V 3) (V 4) (V 5) (V 0) (V 1)))) = Fin 0 /\
  fst (jvp a seed (snd (t_deflection_point (V 2) (V 3) (V 4) (V 5) (V 0) (V 1)))) = Fin 0 /\
  isotropic_at (reduced_deflection_angle_point a@2 a@3 a@4 a@5) a@2 a@3 (a@4 ^ 2 / a@5 ^ 2) /\
  all_nan (ad_jacfwd (t_deflection_point (V 2) (V 3) (V 4) (V 5) (V 0) (V 1)) a).
Proof.
  exact (fun a seed C0 C1 S => let v := point_values a seed C0 C1 S in
    conj (proj1 v) (conj (proj2 v) (conj (point_centre _ _ _ _ S) (point_nan a C0 C1)))).
Qed.
Print Assumptions C96_point_centre.
(** NFW: the same *)
Theorem C96_nfw_centre : forall a : nat -> R, a@0 = a@2 -> a@1 = a@3 -> 0 < a@5 -> 0 < a@7 -> 0 < a@9 ->
  let rs := scale_radius_nfw a@6 a@4 a@5 a@8 in let xi := a@7 * a@9 * arcsec_to_rad in
  eps_nfw < Rabs (xi / rs - 1) ->
  isotropic_at (fun x y => physical_deflection_angle_nfw a@2 a@3 a@4 a@5 a@6 a@7 x y a@8 a@9) a@2 a@3
    (16 * PI * G_over_c2 * scale_density_nfw a@6 a@5 a@8 * rs ^ 3 * h_nfw (xi / rs) * rad_to_arcsec / xi / a@9) /\
  all_nan (ad_jacfwd (t_deflection_nfw (V 2) (V 3) (V 4) (V 5) (V 6) (V 7) (V 0) (V 1) (V 8) (V 9)) a).
Proof. exact (fun a C0 C1 Pc Pd Ps E => conj (nfw_centre _ _ _ _ _ _ _ _ Pc Pd Ps E) (nfw_nan a C0 C1)). Qed.
Print Assumptions C96_nfw_centre.
(** TNFW: the Jacobian is NaN, and the lens deflects the ray through its own centre *)
Theorem C96_tnfw_deflects_at_centre : forall x0 y0 Rs tau mass d_l : R, 0 < Rs -> 0 < tau -> 0 < mass -> 0 < d_l ->
  exists s, 0 < s /\ 0 < fst (physical_deflection_angle_tnfw x0 y0 Rs tau x0 y0 (M0_totmass_tnfw mass tau) d_l s).
Proof. exact tnfw_centre_nonzero. Qed.
Print Assumptions C96_tnfw_deflects_at_centre.
Theorem C96_tnfw_centre : forall a : nat -> R, a@0 = a@2 -> a@1 = a@3 ->
  all_nan (ad_jacfwd (t_deflection_tnfw (V 2) (V 3) (V 4) (V 5) (V 0) (V 1) (V 6) (V 7) (V 8)) a).
Proof. exact tnfw_nan. Qed.
Print Assumptions C96_tnfw_centre.
(** PseudoJaffe: the function's Jacobian is NaN for every softening; the class, which does not pass its softening on, returns NaN for the deflection itself *)
Theorem C96_pseudo_jaffe_centre : forall (a : nat -> R) (seed : nat -> option R), a@0 = a@2 -> a@1 = a@3 ->
  all_nan (ad_jacfwd (t_deflection_pseudo_jaffe (V 2) (V 3) (V 4) (V 5) (V 6) (V 0) (V 1) (V 7) (V 8) (V 9)) a) /\
  (0 < a@5 -> 0 < a@6 -> a@5 <> a@6 -> 0 < a@7 -> 0 < a@8 ->
   fst (jvp a seed (fst (t_deflection_pseudo_jaffe (V 2) (V 3) (V 4) (V 5) (V 6) (V 0) (V 1) (V 7) (V 8) (Cst 0)))) = NaN /\
   fst (jvp a seed (snd (t_deflection_pseudo_jaffe (V 2) (V 3) (V 4) (V 5) (V 6) (V 0) (V 1) (V 7) (V 8) (Cst 0)))) = NaN).
Proof. exact (fun a seed C0 C1 => conj (jaffe_nan a C0 C1) (jaffe_value_nan a C0 C1 seed)). Qed.
Print Assumptions C96_pseudo_jaffe_centre.
(** EPL: the deflection at the centre is 0 and the Jacobian NaN, with torch's rule for nan_to_num *)
Theorem C96_epl_centre : forall (a : nat -> R) (n_iter : nat) (n_chunk : option nat), a@0 = a@2 -> a@1 = a@3 -> (2 <= n_iter)%nat ->
  forall e, t_deflection_epl (V 2) (V 3) (V 4) (V 5) (V 6) (V 7) (V 0) (V 1) n_iter n_chunk = Ok e ->
  (forall seed, fst (jvp a seed (fst e)) = Fin 0 /\ fst (jvp a seed (snd e)) = Fin 0) /\ all_nan (ad_jacfwd e a).
Proof. exact epl_centre. Qed.
Print Assumptions C96_epl_centre.
Example C96_hyps :
  (let a := at_ [1; 2; 1; 2; 3; 1 / 10] in a@0 = a@2 /\ a@1 = a@3 /\ 0 < a@5) /\
  (let a := at_ [1; 2; 1; 2; 1; 1; 2; 1; 1] in a@0 = a@2 /\ a@1 = a@3 /\ 0 < a@5 /\ 0 < a@6 /\ a@5 <> a@6 /\ 0 < a@7 /\ 0 < a@8) /\
  (exists a : nat -> R, a@0 = a@2 /\ a@1 = a@3 /\ 0 < a@5 /\ 0 < a@7 /\ 0 < a@9 /\
   eps_nfw < Rabs (a@7 * a@9 * arcsec_to_rad / scale_radius_nfw a@6 a@4 a@5 a@8 - 1)).
Proof.
  split; [cbn [at_ nth]; lra|split; [cbn [at_ nth]; lra|]].
  set (rs := scale_radius_nfw 1 1 1 200). assert (P : 0 < rs) by (unfold rs, scale_radius_nfw; cbv zeta; apply Rdiv_lt_0_compat; [apply exp_pos|lra]).
  pose proof arcsec_to_rad_pos as PA. exists (at_ [0; 0; 0; 0; 1; 1; 1; 1; 200; 2 * rs / arcsec_to_rad]). cbn [at_ nth]. fold rs.
  assert (P2 : 0 < 2 * rs / arcsec_to_rad) by (apply Rdiv_lt_0_compat; lra).
  replace (1 * (2 * rs / arcsec_to_rad) * arcsec_to_rad / rs) with 2 by (field; lra).
  rewrite Rabs_pos_eq by lra. unfold eps_nfw. repeat split; lra.
Qed.
(** the claim in one line is false: a softened lens whose deflection is differentiable at the centre while the automatic Jacobian is NaN *)
Theorem C96_refuted : exists a : nat -> R, 0 < a@5 /\ a@0 = a@2 /\ a@1 = a@3 /\
  isotropic_at (reduced_deflection_angle_sis a@2 a@3 a@4 a@5) a@2 a@3 10 /\
  isotropic_at (reduced_deflection_angle_point a@2 a@3 a@4 a@5) a@2 a@3 100 /\
  all_nan (ad_jacfwd (t_deflection_sis (V 2) (V 3) (V 4) (V 5) (V 0) (V 1)) a) /\
  all_nan (ad_jacfwd (t_deflection_point (V 2) (V 3) (V 4) (V 5) (V 0) (V 1)) a).
Proof. exact softened_nan_witness. Qed.
Print Assumptions C96_refuted.
