(** * C97: gradients by backpropagation *)
From Coq Require Import Reals List ZArith Lra.
From Coquelicot Require Import Coquelicot.
From Verif Require Import Py RealFun Const_Model Const_Proofs LensBase_Model LensBasic_Model Jaffe_Model Nfw_Model Tnfw_Model Multipole_Model Epl_Model Light_Model
  Ad_Model Ad_Spec AdLens_Model AdLens_Spec Rev_Model Rev_Spec Rev_Proofs RevLens2_Proofs AdEpl_Model AdEpl_Spec AdEpl_Proofs.
Import ListNotations.
Local Open Scope R_scope.
Local Notation "a @ n" := (a n%nat) (at level 9, only parsing).
Local Notation V n := (Var n%nat).

(** any formula of the primitives: where every operation, in masked branches as well, is inside its domain, the gradient is finite and its entries are
    the forward tangents along the single arguments *)
Theorem C97_reverse_is_forward : forall (a : nat -> R) (req : nat -> bool) (e : expr) (k : nat), tame a e ->
  exists d, grad a req e k = Fin d /\ tval (snd (jvp a (one_of req k) e)) = Fin d.
Proof. exact grad_is_tangent. Qed.
Print Assumptions C97_reverse_is_forward.
(** the deflection computed from a potential is the vector of its partial derivatives *)
Theorem C97_deflection_of_potential : forall (F : (nat -> R) -> R) (t : expr) (a : nat -> R), grad_exact F t a position ->
  ad_grad t a = (Fin (fst (default_deflection (fun x y => F (moved a x y)) a@0 a@1)), Fin (snd (default_deflection (fun x y => F (moved a x y)) a@0 a@1))).
Proof. exact ad_grad_is_gradient. Qed.
Print Assumptions C97_deflection_of_potential.
(** arguments: x y x0 y0 kappa *)
Theorem C97_mass_sheet : forall (a : nat -> R) (req : nat -> bool),
  grad_exact2 (fun a => reduced_deflection_angle_mass_sheet a@2 a@3 a@4 a@0 a@1) (t_deflection_mass_sheet (V 2) (V 3) (V 4) (V 0) (V 1)) a req /\
  grad_exact (fun a => potential_mass_sheet a@2 a@3 a@4 a@0 a@1) (t_potential_mass_sheet (V 2) (V 3) (V 4) (V 0) (V 1)) a req.
Proof. exact mass_sheet_grad. Qed.
Print Assumptions C97_mass_sheet.
(** x y x0 y0 gamma_1 gamma_2 *)
Theorem C97_external_shear : forall (a : nat -> R) (req : nat -> bool),
  grad_exact2 (fun a => reduced_deflection_angle_external_shear a@2 a@3 a@4 a@5 a@0 a@1) (t_deflection_external_shear (V 2) (V 3) (V 4) (V 5) (V 0) (V 1)) a req /\
  grad_exact (fun a => potential_external_shear a@2 a@3 a@4 a@5 a@0 a@1) (t_potential_external_shear (V 2) (V 3) (V 4) (V 5) (V 0) (V 1)) a req.
Proof. exact shear_grad. Qed.
Print Assumptions C97_external_shear.
(** x y x0 y0 Rein s *)
Theorem C97_sis : forall (a : nat -> R) (req : nat -> bool),
  (a@0 <> a@2 \/ a@1 <> a@3) -> 0 <= a@5 ->
  grad_exact2 (fun a => reduced_deflection_angle_sis a@2 a@3 a@4 a@5 a@0 a@1) (t_deflection_sis (V 2) (V 3) (V 4) (V 5) (V 0) (V 1)) a req /\
  grad_exact (fun a => potential_sis a@2 a@3 a@4 a@5 a@0 a@1) (t_potential_sis (V 2) (V 3) (V 4) (V 5) (V 0) (V 1)) a req /\
  grad_exact (fun a => convergence_sis a@2 a@3 a@4 a@5 a@0 a@1) (t_convergence_sis (V 2) (V 3) (V 4) (V 5) (V 0) (V 1)) a req.
Proof. exact sis_grad. Qed.
Print Assumptions C97_sis.
(** x y x0 y0 Rein s *)
Theorem C97_point : forall (a : nat -> R) (req : nat -> bool),
  (a@0 <> a@2 \/ a@1 <> a@3) -> 0 <= a@5 ->
  grad_exact2 (fun a => reduced_deflection_angle_point a@2 a@3 a@4 a@5 a@0 a@1) (t_deflection_point (V 2) (V 3) (V 4) (V 5) (V 0) (V 1)) a req /\
  grad_exact (fun a => potential_point a@2 a@3 a@4 a@5 a@0 a@1) (t_potential_point (V 2) (V 3) (V 4) (V 5) (V 0) (V 1)) a req.
Proof. exact point_grad. Qed.
Print Assumptions C97_point.
(** x y x0 y0 q phi Rein s *)
Theorem C97_sie : forall (a : nat -> R) (req : nat -> bool),
  (a@0 <> a@2 \/ a@1 <> a@3) \/ 0 < a@7 -> 0 <= a@7 -> 0 < a@4 <= 1 -> a@4 < 1 \/ req 4%nat = false ->
  grad_exact2 (fun a => reduced_deflection_angle_sie a@2 a@3 a@4 a@5 a@6 a@7 a@0 a@1) (t_deflection_sie (V 2) (V 3) (V 4) (V 5) (V 6) (V 7) (V 0) (V 1)) a req /\
  grad_exact (fun a => convergence_sie a@2 a@3 a@4 a@5 a@6 a@7 a@0 a@1) (t_convergence_sie (V 2) (V 3) (V 4) (V 5) (V 6) (V 7) (V 0) (V 1)) a req /\
  (req 7%nat = false ->
   grad_exact (fun a => potential_sie a@2 a@3 a@4 a@5 a@6 a@7 a@0 a@1) (t_potential_sie (V 2) (V 3) (V 4) (V 5) (V 6) (V 7) (V 0) (V 1)) a req).
Proof. exact sie_grad. Qed.
Print Assumptions C97_sie.
(** x y x0 y0 mass Rc Rs d_l sigma_cr s d_s d_ls *)
Theorem C97_pseudo_jaffe : forall (a : nat -> R) (req : nat -> bool),
  0 < a@5 -> 0 < a@6 -> a@5 <> a@6 -> 0 < a@7 -> 0 < a@8 -> 0 <= a@9 -> 0 < a@10 ->
  (a@0 <> a@2 \/ a@1 <> a@3 ->
   grad_exact2 (fun a => reduced_deflection_angle_pseudo_jaffe a@2 a@3 a@4 a@5 a@6 a@0 a@1 a@7 a@8 a@9) (t_deflection_pseudo_jaffe (V 2) (V 3) (V 4) (V 5) (V 6) (V 0) (V 1) (V 7) (V 8) (V 9)) a req) /\
  grad_exact (fun a => potential_pseudo_jaffe a@2 a@3 a@4 a@5 a@6 a@0 a@1 a@7 a@10 a@11 a@9) (t_potential_pseudo_jaffe (V 2) (V 3) (V 4) (V 5) (V 6) (V 0) (V 1) (V 7) (V 10) (V 11) (V 9)) a req /\
  grad_exact (fun a => convergence_pseudo_jaffe a@2 a@3 a@4 a@5 a@6 a@0 a@1 a@7 a@8 a@9) (t_convergence_pseudo_jaffe (V 2) (V 3) (V 4) (V 5) (V 6) (V 0) (V 1) (V 7) (V 8) (V 9)) a req.
Proof. exact jaffe_grad. Qed.
Print Assumptions C97_pseudo_jaffe.
(** x y x0 y0 mass c critical_density d_l DELTA s sigma_cr *)
Theorem C97_nfw : forall (a : nat -> R) (req : nat -> bool),
  a@0 <> a@2 \/ a@1 <> a@3 -> 0 < a@4 -> 0 < a@5 -> 0 < a@6 -> 0 < a@7 -> 0 < a@8 -> 0 <= a@9 -> 0 < a@10 ->
  clear_of_1 eps_nfw (a@7 * (sqrt ((a@0 - a@2) ^ 2 + (a@1 - a@3) ^ 2) + a@9) * arcsec_to_rad / scale_radius_nfw a@6 a@4 a@5 a@8) ->
  grad_exact2 (fun a => physical_deflection_angle_nfw a@2 a@3 a@4 a@5 a@6 a@7 a@0 a@1 a@8 a@9) (t_deflection_nfw (V 2) (V 3) (V 4) (V 5) (V 6) (V 7) (V 0) (V 1) (V 8) (V 9)) a req /\
  grad_exact (fun a => potential_nfw a@10 a@6 a@2 a@3 a@4 a@5 a@7 a@0 a@1 a@8 a@9) (t_potential_nfw (V 10) (V 6) (V 2) (V 3) (V 4) (V 5) (V 7) (V 0) (V 1) (V 8) (V 9)) a req /\
  grad_exact_opt (fun a => convergence_nfw a@10 a@6 a@2 a@3 a@4 a@5 a@0 a@1 a@7 a@8 a@9) (t_convergence_nfw (V 10) (V 6) (V 2) (V 3) (V 4) (V 5) (V 0) (V 1) (V 7) (V 8) (V 9)) a req.
Proof. exact nfw_grad. Qed.
Print Assumptions C97_nfw.
(** x y x0 y0 Rs tau M0 d_l s critical_surface_density d_s d_ls *)
Theorem C97_tnfw : forall (a : nat -> R) (req : nat -> bool),
  a@0 <> a@2 \/ a@1 <> a@3 -> 0 < a@4 -> 0 < a@5 -> 0 < a@7 -> 0 <= a@8 -> 0 < a@9 -> 0 < a@10 ->
  let g := (sqrt ((a@0 - a@2) ^ 2 + (a@1 - a@3) ^ 2) + a@8) / a@4 in
  g <> 1 - 1 / 100 -> g <> 1 + 1 / 100 ->
  grad_exact2 (fun a => physical_deflection_angle_tnfw a@2 a@3 a@4 a@5 a@0 a@1 a@6 a@7 a@8) (t_deflection_tnfw (V 2) (V 3) (V 4) (V 5) (V 0) (V 1) (V 6) (V 7) (V 8)) a req /\
  (g <> 1 - 1 / 1000 -> g <> 1 + 1 / 1000 ->
   grad_exact (fun a => potential_tnfw a@2 a@3 a@4 a@5 a@0 a@1 a@6 a@7 a@10 a@11 a@8) (t_potential_tnfw (V 2) (V 3) (V 4) (V 5) (V 0) (V 1) (V 6) (V 7) (V 10) (V 11) (V 8)) a req) /\
  (g <> 1 -> grad_exact (fun a => convergence_tnfw a@2 a@3 a@4 a@5 a@0 a@1 a@9 a@6 a@7 a@8) (t_convergence_tnfw (V 2) (V 3) (V 4) (V 5) (V 0) (V 1) (V 9) (V 6) (V 7) (V 8)) a req).
Proof. exact tnfw_grad. Qed.
Print Assumptions C97_tnfw.
(** x y x0 y0, then amplitude and angle of each order *)
Theorem C97_multipole : forall (a : nat -> R) (req : nat -> bool) (ms : list Z),
  orders_accepted (mode_vals ms a) = true -> a@0 <> a@2 \/ a@1 <> a@3 ->
  grad_exact2 (fun a => reduced_deflection_angle_multipole a@2 a@3 (mode_vals ms a) a@0 a@1) (t_deflection_multipole (V 2) (V 3) (mode_args ms) (V 0) (V 1)) a req /\
  grad_exact (fun a => potential_multipole a@2 a@3 (mode_vals ms a) a@0 a@1) (t_potential_multipole (V 2) (V 3) (mode_args ms) (V 0) (V 1)) a req /\
  grad_exact (fun a => convergence_multipole a@2 a@3 (mode_vals ms a) a@0 a@1) (t_convergence_multipole (V 2) (V 3) (mode_args ms) (V 0) (V 1)) a req.
Proof. exact multipole_grad. Qed.
Print Assumptions C97_multipole.
(** x y x0 y0 q phi Rein t s *)
Theorem C97_epl_convergence : forall (a : nat -> R) (req : nat -> bool),
  0 < a@4 -> 0 < a@6 -> (a@0 <> a@2 \/ a@1 <> a@3) \/ a@8 <> 0 ->
  grad_exact (fun a => convergence_epl a@2 a@3 a@4 a@5 a@6 a@7 a@8 a@0 a@1) (t_convergence_epl (V 2) (V 3) (V 4) (V 5) (V 6) (V 7) (V 0) (V 1) (V 8)) a req.
Proof. exact epl_kappa_grad. Qed.
Print Assumptions C97_epl_convergence.
(** x y x0 y0 q phi Rein t; every number of series terms and chunk size for which the series can be summed *)
Theorem C97_epl : forall (a : nat -> R) (n_iter : nat) (n_chunk : option nat),
  0 < a@4 -> 0 < a@6 -> a@7 < 4 -> a@0 <> a@2 \/ a@1 <> a@3 -> forall (req : nat -> bool) (v : R * R),
  reduced_deflection_angle_epl a@2 a@3 a@4 a@5 a@6 a@7 n_iter n_chunk a@0 a@1 = Ok v ->
  grad_exact2_ret (fun a => reduced_deflection_angle_epl a@2 a@3 a@4 a@5 a@6 a@7 n_iter n_chunk a@0 a@1)
    (t_deflection_epl (V 2) (V 3) (V 4) (V 5) (V 6) (V 7) (V 0) (V 1) n_iter n_chunk) a req /\
  (a@7 <> 2 ->
   grad_exact_ret (fun a => potential_epl a@2 a@3 a@4 a@5 a@6 a@7 n_iter n_chunk a@0 a@1)
     (t_potential_epl (V 2) (V 3) (V 4) (V 5) (V 6) (V 7) (V 0) (V 1) n_iter n_chunk) a req).
Proof. exact epl_grad. Qed.
Print Assumptions C97_epl.
(** x y x0 y0 q phi n Re Ie k s *)
Theorem C97_sersic : forall (a : nat -> R) (req : nat -> bool),
  0 < a@4 -> 0 < a@6 -> 0 < a@7 -> 0 <= a@10 -> (a@0 <> a@2 \/ a@1 <> a@3) ->
  grad_exact_opt (fun a => brightness_sersic a@2 a@3 a@4 a@5 a@6 a@7 a@8 a@0 a@1 a@9 a@10) (t_brightness_sersic (V 2) (V 3) (V 4) (V 5) (V 6) (V 7) (V 8) (V 0) (V 1) (V 9) (V 10)) a req.
Proof. exact sersic_grad. Qed.
Print Assumptions C97_sersic.
(** at the centre, for every softening, the gradient is not a finite number *)
Theorem C96_backpropagation_centre : forall (a : nat -> R) (req : nat -> bool), a@0 = a@2 -> a@1 = a@3 -> req 0%nat = true ->
  bad (grad a req (fst (t_deflection_sis (V 2) (V 3) (V 4) (V 5) (V 0) (V 1))) 0) /\
  bad (grad a req (fst (t_deflection_point (V 2) (V 3) (V 4) (V 5) (V 0) (V 1))) 0) /\
  bad (grad a req (fst (t_deflection_pseudo_jaffe (V 2) (V 3) (V 4) (V 5) (V 6) (V 0) (V 1) (V 7) (V 8) (V 9))) 0) /\
  bad (grad a req (fst (t_deflection_nfw (V 2) (V 3) (V 4) (V 5) (V 6) (V 7) (V 0) (V 1) (V 8) (V 9))) 0) /\
  bad (grad a req (fst (t_deflection_tnfw (V 2) (V 3) (V 4) (V 5) (V 0) (V 1) (V 6) (V 7) (V 8))) 0).
Proof. exact centres_bad. Qed.
Print Assumptions C96_backpropagation_centre.

(** a formula with a masked branch, and a lens, that meet the hypotheses *)
Definition at_ (l : list R) (n : nat) : R := nth n l 0.
Example C97_hyps :
  tame (at_ [2]) (Where (Lt (V 0) (Cst 1)) (Acosh (Div (Cst 1) (AtMost (1 / 2) (V 0)))) (Ln (V 0))) /\
  (let a := at_ [1; 0; 0; 0; 1; 1 / 10] in (a@0 <> a@2 \/ a@1 <> a@3) /\ 0 <= a@5) /\
  (let a := at_ [0; 0; 0; 0; 1 / 2; 1; 1; 1 / 10] in
   ((a@0 <> a@2 \/ a@1 <> a@3) \/ 0 < a@7) /\ 0 <= a@7 /\ 0 < a@4 <= 1 /\ a@4 < 1 /\ position 7%nat = false) /\
  (let a := at_ [3; 0; 0; 0; 1; 1; 1; 1; 0; 1; 2; 1] in (a@0 <> a@2 \/ a@1 <> a@3) /\ 0 < a@4 /\ 0 < a@5 /\ 0 < a@7 /\ 0 <= a@8 /\ 0 < a@9 /\ 0 < a@10 /\
   let g := (sqrt ((a@0 - a@2) ^ 2 + (a@1 - a@3) ^ 2) + a@8) / a@4 in
   g <> 1 - 1 / 100 /\ g <> 1 + 1 / 100 /\ g <> 1 - 1 / 1000 /\ g <> 1 + 1 / 1000 /\ g <> 1) /\
  orders_accepted (mode_vals [3%Z; 4%Z] (at_ [-1; 0; 0; 0; 1; 0; 1; 0])) = true.
Proof.
  split; [|split; [|split; [|split; [|reflexivity]]]]; cbn [at_ nth tame ev]; cbv zeta.
  - rewrite Rmin_right by lra. repeat split; lra.
  - lra.
  - repeat split; try lra; try reflexivity.
  - replace ((3 - 0) ^ 2 + (0 - 0) ^ 2) with (3 ^ 2) by ring. rewrite sqrt_pow2 by lra. lra.
Qed.
