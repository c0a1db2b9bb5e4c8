(** * C138: which of Jacobian, shear and magnification can be differentiated with respect to the parameters of a lens *)
From Coq Require Import Reals String.
From Coquelicot Require Import Coquelicot.
From Verif Require Import LensBase_Model LensBasic_Model Ad_Model Ad_Spec AdLens_Model AdJac_Model AdJac_Spec AdJac_Proofs AdJac2_Proofs Rev_Model Rev_Spec AdJac3_Proofs.
Local Open Scope R_scope.
Local Notation "a @ n" := (a n%nat) (at level 9, only parsing).
Local Notation V n := (Var n%nat).

(** The Jacobian of the lens equation with its default method has the right values but no tangents, whatever the lens and the direction; so has the shear. *)
Theorem C138_no_gradient : forall t a seed, no_tangent (d_jacobian_lens_equation_autograd t a seed) /\
  snd (fst (d_shear (d_jacobian_lens_equation_autograd t a seed))) = None /\ snd (snd (d_shear (d_jacobian_lens_equation_autograd t a seed))) = None.
Proof. exact (fun t a s => conj (lens_jacobian_no_tangent t a s) (shear_no_tangent t a s)). Qed.
Print Assumptions C138_no_gradient.
Theorem C138_values : forall F t a seed, computes F t -> smooth a (fst t) -> smooth a (snd t) -> values (d_jacobian_lens_equation_autograd t a seed) (lens_jacobian F a).
Proof. exact lens_jacobian_values. Qed.
Print Assumptions C138_values.
(** ExternalShear: the shear is gamma_1, its derivative with respect to gamma_1 is 1, and what is reported is 0. *)
Theorem C138_refuted : exists F t a seed, computes F t /\ smooth a (fst t) /\ smooth a (snd t) /\
  fst (fst (d_shear (d_jacobian_lens_equation_autograd t a seed))) = Fin (fst (shear_of_jacobian (lens_jacobian F a))) /\
  tval (snd (fst (d_shear (d_jacobian_lens_equation_autograd t a seed)))) = Fin 0 /\
  is_derive (fun h => fst (shear_of_jacobian (lens_jacobian F (along a seed h)))) 0 1.
Proof. exact shear_refuted. Qed.
Print Assumptions C138_refuted.
(** The Jacobian of the deflection is differentiated exactly, and so is what is computed from it. *)
Theorem C138_deflection_jacobian_partial : forall F t a seed, computes F t -> smooth a (fst t) -> smooth a (snd t) ->
  dual_exact_mat (deflection_jacobian F) (d_jacobian_deflection_autograd t a seed) a seed.
Proof. exact deflection_jacobian_ad. Qed.
Print Assumptions C138_deflection_jacobian_partial.
Theorem C138_effective_convergence_partial : forall F t a seed, computes F t -> smooth a (fst t) -> smooth a (snd t) ->
  dual_exact (fun b => effective_convergence_div (deflection_jacobian F b)) (d_effective_convergence_div (d_jacobian_deflection_autograd t a seed)) a seed /\
  dual_exact (fun b => effective_convergence_curl (deflection_jacobian F b)) (d_effective_convergence_curl (d_jacobian_deflection_autograd t a seed)) a seed.
Proof. exact (fun F t a s A B C => dx_conv _ _ _ _ (deflection_jacobian_ad F t a s A B C)). Qed.
Print Assumptions C138_effective_convergence_partial.
(** So is the magnification, off the critical curve. *)
Theorem C138_magnification_partial : forall F t a seed, computes F t -> smooth a (fst t) -> smooth a (snd t) ->
  magnification (at_position F a) (a 0%nat) (a 1%nat) <> None ->
  ad_exact_opt (fun b => magnification (at_position F b) (b 0%nat) (b 1%nat)) (t_magnification t) a seed.
Proof. exact magnification_ad. Qed.
Print Assumptions C138_magnification_partial.
(** With finite differences the Jacobian of the lens equation and the shear keep their tangents. *)
Theorem C138_finitediff_partial : forall F rows cols X Y h t a seed, (2 <= rows)%nat -> (2 <= cols)%nat -> h <> 0 ->
  (forall i j, (i < rows)%nat -> (j < cols)%nat -> ad_exact2 (fun b => at_position F b (X i j) (Y i j)) (t i j) a seed) ->
  forall i j, (i < rows)%nat -> (j < cols)%nat ->
  (exists A, (forall b, jacobian_lens_equation (at_position F b) (rows, cols) X Y "finitediff" (Some h) = Py.Ok (A b)) /\
     dual_exact_mat (fun b => A b i j) (d_jacobian_lens_equation_finitediff rows cols h t i j a seed) a seed) /\
  (exists G, (forall b, shear (at_position F b) (rows, cols) X Y "finitediff" (Some h) = Py.Ok (G b)) /\
     dual_exact (fun b => fst (G b i j)) (fst (d_shear (d_jacobian_lens_equation_finitediff rows cols h t i j a seed))) a seed /\
     dual_exact (fun b => snd (G b i j)) (snd (d_shear (d_jacobian_lens_equation_finitediff rows cols h t i j a seed))) a seed).
Proof. exact finitediff_ad. Qed.
Print Assumptions C138_finitediff_partial.
(** Backpropagation through the Jacobian of the deflection and through the magnification returns the gradient. *)
Theorem C138_reverse_partial : forall F t a req, computes F t -> smooth a (fst t) -> smooth a (snd t) -> tame a (fst t) -> tame a (snd t) ->
  (grad_exact (fun b => m00 (deflection_jacobian F b)) (fst (fst (t_jacfwd t))) a req /\ grad_exact (fun b => m01 (deflection_jacobian F b)) (snd (fst (t_jacfwd t))) a req /\
   grad_exact (fun b => m10 (deflection_jacobian F b)) (fst (snd (t_jacfwd t))) a req /\ grad_exact (fun b => m11 (deflection_jacobian F b)) (snd (snd (t_jacfwd t))) a req) /\
  (magnification (at_position F a) (a 0%nat) (a 1%nat) <> None ->
   grad_exact_opt (fun b => magnification (at_position F b) (b 0%nat) (b 1%nat)) (t_magnification t) a req).
Proof. exact (fun F t a r A B C D E => conj (deflection_jacobian_rev F t a r A B C D E) (magnification_rev F t a r A B C D E)). Qed.
Print Assumptions C138_reverse_partial.
Theorem C138_lenses_reverse : forall a : nat -> R,
  (tame a (fst t_sheet) /\ tame a (snd t_sheet)) /\ (tame a (fst t_shear) /\ tame a (snd t_shear)) /\
  (a@0 <> a@2 \/ a@1 <> a@3 -> 0 <= a@5 -> (tame a (fst t_sis) /\ tame a (snd t_sis)) /\ (tame a (fst t_point) /\ tame a (snd t_point))) /\
  ((a@0 <> a@2 \/ a@1 <> a@3) \/ 0 < a@7 -> 0 <= a@7 -> 0 < a@4 < 1 -> tame a (fst t_sie) /\ tame a (snd t_sie)).
Proof.
  exact (fun a => conj (proj1 (smooth_tame_basic a)) (conj (proj1 (proj2 (smooth_tame_basic a))) (conj (fun H S => conj (sis_rev a H S) (point_rev a H S)) (sie_rev a)))).
Qed.
Print Assumptions C138_lenses_reverse.
(** The hypotheses for some lenses; the arguments 0, 1 are the position, 2, 3 the centre. *)
Theorem C138_lenses : forall a : nat -> R,
  (computes (fun a => reduced_deflection_angle_mass_sheet a@2 a@3 a@4 a@0 a@1) t_sheet /\ smooth a (fst t_sheet) /\ smooth a (snd t_sheet)) /\
  (computes (fun a => reduced_deflection_angle_external_shear a@2 a@3 a@4 a@5 a@0 a@1) t_shear /\ smooth a (fst t_shear) /\ smooth a (snd t_shear)) /\
  (a@0 <> a@2 \/ a@1 <> a@3 -> 0 <= a@5 ->
    computes (fun a => reduced_deflection_angle_sis a@2 a@3 a@4 a@5 a@0 a@1) t_sis /\ smooth a (fst t_sis) /\ smooth a (snd t_sis)) /\
  (a@0 <> a@2 \/ a@1 <> a@3 -> 0 <= a@5 ->
    computes (fun a => reduced_deflection_angle_point a@2 a@3 a@4 a@5 a@0 a@1) t_point /\ smooth a (fst t_point) /\ smooth a (snd t_point)) /\
  ((a@0 <> a@2 \/ a@1 <> a@3) \/ 0 < a@7 -> 0 <= a@7 -> 0 < a@4 < 1 ->
    computes (fun a => reduced_deflection_angle_sie a@2 a@3 a@4 a@5 a@6 a@7 a@0 a@1) t_sie /\ smooth a (fst t_sie) /\ smooth a (snd t_sie)).
Proof.
  exact (fun a => conj (conj sheet_computes (sheet_smooth a)) (conj (conj shear_computes (shear_smooth a))
    (conj (fun H S => conj sis_computes (sis_smooth a H S)) (conj (fun H S => conj point_computes (point_smooth a H S)) (fun H S Q => conj sie_computes (sie_smooth a H S Q)))))).
Qed.
Print Assumptions C138_lenses.
Example C138_hyps :
  (exists a : nat -> R, (a@0 <> a@2 \/ a@1 <> a@3) /\ 0 <= a@7 /\ 0 < a@4 < 1 /\ smooth a (fst t_sie) /\ smooth a (snd t_sie) /\ computes sie_lens t_sie) /\
  (exists a : nat -> R, magnification (at_position sheet_lens a) (a@0) (a@1) = Some 4) /\
  (forall a seed, forall i j : nat,
     ad_exact2 (fun b => at_position sheet_lens b (INR j) (INR i)) (t_deflection_mass_sheet (V 2) (V 3) (V 4) (Cst (INR j)) (Cst (INR i))) a seed).
Proof. exact (conj hyps_jac (conj hyps_mag hyps_fd)). Qed.
