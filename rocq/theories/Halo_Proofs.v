(** * Surface density and physical deflection of halos do not involve the source *)
From Coq Require Import Reals Lra.
From Verif Require Import Const_Model Cosmo_Model Geo_Model LensBase_Model Jaffe_Model Nfw_Model Tnfw_Model Halo_Model.
Local Open Scope R_scope.

Section S.
Variable dc : R -> R.
Variable z_l : R.
Let Dl := angular_diameter_distance dc z_l.
Let Ds := angular_diameter_distance dc.
Let Dls := angular_diameter_distance_z1z2 dc z_l.
Let sg := critical_surface_density dc z_l.
Hypothesis L : Dl <> 0.
Let K := 4 * PI * G_over_c2.
Lemma K_nz : K <> 0.
Proof. assert (P := PI_RGT_0). assert (Q := G_over_c2_pos). unfold K. assert (0 < 4 * PI * G_over_c2) by (apply Rmult_lt_0_compat; [apply Rmult_lt_0_compat|]; lra). lra. Qed.
Lemma sigma_val z_s : sg z_s = Ds z_s / (K * Dl * Dls z_s).
Proof. reflexivity. Qed.
Section B.
Variable z_s : R.
Hypothesis A : Ds z_s <> 0.
Hypothesis B : Dls z_s <> 0.
Lemma sigma_nz : sg z_s <> 0.
Proof.
  rewrite sigma_val. assert (k := K_nz). unfold Rdiv. apply Rmult_integral_contrapositive_currified; [assumption|].
  apply Rinv_neq_0_compat. apply Rmult_integral_contrapositive_currified; [apply Rmult_integral_contrapositive_currified|]; assumption.
Qed.
Lemma over_sigma a : a / sg z_s * sg z_s = a.
Proof. field. exact sigma_nz. Qed.
Lemma phys_sigma a : Ds z_s / Dls z_s * (a / sg z_s) = a * K * Dl.
Proof. rewrite sigma_val. assert (k := K_nz). field. repeat split; assumption. Qed.

Lemma jaffe_0 mass Rc Rs : convergence_0_pseudo_jaffe mass Rc Rs Dl (sg z_s) = convergence_0_pseudo_jaffe mass Rc Rs Dl 1 / sg z_s.
Proof.
  unfold convergence_0_pseudo_jaffe, Rdiv. replace (2 * PI * sg z_s * Rc * Rs * (Dl * arcsec_to_rad) ^ 2) with (2 * PI * 1 * Rc * Rs * (Dl * arcsec_to_rad) ^ 2 * sg z_s) by ring.
  rewrite Rinv_mult. ring.
Qed.
Lemma jaffe_sd x0 y0 mass Rc Rs x y :
  surface_density dc (jaffe_lens dc z_s z_l x0 y0 mass Rc Rs) z_s x y = convergence_pseudo_jaffe x0 y0 mass Rc Rs x y Dl 1 0.
Proof.
  unfold surface_density, jaffe_lens, jaffe_convergence. cbn [convergence LensBase_Model.z_l]. fold Dl. fold (sg z_s).
  unfold convergence_pseudo_jaffe. destruct (translate_rotate x y x0 y0 None) as [u v]. cbv zeta. rewrite jaffe_0.
  match goal with |- ?c / sg z_s * Rc * Rs / (Rs - Rc) * ?d * sg z_s = _ => replace (c / sg z_s * Rc * Rs / (Rs - Rc) * d * sg z_s) with ((c * Rc * Rs / (Rs - Rc) * d) / sg z_s * sg z_s) by (unfold Rdiv; ring) end.
  apply over_sigma.
Qed.
Lemma jaffe_pot x0 y0 mass Rc Rs x y :
  Ds z_s / Dls z_s * potential (jaffe_lens dc z_s z_l x0 y0 mass Rc Rs) x y = potential_pseudo_jaffe x0 y0 mass Rc Rs x y Dl 1 1 0.
Proof.
  unfold jaffe_lens, jaffe_potential. cbn [potential]. fold Dl Ds. fold (Ds z_s) (Dls z_s). unfold potential_pseudo_jaffe.
  destruct (translate_rotate x y x0 y0 None) as [u v]. cbv zeta. 
  match goal with |- _ * (- (?c * (Dl * Dls z_s / Ds z_s) * Rc * Rs / (Rs - Rc)) * ?d) = _ => replace (c * (Dl * Dls z_s / Ds z_s) * Rc * Rs / (Rs - Rc)) with (Dls z_s / Ds z_s * (c * (Dl * 1 / 1) * Rc * Rs / (Rs - Rc))) by (unfold Rdiv; rewrite Rinv_1; ring);
   generalize (c * (Dl * 1 / 1) * Rc * Rs / (Rs - Rc)), d; intros e f end.
  field. split; assumption.
Qed.
Lemma jaffe_defl x0 y0 mass Rc Rs x y :
  physical_deflection_angle dc (jaffe_lens dc z_s z_l x0 y0 mass Rc Rs) z_s x y =
  let '(ax, ay) := reduced_deflection_angle_pseudo_jaffe x0 y0 mass Rc Rs x y Dl 1 0 in (K * Dl * ax, K * Dl * ay).
Proof.
  unfold physical_deflection_angle, jaffe_lens, jaffe_reduced_deflection_angle. cbn [reduced_deflection_angle LensBase_Model.z_l]. fold Dl. fold Ds. fold (Dls z_s) (Ds z_s) (sg z_s).
  unfold reduced_deflection_angle_pseudo_jaffe. destruct (translate_rotate x y x0 y0 None) as [u v]. cbv zeta. rewrite jaffe_0. unfold physical_from_reduced_deflection_angle.
  match goal with |- (_ * (2 * (?c / _) * Rc * Rs / (Rs - Rc) * ?f * _ / ?r), _) = _ => generalize c, f, r; intros c' f' r' end.
  f_equal; match goal with |- _ = K * Dl * (?a * ?u / ?r) => transitivity (Ds z_s / Dls z_s * (a * u / r / sg z_s)); [unfold Rdiv; ring | rewrite phys_sigma; ring] end.
Qed.

Lemma tnfw_sd cd tot x0 y0 mass Rs tau s x y :
  surface_density dc (tnfw_lens dc cd tot z_s z_l x0 y0 mass Rs tau s) z_s x y = convergence_tnfw x0 y0 Rs tau x y 1 (tnfw_M0 dc cd tot z_l mass Rs tau) Dl s.
Proof.
  unfold surface_density, tnfw_lens, tnfw_convergence. cbn [convergence LensBase_Model.z_l]. fold Dl. fold (sg z_s).
  unfold convergence_tnfw. destruct (translate_rotate x y x0 y0 None) as [u v]. cbv zeta. rewrite over_sigma. unfold Rdiv. rewrite Rinv_1. ring.
Qed.
Lemma tnfw_pot cd tot x0 y0 mass Rs tau s x y :
  Ds z_s / Dls z_s * potential (tnfw_lens dc cd tot z_s z_l x0 y0 mass Rs tau s) x y = potential_tnfw x0 y0 Rs tau x y (tnfw_M0 dc cd tot z_l mass Rs tau) Dl 1 1 s.
Proof.
  unfold tnfw_lens, tnfw_potential. cbn [potential]. fold Dl Ds. fold (Ds z_s) (Dls z_s). unfold potential_tnfw.
  destruct (translate_rotate x y x0 y0 None) as [u v]. cbv zeta.
  match goal with |- _ * (?c * (Dls z_s / Ds z_s) / ?d * ?a * ?e) = _ => generalize a, e; intros a' e'; replace (c * (Dls z_s / Ds z_s) / d) with (Dls z_s / Ds z_s * (c * (1 / 1) / d)) by (unfold Rdiv; rewrite Rinv_1; ring);
    generalize (c * (1 / 1) / d); intros f end.
  field. split; assumption.
Qed.
Lemma tnfw_defl cd tot x0 y0 mass Rs tau s x y :
  physical_deflection_angle dc (tnfw_lens dc cd tot z_s z_l x0 y0 mass Rs tau s) z_s x y = tnfw_physical_deflection_angle dc cd tot z_l x0 y0 mass Rs tau s x y.
Proof.
  unfold physical_deflection_angle, tnfw_lens, tnfw_reduced_deflection_angle. cbn [reduced_deflection_angle LensBase_Model.z_l]. fold Ds. fold (Dls z_s) (Ds z_s).
  destruct (tnfw_physical_deflection_angle dc cd tot z_l x0 y0 mass Rs tau s x y) as [a b]. unfold physical_from_reduced_deflection_angle, reduced_from_physical_deflection_angle. f_equal; field; split; assumption.
Qed.

Lemma nfw_sd cd x0 y0 mass c s x y :
  nfw_surface_density dc cd z_s z_l x0 y0 mass c s x y = convergence_nfw 1 (cd z_l) x0 y0 mass c x y Dl DELTA s.
Proof.
  unfold nfw_surface_density, nfw_convergence. fold Dl. fold (sg z_s). unfold convergence_nfw. destruct (translate_rotate x y x0 y0 None) as [u v]. cbv zeta. unfold fin_div.
  destruct (Req_EM_T _ 0) as [E|E]; [reflexivity|]. cbn [option_map]. f_equal. unfold convergence_s_nfw. cbv zeta.
  match goal with |- 2 * (?a / sg z_s) * ?f / ?d * sg z_s = _ => transitivity ((2 * a * f / d) / sg z_s * sg z_s); [unfold Rdiv; ring | rewrite over_sigma; unfold Rdiv; rewrite Rinv_1; ring] end.
Qed.
Lemma nfw_pot cd x0 y0 mass c s kappa x y :
  Ds z_s / Dls z_s * potential (nfw_lens dc cd z_s z_l x0 y0 mass c s kappa) x y = K * Dl * potential_nfw 1 (cd z_l) x0 y0 mass c Dl x y DELTA s.
Proof.
  unfold nfw_lens, nfw_potential. cbn [potential]. fold Dl Ds. fold (Ds z_s) (Dls z_s) (sg z_s). unfold potential_nfw.
  destruct (translate_rotate x y x0 y0 None) as [u v]. cbv zeta. unfold convergence_s_nfw. cbv zeta.
  match goal with |- Ds z_s / Dls z_s * (2 * (?a / sg z_s) * ?g * ?r / ?d) = _ => transitivity (Ds z_s / Dls z_s * ((2 * a * g * r / d) / sg z_s)); [unfold Rdiv; ring | rewrite phys_sigma; unfold Rdiv; rewrite Rinv_1; ring] end.
Qed.
Lemma nfw_defl cd x0 y0 mass c s kappa x y :
  physical_deflection_angle dc (nfw_lens dc cd z_s z_l x0 y0 mass c s kappa) z_s x y = nfw_physical_deflection_angle dc cd z_l x0 y0 mass c s x y.
Proof.
  unfold physical_deflection_angle, nfw_lens, nfw_reduced_deflection_angle. cbn [reduced_deflection_angle LensBase_Model.z_l]. fold Ds. fold (Dls z_s) (Ds z_s).
  destruct (nfw_physical_deflection_angle dc cd z_l x0 y0 mass c s x y) as [a b]. unfold physical_from_reduced_deflection_angle, reduced_from_physical_deflection_angle. f_equal; field; split; assumption.
Qed.
End B.
End S.
