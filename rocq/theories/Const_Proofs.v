(** * Consistency of the physical constants *)
From Coq Require Import Reals Lra Machin Ratan.
From Verif Require Import Const_Model Cosmo_Model.
Open Scope R_scope.

(** pi to twelve digits, by Machin's formula *)
Lemma machin_term n : tg_alt PI_2_3_7_tg n = (-1)^n * (2 * ((/3)^(2*n+1) / INR (2*n+1)) + (/7)^(2*n+1) / INR (2*n+1)).
Proof. reflexivity. Qed.
Lemma pi_lo : 3.141592653588 <= PI.
Proof.
  assert (H := proj1 (PI_2_3_7_ineq 6)).
  apply Rmult_le_reg_r with (/4); [lra|]. eapply Rle_trans; [|exact H].
  cbn [sum_f_R0 Nat.mul Nat.add]. rewrite !machin_term.
  cbn [Nat.mul Nat.add pow]. rewrite !INR_IZR_INZ. cbn [Z.of_nat Pos.of_succ_nat Pos.succ]. lra.
Qed.
Lemma pi_hi : PI <= 3.141592653592.
Proof.
  assert (H := proj2 (PI_2_3_7_ineq 6)).
  apply Rmult_le_reg_r with (/4); [lra|]. eapply Rle_trans; [exact H|].
  cbn [sum_f_R0 Nat.mul Nat.add]. rewrite !machin_term.
  cbn [Nat.mul Nat.add pow]. rewrite !INR_IZR_INZ. cbn [Z.of_nat Pos.of_succ_nat Pos.succ]. lra.
Qed.
Lemma angles : rad_to_deg * (2 * PI) = 360 /\ rad_to_arcsec * (2 * PI) = 1296000 /\ deg_to_arcsec * 360 = 1296000 /\
  (forall a, deg_to_rad * (rad_to_deg * a) = a) /\ (forall a, arcsec_to_rad * (rad_to_arcsec * a) = a) /\
  (forall a, arcsec_to_deg * (deg_to_arcsec * a) = a).
Proof.
  assert (P := PI_RGT_0). assert (D := deg_rad_inv). assert (A := arcsec_rad_inv).
  repeat split; try (unfold rad_to_deg, rad_to_arcsec, deg_to_arcsec; field; lra).
  - intros a. rewrite <- Rmult_assoc, D. ring.
  - intros a. rewrite <- Rmult_assoc, A. ring.
  - intros a. unfold arcsec_to_deg, deg_to_arcsec. field.
Qed.
Lemma sigma_cr_G cd zl zs : angular_diameter_distance cd zl <> 0 -> angular_diameter_distance_z1z2 cd zl zs <> 0 ->
  critical_surface_density cd zl zs = 10 ^ 6 * c_km_s ^ 2 / (4 * PI * G) * (angular_diameter_distance cd zs / (angular_diameter_distance cd zl * angular_diameter_distance_z1z2 cd zl zs)).
Proof.
  intros A B. unfold critical_surface_density. rewrite G_consistent.
  assert (C := c_km_s_pos). assert (P := PI_RGT_0). assert (Q := G_pos). field. repeat split; lra.
Qed.
Lemma light : Rabs (c_Mpc_s / (c_km_s * km_to_Mpc) - 1) <= 1 / 10 ^ 10.
Proof.
  assert (L := pi_lo). assert (H := pi_hi).
  replace (c_Mpc_s / (c_km_s * km_to_Mpc)) with (PI * (10 ^ 30 / (149597870700 * 648000 * 32407792896664))).
  - apply Rabs_le. lra.
  - unfold c_Mpc_s, c_km_s, km_to_Mpc, parsec_m, c_SI. field. lra.
Qed.
Lemma hubble_dist h0 : 0 < h0 -> Rabs (hubble_distance h0 * h0 / (c_km_s / 100) - 1) <= 1 / 10 ^ 10.
Proof.
  intros H. unfold hubble_distance.
  replace (c_Mpc_s / (100 * km_to_Mpc) / h0 * h0 / (c_km_s / 100)) with (c_Mpc_s / (c_km_s * km_to_Mpc)).
  - exact light.
  - assert (K := km_to_Mpc_pos). assert (C := c_km_s_pos). field. lra.
Qed.
Lemma light_time d : d / c_Mpc_s / days_to_seconds = d * (10 ^ 6 * (648000 / PI) * 149597870700) / 299792458 / 86400.
Proof. unfold c_Mpc_s, days_to_seconds, parsec_m, c_SI. assert (P := PI_RGT_0). field. lra. Qed.
