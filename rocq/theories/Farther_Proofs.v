(** * Lenses and the distance of the source *)
From Coq Require Import Reals Lra Lia List.
From Verif Require Import Py Const_Model Const_Proofs Cosmo_Model Geo_Model LensBase_Model LensBasic_Model Jaffe_Model Nfw_Model Tnfw_Model Halo_Model Halo_Proofs Behind_Proofs
  CosmoTable_Model CosmoTable_Proofs Farther_Spec.
Local Open Scope R_scope.

Lemma pow2_gt_0 x : x <> 0 -> 0 < x ^ 2.
Proof. intros. rewrite <- Rsqr_pow2. apply Rsqr_pos_lt; assumption. Qed.
Section S.
Variables (dc : R -> R) (z_l z1 z2 : R).
Hypothesis H : in_order dc z_l z1 z2.
Let Dl := angular_diameter_distance dc z_l.
Let D1 := angular_diameter_distance dc z1.
Let D2 := angular_diameter_distance dc z2.
Let R1 := angular_diameter_distance_z1z2 dc z_l z1.
Let R2 := angular_diameter_distance_z1z2 dc z_l z2.
Lemma all_pos : 0 < Dl /\ 0 < D1 /\ 0 < D2 /\ 0 < R1 /\ 0 < R2.
Proof.
  destruct H as (A & B & C & E & F & G). unfold Dl, D1, D2, R1, R2, angular_diameter_distance, angular_diameter_distance_z1z2, comoving_distance_z1z2.
  repeat split; apply Rdiv_lt_0_compat; lra.
Qed.
Lemma efficiency z : -1 < z -> 0 < dc z -> angular_diameter_distance_z1z2 dc z_l z / angular_diameter_distance dc z = 1 - dc z_l / dc z.
Proof. intros. unfold angular_diameter_distance, angular_diameter_distance_z1z2, comoving_distance_z1z2. field. lra. Qed.
Lemma efficiency_grows : 0 < R1 / D1 /\ R1 / D1 < R2 / D2 /\ R2 / D2 < 1.
Proof.
  destruct H as (A & B & C & E & F & G). assert (P := all_pos). split; [apply Rdiv_lt_0_compat; lra|].
  unfold R1, D1, R2, D2. rewrite !efficiency by lra.
  assert (I : / dc z2 < / dc z1) by (apply Rinv_lt_contravar; [apply Rmult_lt_0_compat; lra|lra]).
  assert (J : dc z_l * / dc z2 < dc z_l * / dc z1) by (apply Rmult_lt_compat_l; lra).
  assert (0 < dc z_l * / dc z2) by (apply Rmult_lt_0_compat; [lra|apply Rinv_0_lt_compat; lra]). unfold Rdiv. lra.
Qed.
Definition gain : R := (R2 / D2) / (R1 / D1).
Lemma gain_big : 1 < gain.
Proof. destruct efficiency_grows as (A & B & C). unfold gain. set (e1 := R1 / D1) in *. set (e2 := R2 / D2) in *. clearbody e1 e2. apply (Rmult_lt_reg_r e1); [exact A|]. replace (e2 / e1 * e1) with e2 by (field; lra). lra. Qed.
Lemma sigma_gain : critical_surface_density dc z_l z1 = gain * critical_surface_density dc z_l z2.
Proof.
  destruct all_pos as (A & B & C & D & E). unfold critical_surface_density. cbv zeta. fold Dl D1 D2 R1 R2. unfold gain. pose proof PI_RGT_0. pose proof G_over_c2_pos. field. repeat split; lra.
Qed.
Lemma sigma_pos : 0 < critical_surface_density dc z_l z2.
Proof.
  destruct all_pos as (A & B & C & D & E). unfold critical_surface_density. cbv zeta. fold Dl D2 R2. pose proof PI_RGT_0. pose proof G_over_c2_pos.
  apply Rdiv_lt_0_compat; [exact C|]. repeat (apply Rmult_lt_0_compat; try lra).
Qed.
Lemma sigma_falls : 0 < critical_surface_density dc z_l z2 < critical_surface_density dc z_l z1.
Proof. assert (P := sigma_pos). assert (G := gain_big). rewrite sigma_gain. split; [exact P|]. nra. Qed.
Lemma reduced_grows ax ay : let r z := reduced_from_physical_deflection_angle ax ay (angular_diameter_distance dc z) (angular_diameter_distance_z1z2 dc z_l z) in
  r z2 = (gain * fst (r z1), gain * snd (r z1)) /\
  fst (r z1) ^ 2 + snd (r z1) ^ 2 <= fst (r z2) ^ 2 + snd (r z2) ^ 2 <= ax ^ 2 + ay ^ 2 /\
  (ax <> 0 \/ ay <> 0 -> fst (r z1) ^ 2 + snd (r z1) ^ 2 < fst (r z2) ^ 2 + snd (r z2) ^ 2 < ax ^ 2 + ay ^ 2).
Proof.
  cbv zeta. unfold reduced_from_physical_deflection_angle. cbn [fst snd]. fold D1 D2 R1 R2. destruct efficiency_grows as (A & B & C). assert (Q : R2 / D2 = gain * (R1 / D1)) by (unfold gain; field; destruct all_pos as (?&?&?&?&?); repeat split; lra).
  split; [rewrite Q; f_equal; ring|]. set (e1 := R1 / D1) in *. set (e2 := R2 / D2) in *. clearbody e1 e2.
  assert (S1 : e1 ^ 2 < e2 ^ 2) by nra. assert (S2 : e2 ^ 2 < 1) by nra.
  replace ((e1 * ax) ^ 2 + (e1 * ay) ^ 2) with (e1 ^ 2 * (ax ^ 2 + ay ^ 2)) by ring. replace ((e2 * ax) ^ 2 + (e2 * ay) ^ 2) with (e2 ^ 2 * (ax ^ 2 + ay ^ 2)) by ring.
  assert (N1 := pow2_ge_0 ax). assert (N2 := pow2_ge_0 ay). split; [split; nra|]. intros Z.
  assert (0 < ax ^ 2 + ay ^ 2). { destruct Z as [Z|Z]; [assert (0 < ax ^ 2) by (apply pow2_gt_0; exact Z)|assert (0 < ay ^ 2) by (apply pow2_gt_0; exact Z)]; lra. }
  split; nra.
Qed.
Lemma of_physical' (L : R -> thin_lens) x y : (forall z, LensBase_Model.z_l (L z) = z_l) ->
  physical_deflection_angle dc (L z1) z1 x y = physical_deflection_angle dc (L z2) z2 x y ->
  reduced_deflection_angle (L z2) x y = (gain * fst (reduced_deflection_angle (L z1) x y), gain * snd (reduced_deflection_angle (L z1) x y)).
Proof.
  intros HL. destruct all_pos as (A & B & C & D & E). unfold physical_deflection_angle, physical_from_reduced_deflection_angle. rewrite !HL. fold D1 D2 R1 R2.
  destruct (reduced_deflection_angle (L z1) x y) as [a b], (reduced_deflection_angle (L z2) x y) as [a' b']. cbn [fst snd]. intros Q. injection Q as H1 H2. unfold gain.
  f_equal.
  - transitivity (R2 / D2 * (D2 / R2 * a')); [field; lra|]. rewrite <- H1. field. repeat split; lra.
  - transitivity (R2 / D2 * (D2 / R2 * b')); [field; lra|]. rewrite <- H2. field. repeat split; lra.
Qed.
Lemma of_density' k1 k2 : k1 * critical_surface_density dc z_l z1 = k2 * critical_surface_density dc z_l z2 -> k2 = gain * k1.
Proof.
  rewrite sigma_gain. intros Q. assert (P := sigma_pos). apply Rmult_eq_reg_r with (critical_surface_density dc z_l z2); [|lra]. rewrite <- Q. ring.
Qed.
Lemma of_potential p1 p2 : D1 / R1 * p1 = D2 / R2 * p2 -> p2 = gain * p1.
Proof.
  intros Q. destruct all_pos as (A & B & C & D & E). transitivity (R2 / D2 * (D2 / R2 * p2)); [field; lra|]. rewrite <- Q. unfold gain. field. repeat split; lra.
Qed.
Ltac nz := destruct all_pos as (A & B & C & D & E); unfold Dl, D1, D2, R1, R2 in A, B, C, D, E.
Lemma jaffe_farther x0 y0 mass Rc Rs : stronger (jaffe_lens dc z1 z_l x0 y0 mass Rc Rs) (jaffe_lens dc z2 z_l x0 y0 mass Rc Rs).
Proof.
  nz. exists gain. split; [exact gain_big|]. intros x y. split; [|split].
  - apply (of_physical' (fun z => jaffe_lens dc z z_l x0 y0 mass Rc Rs)); [reflexivity|]. rewrite !jaffe_defl by lra. reflexivity.
  - apply of_potential. unfold D1, R1, D2, R2. rewrite !jaffe_pot by lra. reflexivity.
  - apply of_density'. transitivity (surface_density dc (jaffe_lens dc z1 z_l x0 y0 mass Rc Rs) z1 x y); [reflexivity|].
    transitivity (surface_density dc (jaffe_lens dc z2 z_l x0 y0 mass Rc Rs) z2 x y); [|reflexivity]. rewrite !jaffe_sd by lra. reflexivity.
Qed.
Lemma tnfw_farther cd tot x0 y0 mass Rs tau s : stronger (tnfw_lens dc cd tot z1 z_l x0 y0 mass Rs tau s) (tnfw_lens dc cd tot z2 z_l x0 y0 mass Rs tau s).
Proof.
  nz. exists gain. split; [exact gain_big|]. intros x y. split; [|split].
  - apply (of_physical' (fun z => tnfw_lens dc cd tot z z_l x0 y0 mass Rs tau s)); [reflexivity|]. rewrite !tnfw_defl by lra. reflexivity.
  - apply of_potential. unfold D1, R1, D2, R2. rewrite !tnfw_pot by lra. reflexivity.
  - apply of_density'. transitivity (surface_density dc (tnfw_lens dc cd tot z1 z_l x0 y0 mass Rs tau s) z1 x y); [reflexivity|].
    transitivity (surface_density dc (tnfw_lens dc cd tot z2 z_l x0 y0 mass Rs tau s) z2 x y); [|reflexivity]. rewrite !tnfw_sd by lra. reflexivity.
Qed.
Lemma nfw_farther cd x0 y0 mass c s : exists k, 1 < k /\ forall x y,
  nfw_reduced_deflection_angle dc cd z2 z_l x0 y0 mass c s x y =
    (k * fst (nfw_reduced_deflection_angle dc cd z1 z_l x0 y0 mass c s x y), k * snd (nfw_reduced_deflection_angle dc cd z1 z_l x0 y0 mass c s x y)) /\
  nfw_potential dc cd z2 z_l x0 y0 mass c s x y = k * nfw_potential dc cd z1 z_l x0 y0 mass c s x y /\
  nfw_convergence dc cd z2 z_l x0 y0 mass c s x y = option_map (fun v => k * v) (nfw_convergence dc cd z1 z_l x0 y0 mass c s x y).
Proof.
  nz. exists gain. split; [exact gain_big|]. intros x y. split; [|split].
  - apply (of_physical' (fun z => nfw_lens dc cd z z_l x0 y0 mass c s (fun _ _ => 0))); [reflexivity|]. rewrite !nfw_defl by lra. reflexivity.
  - apply (of_potential (potential (nfw_lens dc cd z1 z_l x0 y0 mass c s (fun _ _ => 0)) x y) (potential (nfw_lens dc cd z2 z_l x0 y0 mass c s (fun _ _ => 0)) x y)).
    unfold D1, R1, D2, R2. rewrite !nfw_pot by lra. reflexivity.
  - assert (Q : nfw_surface_density dc cd z1 z_l x0 y0 mass c s x y = nfw_surface_density dc cd z2 z_l x0 y0 mass c s x y) by (rewrite !nfw_sd by lra; reflexivity).
    unfold nfw_surface_density in Q. destruct (nfw_convergence dc cd z1 z_l x0 y0 mass c s x y) as [k1|], (nfw_convergence dc cd z2 z_l x0 y0 mass c s x y) as [k2|]; try discriminate; [|reflexivity].
    cbn [option_map] in *. injection Q as Q. f_equal. apply of_density', Q.
Qed.
Lemma einstein_grows M : 0 < M -> mass_to_rein_point M R1 Dl D1 < mass_to_rein_point M R2 Dl D2.
Proof.
  intros HM. destruct all_pos as (A & B & C & D & E). destruct efficiency_grows as (F & G & _). unfold mass_to_rein_point.
  assert (RA : 0 < rad_to_arcsec) by apply rad_to_arcsec_pos. pose proof G_over_c2_pos as GC. apply Rmult_lt_compat_l; [exact RA|].
  assert (K : 0 < 4 * G_over_c2 * M / Dl) by (apply Rdiv_lt_0_compat; [apply Rmult_lt_0_compat; [apply Rmult_lt_0_compat; lra|exact HM]|exact A]).
  replace (4 * G_over_c2 * M * R1 / (Dl * D1)) with (4 * G_over_c2 * M / Dl * (R1 / D1)) by (field; lra).
  replace (4 * G_over_c2 * M * R2 / (Dl * D2)) with (4 * G_over_c2 * M / Dl * (R2 / D2)) by (field; lra).
  apply sqrt_lt_1_alt. split; [apply Rmult_le_pos; lra|]. apply Rmult_lt_compat_l; assumption.
Qed.
Lemma sie_grows sigma_v : sigma_v <> 0 -> sigma_v_to_rein_sie sigma_v R1 D1 < sigma_v_to_rein_sie sigma_v R2 D2.
Proof.
  intros HS. destruct efficiency_grows as (F & G & _). unfold sigma_v_to_rein_sie, Rdiv in *. rewrite !Rmult_assoc.
  assert (RA : 0 < rad_to_arcsec) by apply rad_to_arcsec_pos. pose proof PI_RGT_0. pose proof c_km_s_pos as CK.
  assert (Q : 0 < (sigma_v * / c_km_s) ^ 2). { apply pow2_gt_0. apply Rmult_integral_contrapositive_currified; [exact HS|apply Rinv_neq_0_compat; lra]. }
  repeat (apply Rmult_lt_compat_l; [assumption || lra|]). exact G.
Qed.
Lemma delay_falls : 0 < time_delay_distance dc z_l z2 < time_delay_distance dc z_l z1.
Proof.
  destruct all_pos as (A & B & C & D & E). destruct H as (Z & _). destruct efficiency_grows as (F & G & _). unfold time_delay_distance. cbv zeta. fold Dl D1 D2 R1 R2.
  assert (K : 0 < (1 + z_l) * Dl) by (apply Rmult_lt_0_compat; lra).
  replace ((1 + z_l) * Dl * D1 / R1) with ((1 + z_l) * Dl * / (R1 / D1)) by (field; lra). replace ((1 + z_l) * Dl * D2 / R2) with ((1 + z_l) * Dl * / (R2 / D2)) by (field; lra).
  split; [apply Rmult_lt_0_compat; [exact K|apply Rinv_0_lt_compat; lra]|]. apply Rmult_lt_compat_l; [exact K|]. apply Rinv_lt_contravar; [apply Rmult_lt_0_compat; lra|exact G].
Qed.
End S.
Lemma flat_in_order h0 Om0 z_l z1 z2 : 0 < Om0 < 1 -> 0 < h0 -> 0 < z_l -> z_l < z1 -> z1 < z2 -> / 1000 <= ratio Om0 -> (1 + z2) * ratio Om0 <= 10 ->
  in_order (fun z => flat_comoving_distance z h0 Om0) z_l z1 z2.
Proof.
  intros HO Hh A B C Hlo Hhi. assert (RP := ratio_pos Om0).
  assert (Q : forall a b, 0 <= a -> a < b -> b <= z2 -> flat_comoving_distance a h0 Om0 < flat_comoving_distance b h0 Om0).
  { intros a b Ha Hab Hb. apply distance_increasing; try assumption. nra. }
  assert (Q0 := Q 0 z_l ltac:(lra) A ltac:(lra)). unfold flat_comoving_distance at 1 in Q0. rewrite flat_zero in Q0.
  unfold in_order. repeat split; try lra; apply Q; lra.
Qed.
