(** * C36, C75, C76: FlatLambdaCDM *)
From Coq Require Import Reals Lra Lia.
From Coquelicot Require Import Coquelicot.
From Verif Require Import Const_Model Cosmo_Model Interp1_Model CosmoTable_Model CosmoTable_Proofs CosmoTight_Proofs.
Open Scope R_scope.

(** for every table *)
Theorem C36_zero_redshift : forall helper h0 Om0, comoving_distance_flat helper 0 h0 Om0 = 0.
Proof. exact flat_zero. Qed.
Print Assumptions C36_zero_redshift.
Theorem C36_hubble_scaling : forall helper z h0 Om0, 0 < h0 ->
  comoving_distance_flat helper z h0 Om0 = comoving_distance_flat helper z 1 Om0 / h0.
Proof. exact flat_h0. Qed.
Print Assumptions C36_hubble_scaling.
(** the closed form is D_H times the integral of 1/sqrt(Om0 (1+z)^3 + 1 - Om0); [ratio] is (Om0/(1-Om0))^(1/3) *)
Theorem C36_exact_at_knots : forall z h0 Om0 i j, 0 < Om0 < 1 -> -1 < z -> (i < table_size)%nat -> (j < table_size)%nat ->
  Rpower (Om0 / (1 - Om0)) (1 / 3) = x_grid i -> (1 + z) * Rpower (Om0 / (1 - Om0)) (1 / 3) = x_grid j ->
  flat_comoving_distance z h0 Om0 =
  hubble_distance h0 * RInt (fun z' => / sqrt (Om0 * (1 + z') ^ 3 + (1 - Om0))) 0 z.
Proof. exact distance_at_knots. Qed.
Print Assumptions C36_exact_at_knots.
Example C36_hyps : exists z Om0 i j, 0 < Om0 < 1 /\ 0 < z /\ (i < table_size)%nat /\ (j < table_size)%nat /\
  Rpower (Om0 / (1 - Om0)) (1 / 3) = x_grid i /\ (1 + z) * Rpower (Om0 / (1 - Om0)) (1 / 3) = x_grid j.
Proof.
  exists 9999, (/ (1 + 1000 ^ 3)), 0%nat, 499%nat. rewrite x_grid_last, x_grid_0.
  replace (/ (1 + 1000 ^ 3) / (1 - / (1 + 1000 ^ 3))) with ((/ 1000) ^ 3) by field.
  rewrite <- (Rpower_pow 3 (/ 1000)) by lra. rewrite Rpower_mult.
  replace (INR 3 * (1 / 3)) with 1 by (simpl; field). rewrite Rpower_1 by lra.
  unfold table_size. repeat split; try lia; lra.
Qed.
(** the universe is flat: transverse and line-of-sight comoving distances agree, also between two redshifts *)
Theorem C36_transverse : forall helper h0 Om0 z1 z2,
  transverse_comoving_distance_flat helper z1 h0 Om0 = comoving_distance_flat helper z1 h0 Om0 /\
  transverse_comoving_distance_z1z2 (fun z => transverse_comoving_distance_flat helper z h0 Om0) z1 z2 =
  comoving_distance_z1z2 (fun z => comoving_distance_flat helper z h0 Om0) z1 z2.
Proof. intros. split; reflexivity. Qed.
Print Assumptions C36_transverse.
Theorem C36_density_today : forall critical_density_0 Om0, critical_density 0 critical_density_0 Om0 = critical_density_0.
Proof. exact density_zero. Qed.
Print Assumptions C36_density_today.
Theorem C36_density_increasing : forall critical_density_0 Om0 z1 z2,
  0 < critical_density_0 -> 0 < Om0 -> -1 <= z1 -> z1 < z2 ->
  critical_density z1 critical_density_0 Om0 < critical_density z2 critical_density_0 Om0.
Proof. exact density_increasing. Qed.
Print Assumptions C36_density_increasing.

(** inside the table *)
Theorem C75_increasing : forall z1 z2 h0 Om0, 0 < Om0 < 1 -> 0 < h0 -> 0 <= z1 -> z1 < z2 ->
  / 1000 <= Rpower (Om0 / (1 - Om0)) (1 / 3) -> (1 + z2) * Rpower (Om0 / (1 - Om0)) (1 / 3) <= 10 ->
  flat_comoving_distance z1 h0 Om0 < flat_comoving_distance z2 h0 Om0.
Proof. exact distance_increasing. Qed.
Print Assumptions C75_increasing.
Theorem C75_close_to_exact : forall z h0 Om0, 0 < Om0 < 1 -> 0 < h0 -> 0 <= z ->
  / 1000 <= Rpower (Om0 / (1 - Om0)) (1 / 3) -> (1 + z) * Rpower (Om0 / (1 - Om0)) (1 / 3) <= 10 ->
  let exact := hubble_distance h0 * RInt (fun z' => / sqrt (Om0 * (1 + z') ^ 3 + (1 - Om0))) 0 z in
  Rabs (flat_comoving_distance z h0 Om0 - exact) <= / 16 * exact.
Proof. exact distance_close. Qed.
Print Assumptions C75_close_to_exact.
(** short of the last cell: distances, and distances between two redshifts, to one part in 500 *)
Theorem C75_tight : forall z1 z2 h0 Om0, 0 < Om0 < 1 -> 0 < h0 -> 0 <= z1 -> z1 <= z2 ->
  / 1000 <= Rpower (Om0 / (1 - Om0)) (1 / 3) -> (1 + z2) * Rpower (Om0 / (1 - Om0)) (1 / 3) <= 98 / 10 ->
  let exact z := hubble_distance h0 * RInt (fun z' => / sqrt (Om0 * (1 + z') ^ 3 + (1 - Om0))) 0 z in
  Rabs (flat_comoving_distance z2 h0 Om0 - exact z2) <= / 500 * exact z2 /\
  Rabs (comoving_distance_z1z2 (fun z => flat_comoving_distance z h0 Om0) z1 z2 - (exact z2 - exact z1)) <= / 500 * (exact z2 - exact z1).
Proof. intros. split; [apply distance_tight0; first [assumption|lra]|apply distance_tight; assumption]. Qed.
Print Assumptions C75_tight.
Example C75_hyps : 0 < 1 / 2 < 1 /\ / 1000 <= Rpower ((1 / 2) / (1 - 1 / 2)) (1 / 3) /\
  (1 + 3) * Rpower ((1 / 2) / (1 - 1 / 2)) (1 / 3) <= 10.
Proof.
  replace (1 / 2 / (1 - 1 / 2)) with 1 by field.
  assert (E : Rpower 1 (1 / 3) = 1) by (unfold Rpower; rewrite ln_1, Rmult_0_r; apply exp_0).
  rewrite E. lra.
Qed.

(** beyond it: the last scattering surface, more than a million times too far *)
Theorem C76_high_redshift_refuted : exists z Om0, 0 <= z /\ 0 < Om0 < 1 /\ forall h0, 0 < h0 ->
  let exact := hubble_distance h0 * RInt (fun z' => / sqrt (Om0 * (1 + z') ^ 3 + (1 - Om0))) 0 z in
  0 < exact /\ 10 ^ 6 * exact < flat_comoving_distance z h0 Om0.
Proof.
  exists 1100, (3 / 10). split; [lra|]. split; [lra|]. intros h0 Hh. split; [|exact (high_redshift_wrong h0 Hh)].
  assert (E := exact_increasing 0 1100 h0 (3 / 10) ltac:(lra) Hh ltac:(lra) ltac:(lra)).
  rewrite exact_zero in E. exact E.
Qed.
Print Assumptions C76_high_redshift_refuted.
Theorem C76_accurate_partial : forall z h0 Om0, 0 < Om0 < 1 -> 0 < h0 -> 0 <= z ->
  / 1000 <= Rpower (Om0 / (1 - Om0)) (1 / 3) -> (1 + z) * Rpower (Om0 / (1 - Om0)) (1 / 3) <= 10 ->
  let exact := hubble_distance h0 * RInt (fun z' => / sqrt (Om0 * (1 + z') ^ 3 + (1 - Om0))) 0 z in
  Rabs (flat_comoving_distance z h0 Om0 - exact) <= / 16 * exact.
Proof. exact distance_close. Qed.
Print Assumptions C76_accurate_partial.
