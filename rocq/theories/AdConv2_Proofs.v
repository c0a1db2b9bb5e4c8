(** * The gradient with respect to the map is the response of the lens to single pixels *)
From Coq Require Import Reals Lra Lia ZArith Arith List String Bool FunctionalExtensionality.
From Coquelicot Require Import Coquelicot.
From Verif Require Import Py PixConv_Model PixConv_Spec PixConv_Proofs PixConv2_Proofs Ad_Model Ad_Spec Rev_Model Rev_Spec AdEpl_Spec AdPix_Spec AdConv_Model AdConv_Spec AdConv_Proofs.
Local Open Scope R_scope.
Local Notation "a @ n" := (a n%nat) (at level 9, only parsing).
Local Notation V n := (Var n%nat).

Lemma bumped_map a k n h : (5 <= k)%nat -> image_args (bumped a k h) 5 n = (fun i j => 1 * image_args a 5 n i j + h * image_args (only k) 5 n i j).
Proof.
  intros H. extensionality i. extensionality j. unfold image_args, bumped, only. destruct (Nat.eqb _ k); ring.
Qed.
Lemma bumped_other a k h m : m <> k -> bumped a k h m = a m.
Proof. intros H. unfold bumped. destruct (Nat.eqb_spec m k); [contradiction|reflexivity]. Qed.
Lemma bumped_self a k h : bumped a k h k = a k + h.
Proof. unfold bumped. rewrite Nat.eqb_refl. reflexivity. Qed.
Lemma affine_derive (f : R -> R) u w d : (forall h, f h = u + h * w) -> is_derive f 0 d -> d = w.
Proof.
  intros E D. apply is_derive_unique in D. rewrite <- D. apply is_derive_unique. apply (is_derive_ext (fun h => u + h * w)); [intros h; symmetry; apply E|].
  auto_derive; [exact Logic.I|ring].
Qed.

Section R.
Variables (a : nat -> R) (L : pixconv).
Notation n := (pc_n L).
Notation ps := (pc_pixelscale L).
Notation side := (grid_side (pc_mode L) n).
Hypothesis Hn : (0 < n)%nat.
Hypothesis Hp : ps <> 0.
Notation tdefl := (t_pc_deflection L (V 2) (V 3) (image_args Var 5 n) (V 4) (V 0) (V 1)).
Notation tpot := (t_pc_potential L (V 2) (V 3) (image_args Var 5 n) (V 4) (V 0) (V 1)).
Variable req : nat -> bool.
Hypothesis F0 : fine_for req a 0 2 ps n side.
Hypothesis F1 : fine_for req a 1 3 ps n side.

Lemma defl_response v k : (5 <= k)%nat -> req k = true -> pc_reduced_deflection_angle L a@2 a@3 (image_args a 5 n) a@4 a@0 a@1 = Ok v ->
  exists e w, tdefl = Ok e /\ pc_reduced_deflection_angle L a@2 a@3 (image_args (only k) 5 n) a@4 a@0 a@1 = Ok w /\
    grad a req (fst e) k = Fin (fst w) /\ grad a req (snd e) k = Fin (snd w).
Proof.
  intros Hk Rk EV. destruct (pc_defl_grad a L Hn Hp v req EV F0 F1) as (e & v' & ET & EV' & G0 & G1). clear v' EV'.
  pose proof (obj_deflection_lin L a@2 a@3 1 0 (image_args (only k) 5 n) (image_args a 5 n) a@4 a@0 a@1) as T.
  destruct (pc_reduced_deflection_angle L a@2 a@3 (image_args (only k) 5 n) a@4 a@0 a@1) as [w|x] eqn:EW.
  2:{ exfalso. pose proof (obj_deflection_lin L a@2 a@3 1 0 (image_args a 5 n) (image_args (only k) 5 n) a@4 a@0 a@1) as Q. rewrite EW, EV in Q. cbn [combined] in Q.
      replace (fun i j => 1 * image_args a 5 n i j + 0 * image_args (only k) 5 n i j) with (image_args a 5 n) in Q by (extensionality i; extensionality j; ring). rewrite EV in Q. discriminate Q. }
  exists e, w. split; [exact ET|]. split; [reflexivity|].
  assert (EB : forall h, pc_reduced_deflection_angle L (bumped a k h)@2 (bumped a k h)@3 (image_args (bumped a k h) 5 n) (bumped a k h)@4 (bumped a k h)@0 (bumped a k h)@1 = Ok (pair_combo 1 h v w)).
  { intros h. rewrite !bumped_other by lia. rewrite bumped_map by exact Hk. rewrite obj_deflection_lin, EV, EW. reflexivity. }
  destruct (G0 k Rk) as (d0 & E0 & D0). destruct (G1 k Rk) as (d1 & E1 & D1). rewrite E0, E1. split; apply f_equal.
  - apply (fun E => affine_derive _ (fst v) (fst w) d0 E D0); intros h; cbv beta; rewrite EB; cbn; ring.
  - apply (fun E => affine_derive _ (snd v) (snd w) d1 E D1); intros h; cbv beta; rewrite EB; cbn; ring.
Qed.
Lemma pot_response v k : (5 <= k)%nat -> req k = true -> pc_potential L a@2 a@3 (image_args a 5 n) a@4 a@0 a@1 = Ok v ->
  exists e w, tpot = Ok e /\ pc_potential L a@2 a@3 (image_args (only k) 5 n) a@4 a@0 a@1 = Ok w /\ grad a req e k = Fin w.
Proof.
  intros Hk Rk EV. destruct (pc_pot_grad a L Hn Hp v req EV F0 F1) as (e & v' & ET & EV' & G0). clear v' EV'.
  destruct (pc_potential L a@2 a@3 (image_args (only k) 5 n) a@4 a@0 a@1) as [w|x] eqn:EW.
  2:{ exfalso. pose proof (obj_potential_lin L a@2 a@3 1 0 (image_args a 5 n) (image_args (only k) 5 n) a@4 a@0 a@1) as Q. rewrite EW, EV in Q. cbn [combined] in Q.
      replace (fun i j => 1 * image_args a 5 n i j + 0 * image_args (only k) 5 n i j) with (image_args a 5 n) in Q by (extensionality i; extensionality j; ring). rewrite EV in Q. discriminate Q. }
  exists e, w. split; [exact ET|]. split; [reflexivity|].
  assert (EB : forall h, pc_potential L (bumped a k h)@2 (bumped a k h)@3 (image_args (bumped a k h) 5 n) (bumped a k h)@4 (bumped a k h)@0 (bumped a k h)@1 = Ok (1 * v + h * w)).
  { intros h. rewrite !bumped_other by lia. rewrite bumped_map by exact Hk. rewrite obj_potential_lin, EV, EW. reflexivity. }
  destruct (G0 k Rk) as (d0 & E0 & D0). rewrite E0. apply f_equal.
  apply (fun E => affine_derive _ v w d0 E D0); intros h; cbv beta; rewrite EB; cbn; ring.
Qed.
Lemma bumped_map4 h : image_args (bumped a 4 h) 5 n = image_args a 5 n.
Proof. extensionality i. extensionality j. unfold image_args. apply bumped_other. lia. Qed.
Lemma defl_scale_response v : req 4%nat = true -> pc_reduced_deflection_angle L a@2 a@3 (image_args a 5 n) a@4 a@0 a@1 = Ok v ->
  exists e w, tdefl = Ok e /\ pc_reduced_deflection_angle L a@2 a@3 (image_args a 5 n) 1 a@0 a@1 = Ok w /\
    grad a req (fst e) 4 = Fin (fst w) /\ grad a req (snd e) 4 = Fin (snd w).
Proof.
  intros Rk EV. destruct (pc_defl_grad a L Hn Hp v req EV F0 F1) as (e & v' & ET & EV' & G0 & G1). clear v' EV'.
  rewrite obj_deflection_scale in EV. destruct (pc_reduced_deflection_angle L a@2 a@3 (image_args a 5 n) 1 a@0 a@1) as [w|x] eqn:EW; [|discriminate EV].
  exists e, w. split; [exact ET|]. split; [reflexivity|].
  assert (EB : forall h, pc_reduced_deflection_angle L (bumped a 4 h)@2 (bumped a 4 h)@3 (image_args (bumped a 4 h) 5 n) (bumped a 4 h)@4 (bumped a 4 h)@0 (bumped a 4 h)@1 = Ok ((a@4 + h) * fst w, (a@4 + h) * snd w)).
  { intros h. rewrite bumped_map4, bumped_self, !(bumped_other a 4) by lia. rewrite obj_deflection_scale, EW. reflexivity. }
  destruct (G0 4%nat Rk) as (d0 & E0 & D0). destruct (G1 4%nat Rk) as (d1 & E1 & D1). rewrite E0, E1. split; apply f_equal.
  - apply (fun E => affine_derive _ (a@4 * fst w) (fst w) d0 E D0); intros h; cbv beta; rewrite EB; cbn; ring.
  - apply (fun E => affine_derive _ (a@4 * snd w) (snd w) d1 E D1); intros h; cbv beta; rewrite EB; cbn; ring.
Qed.
End R.
