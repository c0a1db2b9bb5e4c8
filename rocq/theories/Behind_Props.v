(** * C112: mass behind the source *)
From Coq Require Import Reals Lra Lia List Sorting.
From Verif Require Import Py Cosmo_Model LensBase_Model Jaffe_Model Nfw_Model Tnfw_Model Halo_Model Falls_Spec Multiplane_Model Behind_Spec Behind_Proofs.
Import ListNotations.
Local Open Scope R_scope.

(** a halo at the redshift of the source bends nothing *)
Theorem C112_at_source_nfw : forall dc cd z x0 y0 mass c s x y,
  distances_grow dc -> 0 < z -> 0 < cd z -> 0 < mass -> 0 < c -> 0 <= s -> 0 < distance x0 y0 x y ->
  raytrace (nfw_reduced_deflection_angle dc cd z z x0 y0 mass c s) x y = (x, y).
Proof. intros. apply at_source_nfw. Qed.
Print Assumptions C112_at_source_nfw.
Theorem C112_at_source_tnfw : forall dc cd tot z x0 y0 mass Rs tau s x y,
  distances_grow dc -> 0 < z -> 0 < cd z -> 0 < mass -> 0 < Rs -> 0 < tau -> 0 <= s -> 0 < distance x0 y0 x y ->
  raytrace (tnfw_reduced_deflection_angle dc cd tot z z x0 y0 mass Rs tau s) x y = (x, y).
Proof. intros. apply at_source_tnfw. Qed.
Print Assumptions C112_at_source_tnfw.
(** a halo behind the source z1 acts as the same halo in front of a source z2, with the opposite sign *)
Theorem C112_behind_pseudo_jaffe : forall dc z1 z_l z2, distances_grow dc -> 0 < z1 < z_l -> z_l < z2 -> forall x0 y0 mass Rc Rs,
  opposite (jaffe_lens dc z1 z_l x0 y0 mass Rc Rs) (jaffe_lens dc z2 z_l x0 y0 mass Rc Rs).
Proof. exact jaffe_behind. Qed.
Print Assumptions C112_behind_pseudo_jaffe.
Theorem C112_behind_tnfw : forall dc z1 z_l z2, distances_grow dc -> 0 < z1 < z_l -> z_l < z2 -> forall cd tot x0 y0 mass Rs tau s,
  opposite (tnfw_lens dc cd tot z1 z_l x0 y0 mass Rs tau s) (tnfw_lens dc cd tot z2 z_l x0 y0 mass Rs tau s).
Proof. exact tnfw_behind. Qed.
Print Assumptions C112_behind_tnfw.
Theorem C112_behind_nfw : forall dc z1 z_l z2, distances_grow dc -> 0 < z1 < z_l -> z_l < z2 -> forall cd x0 y0 mass c s, exists k, 0 < k /\ forall x y,
  nfw_reduced_deflection_angle dc cd z1 z_l x0 y0 mass c s x y =
    (- k * fst (nfw_reduced_deflection_angle dc cd z2 z_l x0 y0 mass c s x y), - k * snd (nfw_reduced_deflection_angle dc cd z2 z_l x0 y0 mass c s x y)) /\
  nfw_convergence dc cd z1 z_l x0 y0 mass c s x y = option_map (fun v => - k * v) (nfw_convergence dc cd z2 z_l x0 y0 mass c s x y).
Proof. exact nfw_behind. Qed.
Print Assumptions C112_behind_nfw.
(** so that its convergence is negative everywhere *)
Theorem C112_negative_tnfw : forall dc z1 z_l z2, distances_grow dc -> 0 < z1 < z_l -> z_l < z2 ->
  forall cd tot x0 y0 mass Rs tau s x y, 0 < cd z_l -> 0 < mass -> 0 < Rs -> 0 < tau -> 0 <= s -> 0 < distance x0 y0 x y ->
  tnfw_convergence dc cd tot z1 z_l x0 y0 mass Rs tau s x y < 0.
Proof. exact tnfw_negative. Qed.
Print Assumptions C112_negative_tnfw.
(** a plane listed last and behind the source shifts the source by its deflection, in the direction of the deflection *)
Theorem C112_behind_multiplane : forall cd D z_s l m x y,
  l <> [] -> StronglySorted Rle (map z_l (l ++ [m])) -> (forall t, In t (l ++ [m]) -> D (z_l t) <> 0) -> D z_s <> 0 ->
  exists q p, multiplane_raytrace cd D l z_s x y = Ok q /\
  multiplane_raytrace cd D (l ++ [m]) z_s x y =
    Ok (fst q + (D (z_l m) - D z_s) / D z_s * fst (physical_deflection_angle cd m z_s (fst p) (snd p)),
        snd q + (D (z_l m) - D z_s) / D z_s * snd (physical_deflection_angle cd m z_s (fst p) (snd p))).
Proof. exact multiplane_behind. Qed.
Print Assumptions C112_behind_multiplane.
(** the claim is false: a halo behind the source pushes the ray outward *)
Theorem C112_refuted : exists dc z_s z_l x0 y0 mass Rc Rs x y, distances_grow dc /\ 0 < z_s < z_l /\ 0 < mass /\ 0 < Rc < Rs /\ 0 < x - x0 /\ y = y0 /\
  x < fst (raytrace (jaffe_reduced_deflection_angle dc z_s z_l x0 y0 mass Rc Rs) x y).
Proof.
  exists (fun z => z), 1, 2, 0, 0, 1, 1, 2, 1, 0. split; [split; [reflexivity|intros; lra]|]. repeat split; try lra. exact jaffe_pushes.
Qed.
Print Assumptions C112_refuted.
Example C112_hyps : distances_grow (fun z => 1000 * z) /\ 0 < 1 < 2 /\ 2 < 3 /\
  (let lens z := ThinLens z (fun x y => (x, y)) (fun _ _ => 0) (fun _ _ => 1) in
   [lens 1] <> [] /\ StronglySorted Rle (map z_l ([lens 1] ++ [lens 3])) /\ forall t, In t ([lens 1] ++ [lens 3]) -> (fun z => 1000 * z) (z_l t) <> 0).
Proof.
  split; [split; [ring|intros; lra]|]. split; [lra|]. split; [lra|]. cbv zeta. split; [discriminate|]. split; [cbn; repeat constructor; lra|].
  intros t [<-|[<-|[]]]; cbn; lra.
Qed.
