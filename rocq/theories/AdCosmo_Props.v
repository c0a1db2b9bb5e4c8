(** * C123: derivatives of cosmological distances *)
From Coq Require Import Reals List Lra Lia Bool.
From Coquelicot Require Import Coquelicot.
From Verif Require Import Py Const_Model Cosmo_Model LensBase_Model LensBasic_Model Multiplane_Model Interp1_Model CosmoTable_Model Ad_Model Ad_Spec Rev_Model Rev_Spec AdMulti_Model AdMulti_Spec
  AdCosmo_Model AdCosmo_Spec AdCosmo2_Proofs AdCosmo3_Proofs AdCosmo4_Proofs.
Import ListNotations.
Local Open Scope R_scope.

(** what follows is differentiated exactly *)
Theorem C123_meaning : forall m a F t, follows m a F t -> exactly m a F t.
Proof. exact m_exact. Qed.
Print Assumptions C123_meaning.
(** interp1d, above the first knot: at the knots and beyond the last one as well *)
Theorem C123_interp1d : forall m a n x y, (2 <= n)%nat -> (forall i j, (i < j < n)%nat -> x i < x j) -> forall xs e, follows m a xs e -> x 0%nat < xs a ->
  follows m a (fun b => interp1d n x y Extrapolate (xs b)) (t_interp1d n x y e).
Proof. exact m_interp. Qed.
Print Assumptions C123_interp1d.
(** the comoving distance of FlatLambdaCDM, in redshift, Hubble constant and matter density *)
Theorem C123_distance : forall m a z h0 Om0 dz dh dO, follows m a z dz -> follows m a h0 dh -> follows m a Om0 dO ->
  h0 a <> 0 -> 0 < Om0 a < 1 -> / 1000 < entry0 (Om0 a) -> / 1000 < (1 + z a) * entry0 (Om0 a) ->
  follows m a (fun b => flat_comoving_distance (z b) (h0 b) (Om0 b)) (t_comoving_distance dz dh dO).
Proof. exact m_distance. Qed.
Print Assumptions C123_distance.
(** the other distances, the critical surface density and the critical density *)
Theorem C123_derived : forall m a h0 Om0 dh dO, follows m a h0 dh -> follows m a Om0 dO ->
  let cd := fun b z => flat_comoving_distance z (h0 b) (Om0 b) in let t_cd := fun dz => t_comoving_distance dz dh dO in
  forall z_l dl z_s ds, follows m a z_l dl -> follows m a z_s ds -> 0 < z_l a -> z_l a < z_s a -> tabulated (h0 a) (Om0 a) (z_s a) ->
  follows m a (fun b => comoving_distance_z1z2 (cd b) (z_l b) (z_s b)) (t_comoving_distance_z1z2 t_cd dl ds) /\
  follows m a (fun b => angular_diameter_distance (cd b) (z_s b)) (t_angular_diameter_distance t_cd ds) /\
  follows m a (fun b => angular_diameter_distance_z1z2 (cd b) (z_l b) (z_s b)) (t_angular_diameter_distance_z1z2 t_cd dl ds) /\
  follows m a (fun b => time_delay_distance (cd b) (z_l b) (z_s b)) (t_time_delay_distance t_cd dl ds) /\
  follows m a (fun b => critical_surface_density (cd b) (z_l b) (z_s b)) (t_critical_surface_density t_cd dl ds).
Proof. exact in_derived. Qed.
Print Assumptions C123_derived.
Theorem C123_critical_density : forall m a z rho Om0 dz dr dO, follows m a z dz -> follows m a rho dr -> follows m a Om0 dO ->
  follows m a (fun b => critical_density (z b) (rho b) (Om0 b)) (t_critical_density dz dr dO).
Proof. exact m_density. Qed.
Print Assumptions C123_critical_density.
(** the gradient with respect to redshift, Hubble constant and matter density (arguments 0, 1, 2) against that of the integral: the first two to one part in 500 *)
Theorem C123_gradient : forall a req, req 0%nat = true -> req 1%nat = true -> req 2%nat = true ->
  0 < a 1%nat -> 0 < a 2%nat < 1 -> 0 <= a 0%nat -> / 1000 < entry0 (a 2%nat) -> (1 + a 0%nat) * entry0 (a 2%nat) <= 98 / 10 ->
  let t := t_comoving_distance (Var 0) (Var 1) (Var 2) in let z := a 0%nat in let h0 := a 1%nat in let Om0 := a 2%nat in
  let DH := hubble_distance h0 in let T := true_distance z h0 Om0 in
  exists dz dh dO e, grad a req t 0 = Fin dz /\ grad a req t 1 = Fin dh /\ grad a req t 2 = Fin dO /\
  Rabs (dz - DH / expansion Om0 z) <= / 500 * (DH / expansion Om0 z) /\
  Rabs (dh - - T / h0) <= / 500 * (T / h0) /\
  is_derive (fun O => true_distance z h0 O) Om0 e /\ Rabs (dO - e) <= / 500 * ((DH * (1 + (1 + z) / expansion Om0 z) + T) / (3 * Om0 * (1 - Om0))).
Proof. exact gradient. Qed.
Print Assumptions C123_gradient.
(** rays and time delays of several lenses, in position (arguments 0, 1), Hubble constant (i), matter density (j) and the parameters of the lenses *)
Theorem C123_lenses : forall m a i j l z_s, let Ls := traced_cast a l in
  let cd := fun (b : nat -> R) z => flat_comoving_distance z (b i) (b j) in let t_cd := fun z => t_comoving_distance (Cst z) (Var i) (Var j) in
  tabulated (a i) (a j) z_s -> 0 < z_s -> (forall n k z, In (n, k, z) l -> 0 < z < z_s) -> cast_proper a (still m) l -> meets_all cd cd a Ls z_s (a 0%nat) (a 1%nat) ->
  rays_follow (exactly m a) cd cd t_cd t_cd Ls z_s (fun b => b 0%nat) (fun b => b 1%nat) (Var 0) (Var 1) /\
  (NoDup (map snd l) -> delays_follow (exactly m a) cd cd t_cd t_cd a Ls z_s (fun b => b 0%nat) (fun b => b 1%nat) (Var 0) (Var 1)).
Proof. exact stack_exact. Qed.
Print Assumptions C123_lenses.

Example C123_hyps : tabulated (at_stack 2%nat) (at_stack 3%nat) 3 /\ (forall n k z, In (n, k, z) a_stack -> 0 < z < 3) /\ (forall m, cast_proper at_stack (still m) a_stack) /\ NoDup (map snd a_stack) /\
  meets_all (fun b z => flat_comoving_distance z (b 2%nat) (b 3%nat)) (fun b z => flat_comoving_distance z (b 2%nat) (b 3%nat)) at_stack (traced_cast at_stack a_stack) 3 (at_stack 0%nat) (at_stack 1%nat).
Proof. exact stack_hyps. Qed.
