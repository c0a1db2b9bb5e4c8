(** * C127: halos are differentiated through the universe they are in *)
From Coq Require Import Reals List.
From Coquelicot Require Import Coquelicot.
From Verif Require Import Cosmo_Model CosmoTable_Model LensBase_Model Multiplane_Model Ad_Model AdMulti_Model AdMulti_Spec AdCosmo_Model AdCosmo_Spec AdCosmo4_Proofs AdHalo_Model AdHalo_Spec AdHalo_Proofs AdHalo2_Proofs.
Local Open Scope R_scope.

(** Whatever the distances and the critical density depend on: if they follow, so do deflection, potential and convergence of the halo,
    in forward and in backward mode, with any parameters and any position. *)
Theorem C127_halo : forall m a cd rho t_cd t_rho z_s z n h, let L := halo_traced cd rho t_cd t_rho z_s n h z a in
  follows m a (fun b => cd b z) (t_cd z) -> follows m a (fun b => cd b z_s) (t_cd z_s) -> follows m a (fun b => rho b z) (t_rho z) ->
  placed cd rho z_s z a -> halo_proper n h a -> deflects (follows m a) a L /\ delays (follows m a) a L /\ weighs (follows m a) a L.
Proof. intros m a cd rho t_cd t_rho z_s z n h L F1 F2 F3 P H. exact (halo_follows m a cd rho t_cd t_rho z_s z n F1 F2 F3 P h H). Qed.
Print Assumptions C127_halo.
(** physical_deflection_angle, which NFW and TNFW compute by themselves *)
Theorem C127_physical : forall m a cd rho t_cd t_rho z_s z n h,
  follows m a (fun b => cd b z) (t_cd z) -> follows m a (fun b => cd b z_s) (t_cd z_s) -> follows m a (fun b => rho b z) (t_rho z) ->
  placed cd rho z_s z a -> halo_proper n h a ->
  vector_follows (follows m a) a (halo_fine cd rho n h z a) (halo_physical cd rho z_s n h z) (halo_physical_program t_cd t_rho z_s n h z).
Proof. intros m a cd rho t_cd t_rho z_s z n h F1 F2 F3 P H. exact (physical_follows m a cd rho t_cd t_rho z_s z n F1 F2 F3 P h H). Qed.
Print Assumptions C127_physical.
(** it is the angle that the base class makes of the reduced one *)
Theorem C127_same_angle : forall cd rho z_s n h z b x y, 1 + z_s <> 0 -> cd b z_s <> 0 -> cd b z <> cd b z_s ->
  halo_physical cd rho z_s n h z b x y = physical_deflection_angle (cd b) (halo_lens cd rho z_s n h z b) z_s x y.
Proof. exact physical_same. Qed.
Print Assumptions C127_same_angle.
(** Rays and time delays of any lenses in a flat universe: exact in the position (arguments 0, 1), the Hubble constant (i), the matter density (j),
    the critical density (k) and every parameter of every lens. *)
Theorem C127_scene : forall m a i j k l z_s,
  let cd := fun (b : nat -> R) z => flat_comoving_distance z (b i) (b j) in let t_cd := fun z => t_comoving_distance (Cst z) (Var i) (Var j) in
  let rho := fun (b : nat -> R) z => critical_density z (b k) (b j) in let t_rho := fun z => t_critical_density (Cst z) (Var k) (Var j) in
  let Ls := traced_scene cd rho t_cd t_rho z_s a l in
  tabulated (a i) (a j) z_s -> 0 < z_s -> (forall n p z, In (n, p, z) l -> 0 < z < z_s) -> 0 < a k ->
  scene_proper a (still m) l -> meets_all cd cd a Ls z_s (a 0%nat) (a 1%nat) ->
  rays_follow (exactly m a) cd cd t_cd t_cd Ls z_s (fun b => b 0%nat) (fun b => b 1%nat) (Var 0) (Var 1) /\
  (NoDup (map snd l) -> delays_follow (exactly m a) cd cd t_cd t_cd a Ls z_s (fun b => b 0%nat) (fun b => b 1%nat) (Var 0) (Var 1)).
Proof. exact scene_exact. Qed.
Print Assumptions C127_scene.

Example C127_halo_hyps : let cd := fun (_ : nat -> R) z => 2 * z in let rho := fun (_ : nat -> R) (_ : R) => 1 in
  placed cd rho 2 1 a_halo /\ halo_proper 2 (Nfw (1 / 10)) a_halo /\ halo_fine cd rho 2 (Nfw (1 / 10)) 1 a_halo (a_halo 0%nat) (a_halo 1%nat).
Proof. exact halo_hyps. Qed.
Example C127_hyps : let cd := fun b z => flat_comoving_distance z (b 2%nat) (b 3%nat) in let rho := fun b z => critical_density z (b 4%nat) (b 3%nat) in
  let t_cd := fun z => t_comoving_distance (Cst z) (Var 2) (Var 3) in let t_rho := fun z => t_critical_density (Cst z) (Var 4) (Var 3) in
  tabulated (at_stack 2%nat) (at_stack 3%nat) 3 /\ (forall n p z, In (n, p, z) a_scene -> 0 < z < 3) /\ 0 < at_stack 4%nat /\ (forall m, scene_proper at_stack (still m) a_scene) /\ NoDup (map snd a_scene) /\
  meets_all cd cd at_stack (traced_scene cd rho t_cd t_rho 3 at_stack a_scene) 3 (at_stack 0%nat) (at_stack 1%nat).
Proof. exact scene_hyps. Qed.
