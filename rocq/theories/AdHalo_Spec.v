(** * Vocabulary for the derivatives of halos *)
From Coq Require Import Reals ZArith List.
From Coquelicot Require Import Coquelicot.
From Verif Require Import Const_Model Cosmo_Model LensBase_Model Jaffe_Model Nfw_Model Tnfw_Model Multipole_Model Halo_Model Ad_Model AdLens_Model AdLens_Spec AdMulti_Model AdMulti_Spec AdHalo_Model.
Import ListNotations.
Local Open Scope R_scope.

(** what may stand in a universe; [s] is a softening length, [total]: the mass is the total mass, [orders]: of the multipoles *)
Inductive halo := Nfw (s : R) | Tnfw (total : bool) (s : R) | Jaffe | Multipoles (orders : list Z).
Section Halos.
(** comoving distance and critical density as functions of the arguments, their programs, the redshift of the source;
    the parameters of the halo are the arguments from n on, in the order of its constructor *)
Variables (cd rho : (nat -> R) -> R -> R) (t_cd t_rho : R -> expr) (z_s : R) (n : nat).
Definition halo_lens (h : halo) (z : R) (b : nat -> R) : thin_lens :=
  let p i := b (n + i)%nat in
  match h with
  | Nfw s => nfw_lens (cd b) (rho b) z_s z (p 0%nat) (p 1%nat) (p 2%nat) (p 3%nat) s
      (fun x y => match nfw_convergence (cd b) (rho b) z_s z (p 0%nat) (p 1%nat) (p 2%nat) (p 3%nat) s x y with Some v => v | None => 0 end)
  | Tnfw total s => tnfw_lens (cd b) (rho b) total z_s z (p 0%nat) (p 1%nat) (p 2%nat) (p 3%nat) (p 4%nat) s
  | Jaffe => jaffe_lens (cd b) z_s z (p 0%nat) (p 1%nat) (p 2%nat) (p 3%nat) (p 4%nat)
  | Multipoles orders =>
      let l := map (fun '(i, m) => (m, p (2 + i)%nat, p (2 + length orders + i)%nat)) (combine (seq 0 (length orders)) orders) in
      ThinLens z (reduced_deflection_angle_multipole (p 0%nat) (p 1%nat) l) (potential_multipole (p 0%nat) (p 1%nat) l) (convergence_multipole (p 0%nat) (p 1%nat) l)
  end.
Definition halo_program (h : halo) (z : R) : t_thin :=
  let p i := Var (n + i) in
  match h with
  | Nfw s => TThin z (t_nfw_reduced t_cd t_rho z_s z (p 0%nat) (p 1%nat) (p 2%nat) (p 3%nat) (Cst s)) (t_nfw_potential t_cd t_rho z_s z (p 0%nat) (p 1%nat) (p 2%nat) (p 3%nat) (Cst s))
      (t_nfw_convergence t_cd t_rho z_s z (p 0%nat) (p 1%nat) (p 2%nat) (p 3%nat) (Cst s))
  | Tnfw total s => TThin z (t_tnfw_reduced t_cd t_rho total z_s z (p 0%nat) (p 1%nat) (p 2%nat) (p 3%nat) (p 4%nat) (Cst s))
      (t_tnfw_potential t_cd t_rho total z_s z (p 0%nat) (p 1%nat) (p 2%nat) (p 3%nat) (p 4%nat) (Cst s)) (t_tnfw_convergence t_cd t_rho total z_s z (p 0%nat) (p 1%nat) (p 2%nat) (p 3%nat) (p 4%nat) (Cst s))
  | Jaffe => TThin z (t_jaffe_reduced t_cd z_s z (p 0%nat) (p 1%nat) (p 2%nat) (p 3%nat) (p 4%nat)) (t_jaffe_potential t_cd z_s z (p 0%nat) (p 1%nat) (p 2%nat) (p 3%nat) (p 4%nat))
      (t_jaffe_convergence t_cd z_s z (p 0%nat) (p 1%nat) (p 2%nat) (p 3%nat) (p 4%nat))
  | Multipoles orders =>
      let l := map (fun '(i, m) => (m, p (2 + i)%nat, p (2 + length orders + i)%nat)) (combine (seq 0 (length orders)) orders) in
      TThin z (t_deflection_multipole (p 0%nat) (p 1%nat) l) (t_potential_multipole (p 0%nat) (p 1%nat) l) (t_convergence_multipole (p 0%nat) (p 1%nat) l)
  end.
(** away from the centre, and not on the circles where the code changes formula *)
Definition halo_fine (h : halo) (z : R) (a : nat -> R) (x y : R) : Prop :=
  let p i := a (n + i)%nat in
  let r := sqrt ((x - p 0%nat) ^ 2 + (y - p 1%nat) ^ 2) in
  (x <> p 0%nat \/ y <> p 1%nat) /\
  match h with
  | Nfw s => clear_of_1 eps_nfw (angular_diameter_distance (cd a) z * (r + s) * arcsec_to_rad / nfw_get_scale_radius (rho a) z (p 2%nat) (p 3%nat))
  | Tnfw _ s => let g := (r + s) / p 3%nat in g <> 1 /\ g <> 1 - 1 / 100 /\ g <> 1 + 1 / 100 /\ g <> 1 - 1 / 1000 /\ g <> 1 + 1 / 1000
  | Jaffe | Multipoles _ => True
  end.
(** masses, radii and concentrations are positive, softening lengths are not negative, the two radii of a PseudoJaffe differ, multipoles are of order 2 or more *)
Definition halo_proper (h : halo) (a : nat -> R) : Prop :=
  let p i := a (n + i)%nat in
  match h with
  | Nfw s => 0 <= s /\ 0 < p 2%nat /\ 0 < p 3%nat
  | Tnfw _ s => 0 <= s /\ 0 < p 2%nat /\ 0 < p 3%nat /\ 0 < p 4%nat
  | Jaffe => 0 < p 3%nat /\ 0 < p 4%nat /\ p 3%nat <> p 4%nat
  | Multipoles orders => forall m, In m orders -> (2 <= m)%Z
  end.
Definition halo_traced (h : halo) (z : R) (a : nat -> R) : traced := Traced (halo_lens h z) (halo_program h z) (halo_fine h z a).
(** the physical deflection angle: NFW and TNFW have their own, the others inherit it *)
Definition halo_physical (h : halo) (z : R) (b : nat -> R) : R -> R -> R * R :=
  let p i := b (n + i)%nat in
  match h with
  | Nfw s => nfw_physical_deflection_angle (cd b) (rho b) z (p 0%nat) (p 1%nat) (p 2%nat) (p 3%nat) s
  | Tnfw total s => tnfw_physical_deflection_angle (cd b) (rho b) total z (p 0%nat) (p 1%nat) (p 2%nat) (p 3%nat) (p 4%nat) s
  | _ => physical_deflection_angle (cd b) (halo_lens h z b) z_s
  end.
Definition halo_physical_program (h : halo) (z : R) : expr -> expr -> expr * expr :=
  let p i := Var (n + i) in
  match h with
  | Nfw s => t_nfw_physical t_cd t_rho z (p 0%nat) (p 1%nat) (p 2%nat) (p 3%nat) (Cst s)
  | Tnfw total s => t_tnfw_physical t_cd t_rho total z (p 0%nat) (p 1%nat) (p 2%nat) (p 3%nat) (p 4%nat) (Cst s)
  | _ => t_physical_deflection t_cd (halo_program h z) z_s
  end.
(** the lens is in front of the source, and there is matter *)
Definition placed (z : R) (a : nat -> R) : Prop := -1 < z /\ -1 < z_s /\ 0 < cd a z < cd a z_s /\ 0 < rho a z.
End Halos.

(** ** a scene: lenses of both sorts, with the first argument and the redshift of each *)
Inductive piece := Plain (k : kind) | Heavy (h : halo).
Definition scene : Type := list (nat * piece * R).
Definition traced_piece (cd rho : (nat -> R) -> R -> R) (t_cd t_rho : R -> expr) (z_s : R) (a : nat -> R) (n : nat) (p : piece) (z : R) : traced :=
  match p with Plain k => kind_traced n k z a | Heavy h => halo_traced cd rho t_cd t_rho z_s n h z a end.
Definition traced_scene (cd rho : (nat -> R) -> R -> R) (t_cd t_rho : R -> expr) (z_s : R) (a : nat -> R) (l : scene) : list traced :=
  map (fun '(n, p, z) => traced_piece cd rho t_cd t_rho z_s a n p z) l.
Definition scene_proper (a : nat -> R) (fixed : nat -> Prop) (l : scene) : Prop :=
  forall n p z, In (n, p, z) l -> match p with Plain k => kind_proper n k a fixed | Heavy h => halo_proper n h a end.
