(** * C122: derivatives pass through SinglePlane and Multiplane *)
From Coq Require Import Reals List Lra Lia Bool.
From Coquelicot Require Import Coquelicot.
From Verif Require Import Py Cosmo_Model LensBase_Model LensBasic_Model Multiplane_Model Ad_Model Ad_Spec Rev_Model Rev_Spec AdMulti_Model AdMulti_Spec AdMulti2_Proofs AdMulti3_Proofs.
Import ListNotations.
Local Open Scope R_scope.

(** what is followed is differentiated exactly, with forward mode and with backward mode *)
Theorem C122_meaning : forall a seed req F t, (followed a seed F t -> ad_exact F t a seed) /\ (followed_back a req F t -> grad_exact F t a req).
Proof. intros a seed req F t. exact (conj (fl_exact a seed F t) (fb_exact a req F t)). Qed.
Print Assumptions C122_meaning.
(** sheets, shears, isothermal spheres and ellipsoids and point masses, with any parameter differentiated *)
Theorem C122_kinds : forall a n k z,
  (forall seed, kind_proper n k a (fun i => seed i = None) ->
    deflects (followed a seed) a (kind_traced n k z a) /\ delays (followed a seed) a (kind_traced n k z a) /\ weighs (followed a seed) a (kind_traced n k z a)) /\
  (forall req, kind_proper n k a (fun i => req i = false) ->
    deflects (followed_back a req) a (kind_traced n k z a) /\ delays (followed_back a req) a (kind_traced n k z a) /\ weighs (followed_back a req) a (kind_traced n k z a)).
Proof. intros a n k z. exact (conj (fun seed => kind_forward a seed n k z) (fun req => kind_backward a req n k z)). Qed.
Print Assumptions C122_kinds.
(** SinglePlane of such lenses is such a lens *)
Theorem C122_one_plane : forall a z Ls,
  (forall sd, let Rel := followed a sd in
    ((forall L, In L Ls -> deflects Rel a L) -> deflects Rel a (plane_of z Ls)) /\
    ((forall L, In L Ls -> delays Rel a L) -> delays Rel a (plane_of z Ls)) /\
    ((forall L, In L Ls -> weighs Rel a L) -> weighs Rel a (plane_of z Ls))) /\
  (forall req, let Rel := followed_back a req in
    ((forall L, In L Ls -> deflects Rel a L) -> deflects Rel a (plane_of z Ls)) /\
    ((forall L, In L Ls -> delays Rel a L) -> delays Rel a (plane_of z Ls)) /\
    ((forall L, In L Ls -> weighs Rel a L) -> weighs Rel a (plane_of z Ls))).
Proof. exact one_plane_both. Qed.
Print Assumptions C122_one_plane.
(** Multiplane of any lenses and any distances that follow *)
Theorem C122_forward : forall a seed cd tcd t_cd t_tcd Ls z_s x y dx dy,
  inputs_follow (followed a seed) cd tcd t_cd t_tcd a Ls z_s x y dx dy -> distances_fine cd tcd a Ls z_s -> meets_all cd tcd a Ls z_s (x a) (y a) ->
  rays_follow (fun F t => ad_exact F t a seed) cd tcd t_cd t_tcd Ls z_s x y dx dy /\
  ((forall L, In L Ls -> delays (followed a seed) a L) -> planes_apart tcd a Ls z_s ->
   delays_follow (fun F t => ad_exact F t a seed) cd tcd t_cd t_tcd a Ls z_s x y dx dy).
Proof. exact forward_rays. Qed.
Print Assumptions C122_forward.
Theorem C122_backward : forall a req cd tcd t_cd t_tcd Ls z_s x y dx dy,
  inputs_follow (followed_back a req) cd tcd t_cd t_tcd a Ls z_s x y dx dy -> distances_fine cd tcd a Ls z_s -> meets_all cd tcd a Ls z_s (x a) (y a) ->
  rays_follow (fun F t => grad_exact F t a req) cd tcd t_cd t_tcd Ls z_s x y dx dy /\
  ((forall L, In L Ls -> delays (followed_back a req) a L) -> planes_apart tcd a Ls z_s ->
   delays_follow (fun F t => grad_exact F t a req) cd tcd t_cd t_tcd a Ls z_s x y dx dy).
Proof. exact backward_rays. Qed.
Print Assumptions C122_backward.
(** physical_deflection_angle and time_delay of one lens *)
Theorem C122_lens : forall a cd tcd t_cd t_tcd Ls z_s x y dx dy, distances_fine cd tcd a Ls z_s ->
  (forall seed, inputs_follow (followed a seed) cd tcd t_cd t_tcd a Ls z_s x y dx dy -> forall L, In L Ls -> alone_follow (followed a seed) cd t_cd a z_s L) /\
  (forall req, inputs_follow (followed_back a req) cd tcd t_cd t_tcd a Ls z_s x y dx dy -> forall L, In L Ls -> alone_follow (followed_back a req) cd t_cd a z_s L).
Proof.
  intros a cd tcd t_cd t_tcd Ls z_s x y dx dy H.
  exact (conj (fun seed K => alone_forward a seed cd tcd t_cd t_tcd Ls z_s x y dx dy K H) (fun req K => alone_backward a req cd tcd t_cd t_tcd Ls z_s x y dx dy K H)).
Qed.
Print Assumptions C122_lens.
(** any list of such lenses at any redshifts; arguments 0 and 1 are the position, the rest the parameters *)
Theorem C122_lenses : forall a cd l z_s, let Ls := traced_cast a l in let t_cd := fun z => Cst (cd z) in
  distances_fine (fun _ => cd) (fun _ => cd) a Ls z_s -> meets_all (fun _ => cd) (fun _ => cd) a Ls z_s (a 0%nat) (a 1%nat) ->
  (forall seed, cast_proper a (fun i => seed i = None) l ->
    rays_follow (fun F t => ad_exact F t a seed) (fun _ => cd) (fun _ => cd) t_cd t_cd Ls z_s (fun b => b 0%nat) (fun b => b 1%nat) (Var 0) (Var 1) /\
    (planes_apart (fun _ => cd) a Ls z_s ->
     delays_follow (fun F t => ad_exact F t a seed) (fun _ => cd) (fun _ => cd) t_cd t_cd a Ls z_s (fun b => b 0%nat) (fun b => b 1%nat) (Var 0) (Var 1))) /\
  (forall req, cast_proper a (fun i => req i = false) l ->
    rays_follow (fun F t => grad_exact F t a req) (fun _ => cd) (fun _ => cd) t_cd t_cd Ls z_s (fun b => b 0%nat) (fun b => b 1%nat) (Var 0) (Var 1) /\
    (planes_apart (fun _ => cd) a Ls z_s ->
     delays_follow (fun F t => grad_exact F t a req) (fun _ => cd) (fun _ => cd) t_cd t_cd a Ls z_s (fun b => b 0%nat) (fun b => b 1%nat) (Var 0) (Var 1))).
Proof. intros a cd l z_s Ls t_cd H M. exact (conj (cast_forward a cd l z_s H M) (cast_backward a cd l z_s H M)). Qed.
Print Assumptions C122_lenses.
(** the Jacobian by automatic differentiation is the matrix of the derivatives *)
Theorem C122_jacobian : forall a cd l z_s, let Ls := traced_cast a l in let t_cd := fun z => Cst (cd z) in
  distances_fine (fun _ => cd) (fun _ => cd) a Ls z_s -> meets_all (fun _ => cd) (fun _ => cd) a Ls z_s (a 0%nat) (a 1%nat) ->
  (forall n k z, In (n, k, z) l -> (2 <= n)%nat) -> cast_proper a (fun i => (2 <= i)%nat) l ->
  (forall t, t_multiplane_raytrace t_cd t_cd (map program Ls) z_s (Var 0) (Var 1) = Ok t ->
    entries (ad_jacfwd t a) (jacfwd (fun x y => pair_value (multiplane_raytrace cd cd (lenses_of l a) z_s x y)) (a 0%nat) (a 1%nat))) /\
  (forall t, t_multiplane_effective_deflection t_cd t_cd (map program Ls) z_s (Var 0) (Var 1) = Ok t ->
    entries (ad_jacfwd t a) (jacfwd (fun x y => pair_value (multiplane_effective_deflection cd cd (lenses_of l a) z_s x y)) (a 0%nat) (a 1%nat))).
Proof. exact cast_jacobian. Qed.
Print Assumptions C122_jacobian.

Example C122_hyps : distances_fine (fun _ z => z) (fun _ z => z) at_half (traced_cast at_half two_sies) 3 /\
  meets_all (fun _ z => z) (fun _ z => z) at_half (traced_cast at_half two_sies) 3 2 1 /\
  planes_apart (fun _ z => z) at_half (traced_cast at_half two_sies) 3 /\ (forall fixed, cast_proper at_half fixed two_sies) /\
  (forall n k z, In (n, k, z) two_sies -> (2 <= n)%nat) /\
  exists t, t_multiplane_raytrace Cst Cst (map program (traced_cast at_half two_sies)) 3 (Var 0) (Var 1) = Ok t.
Proof. exact two_fine. Qed.
