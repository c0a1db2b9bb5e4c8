(** * C83: several lenses at one redshift in Multiplane *)
From Coq Require Import Reals List Lra Sorting Bool.
From Verif Require Import Py Const_Model Cosmo_Model LensBase_Model Multiplane_Model LensBase_Proofs Multiplane_Proofs Multiplane2_Proofs Multiplane3_Proofs.
Import ListNotations.
Open Scope R_scope.

(** lenses at one redshift, anywhere in a listing by increasing redshift, may be wrapped in a SinglePlane *)
Theorem C83_group_raytrace : forall cd D z_s l1 g l2 zg x y, g <> [] -> (forall t, In t g -> z_l t = zg) ->
  StronglySorted Rle (map z_l (l1 ++ g ++ l2)) -> (forall t, In t (l1 ++ g ++ l2) -> z_l t <= z_s /\ D (z_l t) <> 0) -> D z_s <> 0 ->
  multiplane_raytrace cd D (l1 ++ g ++ l2) z_s x y = multiplane_raytrace cd D (l1 ++ singleplane zg g :: l2) z_s x y.
Proof. intros. apply raytrace_group; assumption. Qed.
Print Assumptions C83_group_raytrace.
(** all at one redshift: the Multiplane ray-traces like the thin SinglePlane lens itself *)
Theorem C83_all_raytrace : forall cd z_s g zg x y, g <> [] -> (forall t, In t g -> z_l t = zg) ->
  1 + z_s <> 0 -> zg <= z_s -> cd z_s <> 0 -> cd zg <> 0 -> cd z_s <> cd zg ->
  multiplane_raytrace cd cd g z_s x y = Ok (raytrace (reduced_deflection_angle (singleplane zg g)) x y).
Proof. exact raytrace_all. Qed.
Print Assumptions C83_all_raytrace.
Example C83_hyps : let g := [massless 2; ThinLens 2 (fun x y => (x, y)) (fun _ _ => 0) (fun _ _ => 1)] in
  g <> [] /\ (forall t, In t g -> z_l t = 2) /\ StronglySorted Rle (map z_l ([massless 1] ++ g ++ [massless 3])) /\
  (forall t, In t ([massless 1] ++ g ++ [massless 3]) -> z_l t <= 4 /\ (fun z => z) (z_l t) <> 0).
Proof.
  cbv zeta. split; [discriminate|]. split; [intros t [<-|[<-|[]]]; reflexivity|]. split; [simpl; repeat constructor; lra|].
  intros t [<-|[<-|[<-|[<-|[]]]]]; simpl; lra.
Qed.

(** the time delay, on the contrary, is NaN for two planes at one redshift, whatever the lenses, distances and flags; as a SinglePlane
    they have a delay *)
Theorem C83_delay_nan : forall cd D z_s a b x y shapiro geometric, z_l a = z_l b -> (shapiro || geometric)%bool = true ->
  multiplane_time_delay cd D [a; b] z_s x y shapiro geometric = Ok None.
Proof. exact delay_pair. Qed.
Print Assumptions C83_delay_nan.
Theorem C83_delay_refuted : exists cd z_s a b x y v, z_l a = z_l b /\ 0 < z_l a < z_s /\ (forall u w, u < w -> cd u < cd w) /\
  multiplane_time_delay cd cd [singleplane (z_l a) [a; b]] z_s x y true false = Ok (Some v) /\
  multiplane_time_delay cd cd [a; b] z_s x y true false = Ok None.
Proof.
  exists (fun z => z), 3, (massless 1), (massless 1), 1, 0.
  destruct (one_plane_delay (fun z => z) 3 (singleplane 1 [massless 1; massless 1]) ltac:(lra) ltac:(lra) ltac:(simpl; lra) ltac:(simpl; lra) 1 0 ltac:(simpl; lra)) as (E & _).
  eexists. split; [reflexivity|]. split; [simpl; lra|]. split; [auto|]. split; [exact E|]. apply delay_pair; reflexivity.
Qed.
Print Assumptions C83_delay_refuted.
