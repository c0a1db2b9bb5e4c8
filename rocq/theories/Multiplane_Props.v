(** * Multi-plane lensing (C30-C33) and thick lenses (C71). *)
From Coq Require Import Reals List Lra Lia Permutation Sorting.
From Verif Require Import Py Const_Model Cosmo_Model Lens_Spec LensBase_Model Multiplane_Model LensBase_Proofs
  Multiplane_Proofs Multiplane2_Proofs.
Import ListNotations.
Open Scope R_scope.

(** ** C30.  Specification: the multi-plane lens equation.  [th j] is the angular position of the
    ray on plane j, with j = number of planes for the source plane; redshifts z_0 <= z_1 <= ... ;
    [D z] is the transverse comoving distance. *)
Definition redshift (lenses : list thin_lens) (z_s : R) (j : nat) : R := nth j (map z_l lenses) z_s.
(** physical deflection (d_s/d_ls times the reduced one) of plane i at position p *)
Definition hat_alpha (cd : R -> R) (z_s : R) (lenses : list thin_lens) (i : nat) (p : R * R) : R * R :=
  match nth_error lenses i with
  | Some t => physical_deflection_angle cd t z_s (fst p) (snd p)
  | None => (0, 0)
  end.
Fixpoint Sum (n : nat) (f : nat -> R) : R := match n with O => 0 | S m => Sum m f + f m end.
Definition lens_equation (cd D : R -> R) (z_s : R) (lenses : list thin_lens) (x y : R) (th : nat -> R * R) : Prop :=
  forall j, (j <= length lenses)%nat ->
    let z := redshift lenses z_s in
    fst (th j) = x - Sum j (fun i => (D (z j) - D (z i)) / D (z j) * fst (hat_alpha cd z_s lenses i (th i))) /\
    snd (th j) = y - Sum j (fun i => (D (z j) - D (z i)) / D (z j) * snd (hat_alpha cd z_s lenses i (th i))).

(** lenses listed by increasing redshift; see C31 for other listings *)
Theorem C30_multiplane_equation : forall cd D z_s lenses x y,
  lenses <> [] -> StronglySorted Rle (map z_l lenses) ->
  (forall t, In t lenses -> D (z_l t) <> 0) -> D z_s <> 0 ->
  (exists th, lens_equation cd D z_s lenses x y th) /\
  forall th, lens_equation cd D z_s lenses x y th ->
    multiplane_raytrace cd D lenses z_s x y = Ok (th (length lenses)).
Proof. exact raytrace_equation. Qed.
Print Assumptions C30_multiplane_equation.

Theorem C30_one_plane : forall cd z_s t,
  1 + z_s <> 0 -> cd z_s <> 0 -> cd (z_l t) <> 0 -> cd z_s <> cd (z_l t) ->
  forall x y, multiplane_raytrace cd cd [t] z_s x y = Ok (raytrace (reduced_deflection_angle t) x y).
Proof. exact one_plane_raytrace. Qed.
Print Assumptions C30_one_plane.

Example C30_hyps : StronglySorted Rle (map z_l [massless 1; massless 2]) /\
  (forall t, In t [massless 1; massless 2] -> z_l t <> 0).
Proof. split; [simpl; repeat constructor; lra | intros t [<-|[<-|[]]]; simpl; lra]. Qed.

(** ** C31: false of the code.  Two planes listed in decreasing redshift crash, and three planes
    listed as (2,1,3) return 3/4 of the position although nothing deflects. *)
Theorem C31_order_refuted : exists cd z_s l l' x y, Permutation l l' /\
  (forall t, In t l -> 0 < z_l t < z_s) /\ (forall a b, a < b -> cd a < cd b) /\
  (exists p, multiplane_raytrace cd cd l z_s x y = Ok p) /\
  multiplane_raytrace cd cd l' z_s x y = Raise IndexError.
Proof.
  exists (fun z => z), 3, [massless 1; massless 2], [massless 2; massless 1], 1, 0.
  split; [apply perm_swap|]. split; [intros t [<-|[<-|[]]]; simpl; lra|]. split; [auto|].
  split; [eexists; apply order_crash|apply order_crash].
Qed.
Print Assumptions C31_order_refuted.

Theorem C31_order_silent_refuted : exists cd z_s l l' x y p p', Permutation l l' /\
  (forall t, In t l -> 0 < z_l t < z_s) /\ (forall a b, a < b -> cd a < cd b) /\
  multiplane_raytrace cd cd l z_s x y = Ok p /\
  multiplane_raytrace cd cd l' z_s x y = Ok p' /\ p <> p'.
Proof.
  exists (fun z => z), 4, [massless 1; massless 2; massless 3], [massless 2; massless 1; massless 3], 1, 0.
  exists (1, 0), (3 / 4 * 1, 3 / 4 * 0).
  split; [apply perm_swap|]. split; [intros t [<-|[<-|[<-|[]]]]; simpl; lra|]. split; [auto|].
  split; [apply order_right|]. split; [apply order_wrong|]. intros E; injection E; lra.
Qed.
Print Assumptions C31_order_silent_refuted.

(** what does hold: any two listings that are both by increasing redshift (they differ in the order of
    planes at equal redshift) ray-trace alike *)
Theorem C31_sorted_listings_partial : forall cd D z_s l l' x y,
  Permutation l l' -> StronglySorted Rle (map z_l l) -> StronglySorted Rle (map z_l l') ->
  (forall t, In t l -> z_l t <= z_s /\ D (z_l t) <> 0) -> D z_s <> 0 ->
  multiplane_raytrace cd D l z_s x y = multiplane_raytrace cd D l' z_s x y.
Proof. exact raytrace_order. Qed.
Print Assumptions C31_sorted_listings_partial.
Example C31_hyps : let a := ThinLens 1 (fun x y => (x, y)) (fun _ _ => 0) (fun _ _ => 1) in
  let b := massless 1 in Permutation [a; b] [b; a] /\ [a; b] <> [b; a] /\
  StronglySorted Rle (map z_l [a; b]) /\ StronglySorted Rle (map z_l [b; a]).
Proof.
  cbv zeta. split; [apply perm_swap|]. split.
  - intros E. assert (H := f_equal (fun l => match l with c :: _ => fst (reduced_deflection_angle c 1 1) | _ => 0 end) E).
    simpl in H. lra.
  - simpl; repeat constructor; lra.
Qed.

(** ** C32 (listing by increasing redshift) *)
Theorem C32_massless_plane : forall cd D z_s l1 m l2 x y,
  (forall u v, reduced_deflection_angle m u v = (0, 0)) ->
  StronglySorted Rle (map z_l (l1 ++ m :: l2)) ->
  (forall t, In t (l1 ++ m :: l2) -> z_l t <= z_s /\ D (z_l t) <> 0) -> D z_s <> 0 ->
  multiplane_raytrace cd D (l1 ++ m :: l2) z_s x y =
  match l1 ++ l2 with [] => Ok (x, y) | _ => multiplane_raytrace cd D (l1 ++ l2) z_s x y end.
Proof. exact raytrace_massless. Qed.
Print Assumptions C32_massless_plane.

(** in a listing that is not by increasing redshift a massless plane does change the result *)
Theorem C32_unsorted_refuted : exists cd z_s l m x y,
  (forall u v, reduced_deflection_angle m u v = (0, 0)) /\ 0 < z_l m < z_s /\
  multiplane_raytrace cd cd l z_s x y = Ok (x, y) /\
  multiplane_raytrace cd cd (m :: l) z_s x y <> Ok (x, y).
Proof.
  exists (fun z => z), 3, [massless 1], (massless 2), 1, 0.
  split; [reflexivity|]. split; [simpl; lra|]. split.
  - rewrite (one_plane_raytrace (fun z => z) 3 (massless 1)) by (simpl; lra).
    unfold raytrace; simpl. f_equal; f_equal; ring.
  - rewrite (proj2 order_crash). discriminate.
Qed.
Print Assumptions C32_unsorted_refuted.

Example C32_hyps : StronglySorted Rle (map z_l ([massless 1] ++ massless 2 :: [massless 3])).
Proof. simpl; repeat constructor; lra. Qed.

(** ** C33: false of the code.  The one-plane delay is (1+z_l) times the thin lens one for the
    Shapiro part and (1+z_l) (D_s/D_ls)^2 times it for the geometric part. *)
Theorem C33_actual_ratio : forall cd z_s t,
  1 + z_s <> 0 -> cd z_s <> 0 -> cd (z_l t) <> 0 -> cd z_s <> cd (z_l t) ->
  forall x y, 1 + z_l t <> 0 ->
  multiplane_time_delay cd cd [t] z_s x y true false =
    Ok (Some ((1 + z_l t) * time_delay cd t z_s x y true false)) /\
  multiplane_time_delay cd cd [t] z_s x y false true =
    Ok (Some ((1 + z_l t) * (cd z_s / (cd z_s - cd (z_l t))) ^ 2 * time_delay cd t z_s x y false true)) /\
  multiplane_time_delay cd cd [t] z_s x y false false = Raise ValueError.
Proof. exact one_plane_delay. Qed.
Print Assumptions C33_actual_ratio.

Theorem C33_one_plane_delay_refuted : exists cd z_s t x y, 0 < z_l t < z_s /\ (forall a b, a < b -> cd a < cd b) /\
  multiplane_time_delay cd cd [t] z_s x y true false <> Ok (Some (time_delay cd t z_s x y true false)) /\
  multiplane_time_delay cd cd [t] z_s x y false true <> Ok (Some (time_delay cd t z_s x y false true)) /\
  multiplane_time_delay cd cd [t] z_s x y false false <> Ok (Some (time_delay cd t z_s x y false false)).
Proof.
  set (t := ThinLens 1 (fun _ _ => (1, 0)) (fun _ _ => 1) (fun _ _ => 0)).
  exists (fun z => z), 3, t, 0, 0. split; [simpl; lra|]. split; [auto|].
  assert (Cp := c_Mpc_s_pos). assert (Dp := days_pos). assert (Ap := arcsec_to_rad_pos).
  assert (A2 : 0 < arcsec_to_rad ^ 2) by (apply pow_lt, Ap).
  assert (F : 0 < arcsec2_to_days (fun z => z) 3 1).
  { unfold arcsec2_to_days, time_delay_arcsec2_to_days, angular_diameter_distance,
      angular_diameter_distance_z1z2, comoving_distance_z1z2.
    apply Rdiv_lt_0_compat; [|exact Dp]. apply Rmult_lt_0_compat; [|exact A2].
    apply Rdiv_lt_0_compat; [|lra]. apply Rmult_lt_0_compat; [|lra]. apply Rmult_lt_0_compat; [|lra].
    apply Rdiv_lt_0_compat; lra. }
  destruct (one_plane_delay (fun z => z) 3 t ltac:(lra) ltac:(lra) ltac:(simpl; lra) ltac:(simpl; lra) 0 0 ltac:(simpl; lra))
    as (-> & -> & ->).
  split; [|split; [|discriminate]].
  - intros E; injection E. unfold time_delay. simpl. lra.
  - intros E; injection E. unfold time_delay. simpl. lra.
Qed.
Print Assumptions C33_one_plane_delay_refuted.

Example C33_hyps : 1 + 3 <> 0 /\ (fun z : R => z) 3 <> 0 /\ (fun z : R => z) 1 <> 0 /\ (fun z : R => z) 3 <> (fun z : R => z) 1.
Proof. repeat split; lra. Qed.

(** ** C71 *)
Theorem C71_effective_deflection : forall cd z_s t,
  1 + z_s <> 0 -> cd z_s <> 0 -> cd (z_l t) <> 0 -> cd z_s <> cd (z_l t) ->
  forall x y, multiplane_effective_deflection cd cd [t] z_s x y = Ok (reduced_deflection_angle t x y).
Proof. exact one_plane_effective. Qed.
Print Assumptions C71_effective_deflection.

Theorem C71_effective_convergence : forall cd z_s t,
  1 + z_s <> 0 -> cd z_s <> 0 -> cd (z_l t) <> 0 -> cd z_s <> cd (z_l t) ->
  forall x y, convergence_is_half_divergence (reduced_deflection_angle t) (convergence t) x y ->
  forall rt, (forall u v, multiplane_raytrace cd cd [t] z_s u v = Ok (rt u v)) ->
  let J := jacfwd (effective_reduced_deflection_angle rt) x y in
  effective_convergence_div J = convergence t x y /\ effective_convergence_curl J = 0.
Proof. exact one_plane_effective_convergence. Qed.
Print Assumptions C71_effective_convergence.
Example C71_hyps : convergence_is_half_divergence (fun x y => (2 * x * y, x ^ 2)) (fun x y => y) 1 2.
Proof. exists 4, 2, 2, 0. split; [|split; [|split]]; try reflexivity; try field; cbn [fst snd]; Calc2.d2; ring. Qed.
