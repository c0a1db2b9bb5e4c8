(** * C126: light that is focused arrives together *)
From Coq Require Import Reals List Lra Lia.
From Coquelicot Require Import Coquelicot.
From Verif Require Import Py Calc2 Const_Model Cosmo_Model Lens_Spec LensBase_Model LensBasic_Model Multiplane_Model Focus_Proofs.
Import ListNotations.
Local Open Scope R_scope.

(** how the arrival time changes from one image position to the next: it is the deflection times the change of the source position *)
Theorem C126_path : forall cd t zs (g h : R -> R) s l m,
  lens_consistent (potential t) (reduced_deflection_angle t) (convergence t) (g s) (h s) -> is_derive g s l -> is_derive h s m ->
  exists p q, is_derive (fun r => fst (raytrace (reduced_deflection_angle t) (g r) (h r))) s p /\ is_derive (fun r => snd (raytrace (reduced_deflection_angle t) (g r) (h r))) s q /\
    is_derive (fun r => time_delay cd t zs (g r) (h r) true true) s
      (- (time_delay_distance cd (z_l t) zs / c_Mpc_s / days_to_seconds * arcsec_to_rad ^ 2) *
       (fst (reduced_deflection_angle t (g s) (h s)) * p + snd (reduced_deflection_angle t (g s) (h s)) * q)).
Proof. exact delay_path. Qed.

(** so that images of one source that can be joined by images of this source have the same arrival time *)
Theorem C126_thin : forall cd t zs (g h : R -> R) a b, a <= b ->
  (forall s, a <= s <= b -> ex_derive g s /\ ex_derive h s /\ lens_consistent (potential t) (reduced_deflection_angle t) (convergence t) (g s) (h s)) ->
  (forall s, a <= s <= b -> raytrace (reduced_deflection_angle t) (g s) (h s) = raytrace (reduced_deflection_angle t) (g a) (h a)) ->
  time_delay cd t zs (g b) (h b) true true = time_delay cd t zs (g a) (h a) true true.
Proof. exact focused. Qed.

Theorem C126_single_plane : forall cd z l zs (g h : R -> R) a b, a <= b ->
  (forall s, a <= s <= b -> ex_derive g s /\ ex_derive h s /\ forall t, In t l -> lens_consistent (potential t) (reduced_deflection_angle t) (convergence t) (g s) (h s)) ->
  (forall s, a <= s <= b -> raytrace (singleplane_deflection l) (g s) (h s) = raytrace (singleplane_deflection l) (g a) (h a)) ->
  time_delay cd (singleplane z l) zs (g b) (h b) true true = time_delay cd (singleplane z l) zs (g a) (h a) true true.
Proof. exact focused_plane. Qed.

(** a Multiplane with one mass sheet of the critical density: all rays meet in one point of the source plane, but at different times *)
Theorem C126_multiplane_refuted : exists cd zs l, cd 0 = 0 /\ (forall a b, a < b -> cd a < cd b) /\ (forall t, In t l -> 0 < z_l t < zs) /\
  (forall t x y, In t l -> lens_consistent (potential t) (reduced_deflection_angle t) (convergence t) x y) /\
  (forall x y, multiplane_raytrace cd cd l zs x y = Ok (0, 0)) /\
  exists d d', multiplane_time_delay cd cd l zs 0 0 true true = Ok (Some d) /\ multiplane_time_delay cd cd l zs 1 0 true true = Ok (Some d') /\ d <> d'.
Proof.
  exists (fun z => z), 3, [sheet]. split; [reflexivity|]. split; [auto|]. split; [intros t [<-|[]]; cbn; lra|]. split; [intros t x y [<-|[]]; apply sheet_consistent|].
  split; [intros x y; apply (sheet_delay (fun z => z) 3 x y); lra|].
  destruct (sheet_delay (fun z => z) 3 0 0 ltac:(lra) ltac:(lra) ltac:(lra)) as [_ [k [K ->]]]. destruct (sheet_delay (fun z => z) 3 1 0 ltac:(lra) ltac:(lra) ltac:(lra)) as [_ [k' [K' ->]]].
  exists (k * (0 ^ 2 + 0 ^ 2)), (k' * (1 ^ 2 + 0 ^ 2)). split; [reflexivity|]. split; [reflexivity|]. lra.
Qed.

(** the same sheet as a thin lens: two different image positions joined by a straight line *)
Example C126_hyps : let g s := s : R in let h s := 2 * s : R in
  (forall s, 0 <= s <= 1 -> ex_derive g s /\ ex_derive h s /\ lens_consistent (potential sheet) (reduced_deflection_angle sheet) (convergence sheet) (g s) (h s)) /\
  (forall s, 0 <= s <= 1 -> raytrace (reduced_deflection_angle sheet) (g s) (h s) = raytrace (reduced_deflection_angle sheet) (g 0) (h 0)) /\ (g 0, h 0) <> (g 1, h 1).
Proof.
  cbv zeta. split; [|split].
  - intros s _. split; [apply ex_derive_id|]. split; [|apply sheet_consistent]. auto_derive. exact Logic.I.
  - intros s _. rewrite !sheet_focus. reflexivity.
  - intros E. injection E as E _. lra.
Qed.

Print Assumptions C126_path.
Print Assumptions C126_thin.
Print Assumptions C126_single_plane.
Print Assumptions C126_multiplane_refuted.
