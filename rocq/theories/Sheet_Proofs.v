(** * Mass-sheet degeneracy *)
From Coq Require Import Reals List Lra Bool.
From Coquelicot Require Import Coquelicot.
From Verif Require Import Py Calc2 Const_Model Cosmo_Model Geo_Model LensBase_Model LensBase_Proofs LensBasic_Model Halo_Model.
Import ListNotations.
Open Scope R_scope.

Lemma Dsc (f g : R -> R) c d x : (forall u, f u = c * g u + d) -> Derive f x = c * Derive g x.
Proof.
  intros H. rewrite <- Derive_scal. unfold Derive. apply f_equal. apply Lim_ext. intros h. rewrite !H. apply (f_equal (fun t => t / h)). ring.
Qed.
Section S.
Variables (kappa x0 y0 : R) (t t' : thin_lens).
Hypothesis Ht : forall x y, reduced_deflection_angle t' x y = ((1 - kappa) * fst (reduced_deflection_angle t x y), (1 - kappa) * snd (reduced_deflection_angle t x y)) /\
    potential t' x y = (1 - kappa) * potential t x y /\ convergence t' x y = (1 - kappa) * convergence t x y.
Let p := singleplane (z_l t) [t'; mass_sheet_lens (z_l t) x0 y0 kappa].
Let rt := raytrace (reduced_deflection_angle t).
Let rt' := raytrace (reduced_deflection_angle p).
Lemma sheet_defl x y : reduced_deflection_angle p x y = ((1 - kappa) * fst (reduced_deflection_angle t x y) + (x - x0) * kappa, (1 - kappa) * snd (reduced_deflection_angle t x y) + (y - y0) * kappa).
Proof.
  unfold p. cbn [singleplane reduced_deflection_angle]. unfold singleplane_deflection. cbn [fold_left mass_sheet_lens reduced_deflection_angle].
  rewrite (proj1 (Ht x y)). cbn [fst snd]. unfold reduced_deflection_angle_mass_sheet, translate_rotate. cbn. f_equal; ring.
Qed.
Lemma sheet_pot x y : potential p x y = (1 - kappa) * potential t x y + kappa / 2 * ((x - x0) ^ 2 + (y - y0) ^ 2).
Proof.
  unfold p. cbn [singleplane potential]. unfold singleplane_potential. cbn [fold_left mass_sheet_lens potential].
  rewrite (proj1 (proj2 (Ht x y))). unfold potential_mass_sheet, translate_rotate. cbn. ring.
Qed.
Lemma sheet_conv x y : convergence p x y = (1 - kappa) * convergence t x y + kappa.
Proof.
  unfold p. cbn [singleplane convergence]. unfold singleplane_convergence. cbn [fold_left mass_sheet_lens convergence].
  rewrite (proj2 (proj2 (Ht x y))). unfold convergence_mass_sheet. ring.
Qed.
Lemma sheet_rt x y : rt' x y = ((1 - kappa) * fst (rt x y) + kappa * x0, (1 - kappa) * snd (rt x y) + kappa * y0).
Proof. unfold rt', rt, raytrace. rewrite sheet_defl. destruct (reduced_deflection_angle t x y) as [a b]. cbn [fst snd]. f_equal; ring. Qed.

Lemma sheet_mag x y : kappa <> 1 ->
  magnification (reduced_deflection_angle p) x y = option_map (fun m => m / (1 - kappa) ^ 2) (magnification (reduced_deflection_angle t) x y).
Proof.
  intros Hk. unfold magnification, pixel_magnification. fold rt rt'. cbv zeta.
  assert (J : jacfwd rt' x y = Mat2 ((1 - kappa) * m00 (jacfwd rt x y)) ((1 - kappa) * m01 (jacfwd rt x y)) ((1 - kappa) * m10 (jacfwd rt x y)) ((1 - kappa) * m11 (jacfwd rt x y))).
  { unfold jacfwd. cbn [m00 m01 m10 m11]. f_equal; eapply Dsc; intros u; rewrite sheet_rt; reflexivity. }
  rewrite J. cbn [m00 m01 m10 m11]. set (J0 := jacfwd rt x y).
  replace ((1 - kappa) * m00 J0 * ((1 - kappa) * m11 J0) - (1 - kappa) * m01 J0 * ((1 - kappa) * m10 J0)) with ((1 - kappa) ^ 2 * (m00 J0 * m11 J0 - m01 J0 * m10 J0)) by ring.
  rewrite Rabs_mult. assert (P : 0 < (1 - kappa) ^ 2) by (apply pow2_gt_0; lra). rewrite (Rabs_pos_eq ((1 - kappa) ^ 2)) by lra.
  generalize (Rabs (m00 J0 * m11 J0 - m01 J0 * m10 J0)). intros d.
  destruct (Req_EM_T ((1 - kappa) ^ 2 * d) 0) as [E|E], (Req_EM_T d 0) as [F|F]; cbn [option_map]; try reflexivity.
  - apply Rmult_integral in E. destruct E; lra.
  - subst. exfalso. apply E. ring.
  - f_equal. field. split; lra.
Qed.
Lemma sheet_delay cd z_s x y x2 y2 : rt x y = rt x2 y2 ->
  time_delay cd p z_s x y true true - time_delay cd p z_s x2 y2 true true = (1 - kappa) * (time_delay cd t z_s x y true true - time_delay cd t z_s x2 y2 true true).
Proof.
  intros E. unfold time_delay. rewrite !sheet_defl, !sheet_pot. unfold p at 1 2. cbn [singleplane z_l].
  unfold rt, raytrace in E. destruct (reduced_deflection_angle t x y) as [a b], (reduced_deflection_angle t x2 y2) as [c d]. injection E as E1 E2. cbn [fst snd].
  generalize (arcsec2_to_days cd z_s (z_l t)) (potential t x y) (potential t x2 y2). intros k u v.
  assert (A : a = x - x2 + c) by lra. assert (B : b = y - y2 + d) by lra. rewrite A, B. field.
Qed.
End S.
Lemma sheet_images kappa x0 y0 t t' : (forall x y, reduced_deflection_angle t' x y = ((1 - kappa) * fst (reduced_deflection_angle t x y), (1 - kappa) * snd (reduced_deflection_angle t x y)) /\
    potential t' x y = (1 - kappa) * potential t x y /\ convergence t' x y = (1 - kappa) * convergence t x y) -> kappa <> 1 -> forall x y x2 y2,
  raytrace (reduced_deflection_angle t) x y = raytrace (reduced_deflection_angle t) x2 y2 <->
  raytrace (reduced_deflection_angle (singleplane (z_l t) [t'; mass_sheet_lens (z_l t) x0 y0 kappa])) x y =
  raytrace (reduced_deflection_angle (singleplane (z_l t) [t'; mass_sheet_lens (z_l t) x0 y0 kappa])) x2 y2.
Proof.
  intros H Hk x y x2 y2. rewrite !(sheet_rt kappa x0 y0 t t' H). 
  destruct (raytrace (reduced_deflection_angle t) x y) as [a b], (raytrace (reduced_deflection_angle t) x2 y2) as [c d]. cbn [fst snd].
  split; intros E; apply pair_equal_spec in E; destruct E as [E1 E2].
  - rewrite E1, E2. reflexivity.
  - f_equal; (apply Rmult_eq_reg_l with (1 - kappa); [lra|lra]).
Qed.
