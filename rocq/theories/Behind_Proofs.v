(** * Lenses behind the source *)
From Coq Require Import Reals Lra Lia List Arith Sorting.
From Verif Require Import Py Const_Model Cosmo_Model Geo_Model LensBase_Model Jaffe_Model Nfw_Model Tnfw_Model Halo_Model Halo_Proofs Falls_Spec Falls_Proofs Falls2_Proofs Falls3_Proofs
  Multiplane_Model Multiplane_Proofs Behind_Spec.
Import ListNotations.
Local Open Scope R_scope.

Section S.
Variable dc : R -> R.
Variables z1 z_l z2 : R.
Hypothesis Cos : distances_grow dc.
Hypothesis Z1 : 0 < z1 < z_l.
Hypothesis Z2 : z_l < z2.
Lemma signs : 0 < angular_diameter_distance dc z_l /\ 0 < angular_diameter_distance dc z1 /\ 0 < angular_diameter_distance dc z2 /\
  angular_diameter_distance_z1z2 dc z_l z1 < 0 /\ 0 < angular_diameter_distance_z1z2 dc z_l z2.
Proof.
  destruct Cos as [C0 C]. pose proof (C 0 z1 ltac:(lra)). pose proof (C z1 z_l ltac:(lra)). pose proof (C z_l z2 ltac:(lra)).
  unfold angular_diameter_distance, angular_diameter_distance_z1z2, comoving_distance_z1z2. repeat split; try (apply Rdiv_lt_0_compat; lra).
  apply Ropp_lt_cancel. replace (- ((dc z1 - dc z_l) / (1 + z1))) with ((dc z_l - dc z1) / (1 + z1)) by (field; lra). rewrite Ropp_0. apply Rdiv_lt_0_compat; lra.
Qed.
Definition factor : R := - (angular_diameter_distance_z1z2 dc z_l z1 / angular_diameter_distance dc z1) / (angular_diameter_distance_z1z2 dc z_l z2 / angular_diameter_distance dc z2).
Lemma factor_pos : 0 < factor.
Proof.
  destruct signs as (A & B & C & D & E). unfold factor. apply Rdiv_lt_0_compat; [|apply Rdiv_lt_0_compat; lra].
  replace (- (angular_diameter_distance_z1z2 dc z_l z1 / angular_diameter_distance dc z1)) with (- angular_diameter_distance_z1z2 dc z_l z1 / angular_diameter_distance dc z1) by (unfold Rdiv; ring).
  apply Rdiv_lt_0_compat; lra.
Qed.
Lemma sigma_ratio : critical_surface_density dc z_l z2 = - factor * critical_surface_density dc z_l z1.
Proof.
  destruct signs as (A & B & C & D & E). unfold factor, critical_surface_density. cbv zeta. pose proof PI_RGT_0. pose proof G_over_c2_pos. field. repeat split; lra.
Qed.
(** from equal physical deflections, surface densities and scaled potentials *)
Lemma of_physical (L : R -> thin_lens) x y : (forall z, LensBase_Model.z_l (L z) = z_l) ->
  physical_deflection_angle dc (L z1) z1 x y = physical_deflection_angle dc (L z2) z2 x y ->
  reduced_deflection_angle (L z1) x y = (- factor * fst (reduced_deflection_angle (L z2) x y), - factor * snd (reduced_deflection_angle (L z2) x y)).
Proof.
  intros HL. destruct signs as (A & B & C & D & E). unfold physical_deflection_angle, physical_from_reduced_deflection_angle. rewrite !HL.
  destruct (reduced_deflection_angle (L z1) x y) as [a b], (reduced_deflection_angle (L z2) x y) as [a' b']. cbn [fst snd]. intros H. injection H as H1 H2.
  set (r1 := angular_diameter_distance_z1z2 dc z_l z1) in *. set (r2 := angular_diameter_distance_z1z2 dc z_l z2) in *. set (d1 := angular_diameter_distance dc z1) in *. set (d2 := angular_diameter_distance dc z2) in *.
  unfold factor. fold r1 r2 d1 d2.
  f_equal.
  - transitivity (r1 / d1 * (d1 / r1 * a)); [field; lra|]. rewrite H1. field. repeat split; lra.
  - transitivity (r1 / d1 * (d1 / r1 * b)); [field; lra|]. rewrite H2. field. repeat split; lra.
Qed.
Lemma of_density k1 k2 : k1 * critical_surface_density dc z_l z1 = k2 * critical_surface_density dc z_l z2 -> k1 = - factor * k2.
Proof.
  rewrite sigma_ratio. intros H. assert (N : critical_surface_density dc z_l z1 <> 0) by (destruct signs as (A & B & C & D & E); apply sigma_nz; lra).
  apply Rmult_eq_reg_r with (critical_surface_density dc z_l z1); [|exact N]. rewrite H. ring.
Qed.
Lemma jaffe_behind x0 y0 mass Rc Rs : opposite (jaffe_lens dc z1 z_l x0 y0 mass Rc Rs) (jaffe_lens dc z2 z_l x0 y0 mass Rc Rs).
Proof.
  destruct signs as (A & B & C & D & E). exists factor. split; [exact factor_pos|]. intros x y. split.
  - apply (of_physical (fun z => jaffe_lens dc z z_l x0 y0 mass Rc Rs)); [reflexivity|]. rewrite !jaffe_defl by lra. reflexivity.
  - apply of_density. transitivity (surface_density dc (jaffe_lens dc z1 z_l x0 y0 mass Rc Rs) z1 x y); [reflexivity|].
    transitivity (surface_density dc (jaffe_lens dc z2 z_l x0 y0 mass Rc Rs) z2 x y); [|reflexivity]. rewrite !jaffe_sd by lra. reflexivity.
Qed.
Lemma tnfw_behind cd tot x0 y0 mass Rs tau s : opposite (tnfw_lens dc cd tot z1 z_l x0 y0 mass Rs tau s) (tnfw_lens dc cd tot z2 z_l x0 y0 mass Rs tau s).
Proof.
  destruct signs as (A & B & C & D & E). exists factor. split; [exact factor_pos|]. intros x y. split.
  - apply (of_physical (fun z => tnfw_lens dc cd tot z z_l x0 y0 mass Rs tau s)); [reflexivity|]. rewrite !tnfw_defl by lra. reflexivity.
  - apply of_density. transitivity (surface_density dc (tnfw_lens dc cd tot z1 z_l x0 y0 mass Rs tau s) z1 x y); [reflexivity|].
    transitivity (surface_density dc (tnfw_lens dc cd tot z2 z_l x0 y0 mass Rs tau s) z2 x y); [|reflexivity]. rewrite !tnfw_sd by lra. reflexivity.
Qed.
Lemma nfw_behind cd x0 y0 mass c s : exists k, 0 < k /\ forall x y,
  nfw_reduced_deflection_angle dc cd z1 z_l x0 y0 mass c s x y =
    (- k * fst (nfw_reduced_deflection_angle dc cd z2 z_l x0 y0 mass c s x y), - k * snd (nfw_reduced_deflection_angle dc cd z2 z_l x0 y0 mass c s x y)) /\
  nfw_convergence dc cd z1 z_l x0 y0 mass c s x y = option_map (fun v => - k * v) (nfw_convergence dc cd z2 z_l x0 y0 mass c s x y).
Proof.
  destruct signs as (A & B & C & D & E). exists factor. split; [exact factor_pos|]. intros x y. split.
  - apply (of_physical (fun z => nfw_lens dc cd z z_l x0 y0 mass c s (fun _ _ => 0))); [reflexivity|]. rewrite !nfw_defl by lra. reflexivity.
  - assert (H : nfw_surface_density dc cd z1 z_l x0 y0 mass c s x y = nfw_surface_density dc cd z2 z_l x0 y0 mass c s x y) by (rewrite !nfw_sd by lra; reflexivity).
    unfold nfw_surface_density in H. destruct (nfw_convergence dc cd z1 z_l x0 y0 mass c s x y) as [k1|], (nfw_convergence dc cd z2 z_l x0 y0 mass c s x y) as [k2|]; try discriminate; [|reflexivity].
    cbn [option_map] in *. injection H as H. f_equal. apply of_density, H.
Qed.
Lemma tnfw_negative cd tot x0 y0 mass Rs tau s x y : 0 < cd z_l -> 0 < mass -> 0 < Rs -> 0 < tau -> 0 <= s -> 0 < distance x0 y0 x y ->
  tnfw_convergence dc cd tot z1 z_l x0 y0 mass Rs tau s x y < 0.
Proof.
  intros P1 P2 P3 P4 P5 P6. destruct signs as (A & B & C & D & E). destruct (tnfw_behind cd tot x0 y0 mass Rs tau s) as (k & Pk & H). destruct (H x y) as [_ H2].
  cbn [tnfw_lens convergence] in H2. rewrite H2. pose proof (tnfw_positive dc cd tot z2 z_l x0 y0 mass Rs tau s P1 P2 P3 P4 A C E x y P5 P6). nra.
Qed.
End S.

Lemma at_source_nfw dc cd z x0 y0 mass c s x y : raytrace (nfw_reduced_deflection_angle dc cd z z x0 y0 mass c s) x y = (x, y).
Proof.
  unfold raytrace, nfw_reduced_deflection_angle, reduced_from_physical_deflection_angle, angular_diameter_distance_z1z2, comoving_distance_z1z2. cbv zeta.
  destruct (nfw_physical_deflection_angle dc cd z x0 y0 mass c s x y) as [a b]. unfold Rdiv. f_equal; ring.
Qed.
Lemma at_source_tnfw dc cd tot z x0 y0 mass Rs tau s x y : raytrace (tnfw_reduced_deflection_angle dc cd tot z z x0 y0 mass Rs tau s) x y = (x, y).
Proof.
  unfold raytrace, tnfw_reduced_deflection_angle, reduced_from_physical_deflection_angle, angular_diameter_distance_z1z2, comoving_distance_z1z2. cbv zeta.
  destruct (tnfw_physical_deflection_angle dc cd tot z x0 y0 mass Rs tau s x y) as [a b]. unfold Rdiv. f_equal; ring.
Qed.

(** a plane behind the source, listed last *)
Lemma multiplane_behind cd D z_s l m x y :
  l <> [] -> StronglySorted Rle (map z_l (l ++ [m])) -> (forall t, In t (l ++ [m]) -> D (z_l t) <> 0) -> D z_s <> 0 ->
  exists q p, multiplane_raytrace cd D l z_s x y = Ok q /\
  multiplane_raytrace cd D (l ++ [m]) z_s x y =
    Ok (fst q + (D (z_l m) - D z_s) / D z_s * fst (physical_deflection_angle cd m z_s (fst p) (snd p)),
        snd q + (D (z_l m) - D z_s) / D z_s * snd (physical_deflection_angle cd m z_s (fst p) (snd p))).
Proof.
  intros Hn Hs Hd Hz.
  destruct (raytrace_equation cd D z_s (l ++ [m]) x y ltac:(destruct l; discriminate) Hs Hd Hz) as [[th Ht] E]. specialize (E th Ht). rewrite app_length in E. cbn [length] in E. rewrite Nat.add_1_r in E.
  assert (Hs' : StronglySorted Rle (map z_l l)).
  { rewrite map_app in Hs. revert Hs. generalize (map z_l l) as u, (map z_l [m]) as v. induction u as [|a u IH]; intros v H; [constructor|].
    cbn in H. inversion H; subst. constructor; [exact (IH _ H2)|]. apply Forall_app in H3. apply H3. }
  destruct (raytrace_equation cd D z_s l x y Hn Hs' ltac:(intros t It; apply Hd, in_or_app; auto) Hz) as [_ E']. set (n := length l) in *.
  assert (PZ : forall j, (j < n)%nat -> plane_z z_s (l ++ [m]) j = plane_z z_s l j).
  { intros j Hj. unfold plane_z. rewrite map_app, app_nth1; [reflexivity|]. rewrite map_length. exact Hj. }
  assert (PH : forall j p, (j < n)%nat -> phys cd z_s (l ++ [m]) j p = phys cd z_s l j p).
  { intros j p Hj. unfold phys. rewrite nth_error_app1; [reflexivity|exact Hj]. }
  assert (Zs1 : plane_z z_s (l ++ [m]) (S n) = z_s) by (unfold plane_z; apply nth_overflow; rewrite map_length, app_length; cbn; fold n; lia).
  assert (Zs2 : plane_z z_s l n = z_s) by (unfold plane_z; apply nth_overflow; rewrite map_length; fold n; lia).
  assert (Zm : plane_z z_s (l ++ [m]) n = z_l m) by (unfold plane_z; rewrite map_app, app_nth2; rewrite map_length; fold n; [rewrite Nat.sub_diag; reflexivity|lia]).
  assert (Pm : forall p, phys cd z_s (l ++ [m]) n p = physical_deflection_angle cd m z_s (fst p) (snd p)).
  { intros p. unfold phys. rewrite nth_error_app2 by (fold n; lia). fold n. rewrite Nat.sub_diag. reflexivity. }
  set (q := (x - sum_below n (fun i => (D z_s - D (plane_z z_s l i)) / D z_s * fst (phys cd z_s l i (th i))),
             y - sum_below n (fun i => (D z_s - D (plane_z z_s l i)) / D z_s * snd (phys cd z_s l i (th i))))).
  exists q, (th n). set (ph := fun j => if Nat.eqb j n then q else th j).
  assert (Hp : multiplane_equation cd D z_s l x y ph).
  { intros j Hj. fold n in Hj. unfold ph at 1 3. destruct (Nat.eqb_spec j n) as [->|N].
    - rewrite Zs2. cbn [fst snd q]. split; f_equal; apply sum_below_ext; intros i Hi; unfold ph; (destruct (Nat.eqb_spec i n); [lia|reflexivity]).
    - destruct (Ht j ltac:(rewrite app_length; fold n; lia)) as [E1 E2]. rewrite E1, E2.
      split; f_equal; apply sum_below_ext; intros i Hi; rewrite !PZ, PH by lia; unfold ph; (destruct (Nat.eqb_spec i n); [lia|reflexivity]). }
  specialize (E' ph Hp). split.
  - rewrite E'. unfold ph. rewrite Nat.eqb_refl. reflexivity.
  - rewrite E. f_equal. destruct (Ht (S n) ltac:(rewrite app_length; cbn; fold n; lia)) as [E1 E2]. rewrite Zs1 in E1, E2. cbn [sum_below] in E1, E2. rewrite Zm, Pm in E1, E2.
    rewrite (surjective_pairing (th (S n))), E1, E2. cbn [fst snd q]. f_equal.
    + rewrite (sum_below_ext n _ (fun i => (D z_s - D (plane_z z_s l i)) / D z_s * fst (phys cd z_s l i (th i)))) by (intros i Hi; rewrite PZ, PH by lia; reflexivity). field. exact Hz.
    + rewrite (sum_below_ext n _ (fun i => (D z_s - D (plane_z z_s l i)) / D z_s * snd (phys cd z_s l i (th i)))) by (intros i Hi; rewrite PZ, PH by lia; reflexivity). field. exact Hz.
Qed.

(** a PseudoJaffe halo at redshift 2 in front of which the source sits at redshift 1 *)
Lemma jaffe_pushes : 1 < fst (raytrace (jaffe_reduced_deflection_angle (fun z => z) 1 2 0 0 1 1 2) 1 0).
Proof.
  unfold raytrace, jaffe_reduced_deflection_angle, reduced_deflection_angle_pseudo_jaffe, translate_rotate, convergence_0_pseudo_jaffe. cbv zeta. cbn [fst].
  replace (sqrt ((1 - 0) ^ 2 + (0 - 0) ^ 2) + 0) with 1 by (replace ((1 - 0) ^ 2 + (0 - 0) ^ 2) with 1 by ring; rewrite sqrt_1; ring).
  set (sg := critical_surface_density _ _ _).
  assert (S : sg < 0).
  { unfold sg, critical_surface_density, angular_diameter_distance, angular_diameter_distance_z1z2, comoving_distance_z1z2. pose proof PI_RGT_0. pose proof G_over_c2_pos.
    replace (1 / (1 + 1) / (4 * PI * G_over_c2 * (2 / (1 + 2)) * ((1 - 2) / (1 + 1)))) with (- (3 / (8 * (PI * G_over_c2)))) by (field; repeat split; lra).
    assert (0 < PI * G_over_c2) by (apply Rmult_lt_0_compat; lra). assert (0 < 3 / (8 * (PI * G_over_c2))) by (apply Rdiv_lt_0_compat; lra). lra. }
  set (f := 1 / 1 / (1 + sqrt (1 + (1 / 1) ^ 2)) - 1 / (2 * (1 + sqrt (1 + (1 / 2) ^ 2)))).
  assert (F : 0 < f).
  { unfold f. assert (A : sqrt (1 + (1 / 1) ^ 2) < 2) by (apply Rsqr_incrst_0; [rewrite Rsqr_sqrt by lra; unfold Rsqr; lra|apply sqrt_pos|lra]).
    assert (B : 1 < sqrt (1 + (1 / 2) ^ 2)) by (apply Rsqr_incrst_0; [rewrite Rsqr_sqrt by lra; unfold Rsqr; lra|lra|apply sqrt_pos]).
    pose proof (sqrt_pos (1 + (1 / 1) ^ 2)). set (a := sqrt (1 + (1 / 1) ^ 2)) in *. set (b := sqrt (1 + (1 / 2) ^ 2)) in *.
    replace (1 / 1 / (1 + a) - 1 / (2 * (1 + b))) with ((2 * (1 + b) - (1 + a)) / ((1 + a) * (2 * (1 + b)))) by (field; lra).
    apply Rdiv_lt_0_compat; [lra|]. apply Rmult_lt_0_compat; lra. }
  set (w := (angular_diameter_distance (fun z => z) 2 * arcsec_to_rad) ^ 2).
  assert (W : 0 < w).
  { unfold w, angular_diameter_distance. apply pow_lt. apply Rmult_lt_0_compat; [lra|apply arcsec_to_rad_pos]. }
  pose proof PI_RGT_0 as P. cbn [fst].
  replace (1 - 2 * (1 / (2 * PI * sg * 1 * 2 * w)) * 1 * 2 / (2 - 1) * f * (1 - 0) / 1) with (1 + f / (PI * (- sg) * w)) by (field; lra).
  assert (0 < f / (PI * (- sg) * w)) by (apply Rdiv_lt_0_compat; [exact F|]; apply Rmult_lt_0_compat; [apply Rmult_lt_0_compat; lra|exact W]). lra.
Qed.
