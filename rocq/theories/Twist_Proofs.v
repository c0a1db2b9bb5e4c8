(** * The Jacobian of Multiplane *)
From Coq Require Import Reals Lra Lia Psatz List.
From Coquelicot Require Import Coquelicot.
From Verif Require Import Py RealFun Calc2 Geo_Model Const_Model Cosmo_Model LensBasic_Model Lens_Spec LensBase_Model Multiplane_Model LensBase_Proofs Multiplane_Proofs Multiplane2_Proofs Multiplane_Props Twist_Spec.
Import ListNotations.
Local Open Scope R_scope.

Lemma D2_Sum n (f : nat -> R -> R -> R) x y (fx fy : nat -> R) : (forall i, (i < n)%nat -> D2 (f i) x y (fx i) (fy i)) ->
  D2 (fun a b => Sum n (fun i => f i a b)) x y (Sum n fx) (Sum n fy).
Proof.
  induction n as [|n IH]; intros H; cbn [Sum]; [apply D2_const|]. apply D2_plus; [apply IH; intros; apply H; lia|apply H; lia].
Qed.
Lemma Sum_ext n f g : (forall i, (i < n)%nat -> f i = g i) -> Sum n f = Sum n g.
Proof. induction n as [|n IH]; intros H; cbn [Sum]; [reflexivity|]. rewrite IH, H by (intros; try apply H; lia). reflexivity. Qed.
Section Jac.
Variables (cd : R -> R) (z_s : R) (lenses : list thin_lens).
Hypothesis Hl : line_up cd z_s lenses.
Let z := redshift lenses z_s.
(** all rays at once *)
Variable th : R -> R -> nat -> R * R.
Hypothesis Hth : forall x y, lens_equation cd cd z_s lenses x y (th x y).
Lemma redshift_of i t : nth_error lenses i = Some t -> z i = z_l t.
Proof. intros H. unfold z, redshift. apply nth_error_nth. rewrite nth_error_map, H. reflexivity. Qed.
Lemma distance_nz j : (j <= length lenses)%nat -> cd (z j) <> 0.
Proof.
  intros J. destruct Hl as (_ & _ & D & Ds & _). destruct (nth_error lenses j) as [t|] eqn:E.
  - rewrite (redshift_of _ _ E). apply D. eapply nth_error_In, E.
  - apply nth_error_None in E. unfold z, redshift. rewrite nth_overflow; [exact Ds|]. rewrite map_length; exact E.
Qed.
Lemma hat_ratio i t p : nth_error lenses i = Some t ->
  hat_alpha cd z_s lenses i p = (cd z_s / (cd z_s - cd (z i)) * fst (reduced_deflection_angle t (fst p) (snd p)), cd z_s / (cd z_s - cd (z i)) * snd (reduced_deflection_angle t (fst p) (snd p))).
Proof.
  intros E. destruct Hl as (_ & _ & D & Ds & Z1). destruct (D t (nth_error_In _ _ E)) as [_ N]. unfold hat_alpha. rewrite E, (redshift_of _ _ E).
  rewrite (surjective_pairing (physical_deflection_angle cd t z_s (fst p) (snd p))). 
  unfold physical_deflection_angle, physical_from_reduced_deflection_angle, angular_diameter_distance, angular_diameter_distance_z1z2, comoving_distance_z1z2.
  destruct (reduced_deflection_angle t (fst p) (snd p)) as [a b]. cbn [fst snd]. f_equal; field; repeat split; lra.
Qed.
Lemma share_split i j : (i < length lenses)%nat -> (j <= length lenses)%nat -> (cd (z j) - cd (z i)) / cd (z j) * (cd z_s / (cd z_s - cd (z i))) = share cd z_s (z i) (z j).
Proof.
  intros Hi Hj. assert (N := distance_nz j Hj). destruct (nth_error lenses i) as [t|] eqn:E; [|apply nth_error_None in E; lia].
  destruct Hl as (_ & _ & D & Ds & Z1). destruct (D t (nth_error_In _ _ E)) as [_ M]. rewrite <- (redshift_of _ _ E) in M. unfold share. field. repeat split; lra.
Qed.
Section Ray.
Variables (x y : R) (u : nat -> tide) (A : nat -> mat2).
Hypothesis Hu : tides lenses (th x y) u.
Hypothesis HA : matrices cd z_s lenses u A.
Lemma rows j : (j <= length lenses)%nat ->
  D2 (fun a b => fst (th a b j)) x y (m00 (A j)) (m01 (A j)) /\ D2 (fun a b => snd (th a b j)) x y (m10 (A j)) (m11 (A j)).
Proof.
  induction j as [j IH] using (well_founded_induction lt_wf). intros Hj.
  assert (S : forall i, (i < j)%nat -> let w := share cd z_s (z i) (z j) in
    D2 (fun a b => (cd (z j) - cd (z i)) / cd (z j) * fst (hat_alpha cd z_s lenses i (th a b i))) x y (w * ((conv (u i) + gam1 (u i)) * m00 (A i) + gam2 (u i) * m10 (A i))) (w * ((conv (u i) + gam1 (u i)) * m01 (A i) + gam2 (u i) * m11 (A i))) /\
    D2 (fun a b => (cd (z j) - cd (z i)) / cd (z j) * snd (hat_alpha cd z_s lenses i (th a b i))) x y (w * (gam2 (u i) * m00 (A i) + (conv (u i) - gam1 (u i)) * m10 (A i))) (w * (gam2 (u i) * m01 (A i) + (conv (u i) - gam1 (u i)) * m11 (A i)))).
  { intros i Hi. cbv zeta. destruct (IH i Hi ltac:(lia)) as [I1 I2]. destruct (nth_error lenses i) as [t|] eqn:E; [|apply nth_error_None in E; lia].
    destruct (Hu i t E) as [U1 U2]. rewrite <- (share_split i j) by lia. split.
    - apply (D2_ext (fun a b => ((cd (z j) - cd (z i)) / cd (z j) * (cd z_s / (cd z_s - cd (z i)))) * fst (reduced_deflection_angle t (fst (th a b i)) (snd (th a b i))))).
      + intros a b. rewrite (hat_ratio i t _ E). cbn [fst]. ring.
      + apply D2_scal. exact (D2_comp (fun a b => fst (reduced_deflection_angle t a b)) (fun a b => fst (th a b i)) (fun a b => snd (th a b i)) x y _ _ _ _ _ _ U1 I1 I2).
    - apply (D2_ext (fun a b => ((cd (z j) - cd (z i)) / cd (z j) * (cd z_s / (cd z_s - cd (z i)))) * snd (reduced_deflection_angle t (fst (th a b i)) (snd (th a b i))))).
      + intros a b. rewrite (hat_ratio i t _ E). cbn [snd]. ring.
      + apply D2_scal. exact (D2_comp (fun a b => snd (reduced_deflection_angle t a b)) (fun a b => fst (th a b i)) (fun a b => snd (th a b i)) x y _ _ _ _ _ _ U2 I1 I2). }
  destruct (HA j Hj) as (E0 & E1 & E2 & E3). fold z in E0, E1, E2, E3. rewrite E0, E1, E2, E3. split.
  - apply (D2_ext (fun a b => a - Sum j (fun i => (cd (z j) - cd (z i)) / cd (z j) * fst (hat_alpha cd z_s lenses i (th a b i))))); [intros a b; symmetry; apply (Hth a b j Hj)|].
    apply D2_minus; [apply D2_fst|]. apply D2_Sum. intros i Hi. apply (S i Hi).
  - apply (D2_ext (fun a b => b - Sum j (fun i => (cd (z j) - cd (z i)) / cd (z j) * snd (hat_alpha cd z_s lenses i (th a b i))))); [intros a b; symmetry; apply (Hth a b j Hj)|].
    apply D2_minus; [apply D2_snd|]. apply D2_Sum. intros i Hi. apply (S i Hi).
Qed.
End Ray.
End Jac.
Lemma th_unique cd z_s lenses x y th th' : lens_equation cd cd z_s lenses x y th -> lens_equation cd cd z_s lenses x y th' -> forall j, (j <= length lenses)%nat -> th j = th' j.
Proof.
  intros H H' j. induction j as [j IH] using (well_founded_induction lt_wf). intros Hj. destruct (H j Hj) as [A B]. destruct (H' j Hj) as [A' B'].
  rewrite (surjective_pairing (th j)), (surjective_pairing (th' j)), A, B, A', B'. f_equal; f_equal; apply Sum_ext; intros i Hi; rewrite (IH i Hi) by lia; reflexivity.
Qed.
Lemma all_rays cd z_s lenses : line_up cd z_s lenses -> exists TH : R -> R -> nat -> R * R, forall x y, lens_equation cd cd z_s lenses x y (TH x y).
Proof.
  intros _. exists (fun x y => positions cd cd z_s lenses x y (length lenses)). intros x y j Hj. exact (positions_equation cd cd z_s lenses x y (length lenses) j Hj).
Qed.
Section Whole.
Variables (cd : R -> R) (z_s : R) (lenses : list thin_lens).
Hypothesis Hl : line_up cd z_s lenses.
Variable rt : R -> R -> R * R.
Hypothesis Hrt : forall x y, multiplane_raytrace cd cd lenses z_s x y = Ok (rt x y).
Variables (x y : R) (th : nat -> R * R) (u : nat -> tide).
Hypothesis Hth : lens_equation cd cd z_s lenses x y th.
Hypothesis Hu : tides lenses th u.
Lemma rt_D2 A : matrices cd z_s lenses u A -> let n := length lenses in
  D2 (fun a b => fst (rt a b)) x y (m00 (A n)) (m01 (A n)) /\ D2 (fun a b => snd (rt a b)) x y (m10 (A n)) (m11 (A n)).
Proof.
  intros HA n. destruct (all_rays cd z_s lenses Hl) as [TH HT].
  assert (HU : tides lenses (TH x y) u).
  { intros i t E. rewrite (th_unique cd z_s lenses x y (TH x y) th (HT x y) Hth i); [apply (Hu i t E)|]. apply Nat.lt_le_incl, nth_error_Some. congruence. }
  destruct (rows cd z_s lenses Hl TH HT x y u A HU HA n (le_n _)) as [R1 R2].
  assert (E : forall a b, rt a b = TH a b n).
  { intros a b. destruct Hl as (Ne & So & D & Ds & _). destruct (raytrace_equation cd cd z_s lenses a b Ne So (fun t I => proj1 (D t I)) Ds) as [_ H].
    specialize (H (TH a b) (HT a b)). rewrite Hrt in H. injection H as H. exact H. }
  split; [revert R1|revert R2]; apply D2_ext; intros a b; rewrite E; reflexivity.
Qed.
Lemma jacobian_matrix A : matrices cd z_s lenses u A -> jacfwd rt x y = A (length lenses).
Proof. intros HA. destruct (rt_D2 A HA) as [R1 R2]. rewrite (jacfwd_D2 _ _ _ _ _ _ _ R1 R2). destruct (A (length lenses)); reflexivity. Qed.
Lemma effective_jacobian A : matrices cd z_s lenses u A -> jacfwd (effective_reduced_deflection_angle rt) x y = mat2_sub eye2 (A (length lenses)).
Proof.
  intros HA. destruct (rt_D2 A HA) as [R1 R2].
  assert (Q1 : D2 (fun a b => fst (effective_reduced_deflection_angle rt a b)) x y (1 - m00 (A (length lenses))) (0 - m01 (A (length lenses)))).
  { apply (D2_ext (fun a b => a - fst (rt a b))); [intros a b; unfold effective_reduced_deflection_angle; destruct (rt a b); reflexivity|]. apply D2_minus; [apply D2_fst|exact R1]. }
  assert (Q2 : D2 (fun a b => snd (effective_reduced_deflection_angle rt a b)) x y (0 - m10 (A (length lenses))) (1 - m11 (A (length lenses)))).
  { apply (D2_ext (fun a b => b - snd (rt a b))); [intros a b; unfold effective_reduced_deflection_angle; destruct (rt a b); reflexivity|]. apply D2_minus; [apply D2_snd|exact R2]. }
  rewrite (jacfwd_D2 _ _ _ _ _ _ _ Q1 Q2). reflexivity.
Qed.
End Whole.
(** ** the matrices exist *)
Lemma matrices_exist cd z_s lenses u : exists A, matrices cd z_s lenses u A.
Proof.
  set (w i j := share cd z_s (redshift lenses z_s i) (redshift lenses z_s j)).
  set (next := fun (A : nat -> mat2) j => Mat2
    (1 - Sum j (fun i => w i j * ((conv (u i) + gam1 (u i)) * m00 (A i) + gam2 (u i) * m10 (A i))))
    (0 - Sum j (fun i => w i j * ((conv (u i) + gam1 (u i)) * m01 (A i) + gam2 (u i) * m11 (A i))))
    (0 - Sum j (fun i => w i j * (gam2 (u i) * m00 (A i) + (conv (u i) - gam1 (u i)) * m10 (A i))))
    (1 - Sum j (fun i => w i j * (gam2 (u i) * m01 (A i) + (conv (u i) - gam1 (u i)) * m11 (A i))))).
  assert (Ext : forall A B j, (forall i, (i < j)%nat -> A i = B i) -> next A j = next B j).
  { intros A B j H. unfold next. f_equal; f_equal; apply Sum_ext; intros i Hi; rewrite (H i Hi); reflexivity. }
  assert (E : forall n, exists A, forall j, (j <= n)%nat -> A j = next A j).
  { induction n as [|n [A IH]].
    - exists (fun _ => next (fun _ => eye2) 0%nat). intros j Hj. replace j with 0%nat by lia. apply Ext. intros; lia.
    - exists (fun j => if Nat.leb j n then A j else next A (S n)). intros j Hj. destruct (Nat.leb_spec j n) as [L|L].
      + rewrite (IH j L). apply Ext. intros i Hi. destruct (Nat.leb_spec i n); [reflexivity|lia].
      + replace j with (S n) by lia. apply Ext. intros i Hi. destruct (Nat.leb_spec i n); [reflexivity|lia]. }
  destruct (E (length lenses)) as [A HA]. exists A. intros j Hj.
  split; [|split; [|split]]; [transitivity (m00 (next A j))|transitivity (m01 (next A j))|transitivity (m10 (next A j))|transitivity (m11 (next A j))]; try (f_equal; exact (HA j Hj)); reflexivity.
Qed.
Lemma Sum_zero n f : (forall i, (i < n)%nat -> f i = 0) -> Sum n f = 0.
Proof. induction n as [|n IH]; intros H; cbn [Sum]; [reflexivity|]. rewrite IH, H by (intros; try apply H; lia). ring. Qed.
Lemma Sum_comb n a b c f g h : Sum n (fun i => a * f i + b * g i + c * h i) = a * Sum n f + b * Sum n g + c * Sum n h.
Proof. induction n as [|n IH]; cbn [Sum]; [ring|]. rewrite IH. ring. Qed.
Lemma zero_both c s t : c <> 0 \/ s <> 0 -> c * t = 0 -> s * t = 0 -> t = 0.
Proof. intros [N|N] H1 H2; [apply Rmult_integral in H1|apply Rmult_integral in H2]; tauto. Qed.
(** ** shears along one axis *)
Lemma aligned_symmetric cd z_s lenses u A c s : c <> 0 \/ s <> 0 -> (forall i, (i < length lenses)%nat -> gam1 (u i) * s = gam2 (u i) * c) -> matrices cd z_s lenses u A ->
  forall j, (j <= length lenses)%nat -> m10 (A j) = m01 (A j) /\ (m00 (A j) - m11 (A j)) * s = 2 * m01 (A j) * c.
Proof.
  intros N Al HA j. induction j as [j IH] using (well_founded_induction lt_wf). intros Hj. destruct (HA j Hj) as (E0 & E1 & E2 & E3). cbv zeta in *.
  set (w := fun i => share cd z_s (redshift lenses z_s i) (redshift lenses z_s j)).
  assert (Sy : forall i, (i < j)%nat -> gam2 (u i) * m00 (A i) + (conv (u i) - gam1 (u i)) * m10 (A i) = (conv (u i) + gam1 (u i)) * m01 (A i) + gam2 (u i) * m11 (A i)).
  { intros i Hi. destruct (IH i Hi ltac:(lia)) as [I1 I2]. assert (G := Al i ltac:(lia)). rewrite I1.
    assert (Z : gam2 (u i) * (m00 (A i) - m11 (A i)) - 2 * gam1 (u i) * m01 (A i) = 0).
    { apply (zero_both c s); [exact N| |].
      - replace (c * (gam2 (u i) * (m00 (A i) - m11 (A i)) - 2 * gam1 (u i) * m01 (A i))) with (gam2 (u i) * c * (m00 (A i) - m11 (A i)) - gam1 (u i) * (2 * m01 (A i) * c)) by ring. rewrite <- G, <- I2. ring.
      - replace (s * (gam2 (u i) * (m00 (A i) - m11 (A i)) - 2 * gam1 (u i) * m01 (A i))) with (gam2 (u i) * ((m00 (A i) - m11 (A i)) * s) - gam1 (u i) * s * (2 * m01 (A i))) by ring. rewrite G, I2. ring. }
    lra. }
  split.
  - rewrite E1, E2. f_equal. apply Sum_ext. intros i Hi. fold (w i). rewrite (Sy i Hi). reflexivity.
  - set (f0 := fun i => w i * ((conv (u i) + gam1 (u i)) * m00 (A i) + gam2 (u i) * m10 (A i))) .
    set (f1 := fun i => w i * ((conv (u i) + gam1 (u i)) * m01 (A i) + gam2 (u i) * m11 (A i))) .
    set (f3 := fun i => w i * (gam2 (u i) * m01 (A i) + (conv (u i) - gam1 (u i)) * m11 (A i))) .
    change (m00 (A j) = 1 - Sum j f0) in E0. change (m01 (A j) = 0 - Sum j f1) in E1. change (m11 (A j) = 1 - Sum j f3) in E3. rewrite E0, E1, E3.
    assert (C := Sum_comb j s (- (2 * c)) (- s) f0 f1 f3).
    rewrite Sum_zero in C; [lra|]. intros i Hi. destruct (IH i Hi ltac:(lia)) as [I1 I2]. assert (G := Al i ltac:(lia)). assert (Y := Sy i Hi). unfold f0, f1, f3.
    assert (Z : s * ((conv (u i) + gam1 (u i)) * m00 (A i) + gam2 (u i) * m10 (A i)) - 2 * c * ((conv (u i) + gam1 (u i)) * m01 (A i) + gam2 (u i) * m11 (A i)) - s * (gam2 (u i) * m01 (A i) + (conv (u i) - gam1 (u i)) * m11 (A i)) = 0).
    { rewrite I1 in *. assert (T : (conv (u i) + gam1 (u i)) * m01 (A i) + gam2 (u i) * m11 (A i) = conv (u i) * m01 (A i) + gam2 (u i) * (m00 (A i) + m11 (A i)) / 2) by lra. rewrite T.
      transitivity (conv (u i) * ((m00 (A i) - m11 (A i)) * s - 2 * m01 (A i) * c) + (gam1 (u i) * s - gam2 (u i) * c) * (m00 (A i) + m11 (A i))); [field|]. rewrite I2, G. ring. }
    transitivity (w i * (s * ((conv (u i) + gam1 (u i)) * m00 (A i) + gam2 (u i) * m10 (A i)) - 2 * c * ((conv (u i) + gam1 (u i)) * m01 (A i) + gam2 (u i) * m11 (A i)) - s * (gam2 (u i) * m01 (A i) + (conv (u i) - gam1 (u i)) * m11 (A i)))); [ring|]. rewrite Z. ring.
Qed.
Lemma aligned_no_twist cd z_s lenses rt x y th u c s : line_up cd z_s lenses -> (forall a b, multiplane_raytrace cd cd lenses z_s a b = Ok (rt a b)) ->
  lens_equation cd cd z_s lenses x y th -> tides lenses th u -> c <> 0 \/ s <> 0 -> (forall i, (i < length lenses)%nat -> gam1 (u i) * s = gam2 (u i) * c) ->
  effective_convergence_curl (jacfwd (effective_reduced_deflection_angle rt) x y) = 0.
Proof.
  intros Hl Hrt Hth Hu N Al. destruct (matrices_exist cd z_s lenses u) as [A HA]. rewrite (effective_jacobian cd z_s lenses Hl rt Hrt x y th u Hth Hu A HA).
  destruct (aligned_symmetric cd z_s lenses u A c s N Al HA (length lenses) (le_n _)) as [Sy _]. unfold effective_convergence_curl, mat2_sub, eye2. cbn [m00 m01 m10 m11]. rewrite Sy. ring.
Qed.
(** ** two planes *)
Lemma two_planes cd z_s a b rt x y ua ub : line_up cd z_s [a; b] -> (forall u v, multiplane_raytrace cd cd [a; b] z_s u v = Ok (rt u v)) ->
  let w := share cd z_s (z_l a) (z_l b) in
  has_tide a (x, y) ua -> has_tide b (x - w * fst (reduced_deflection_angle a x y), y - w * snd (reduced_deflection_angle a x y)) ub ->
  let J := jacfwd (effective_reduced_deflection_angle rt) x y in
  effective_convergence_div J = conv ua + conv ub - w * (conv ua * conv ub + gam1 ua * gam1 ub + gam2 ua * gam2 ub) /\
  effective_convergence_curl J = w * (gam2 ua * gam1 ub - gam1 ua * gam2 ub).
Proof.
  intros Hl Hrt w Ha Hb. destruct (all_rays cd z_s _ Hl) as [TH HT]. specialize (HT x y).
  assert (Sh : forall t, In t [a; b] -> share cd z_s (z_l t) z_s = 1).
  { intros t I. destruct Hl as (_ & _ & D & Ds & _). destruct (D t I) as [_ M]. unfold share. field. split; lra. }
  assert (T0 : TH x y 0%nat = (x, y)).
  { destruct (HT 0%nat ltac:(cbn; lia)) as [A B]. cbn [Sum] in A, B. rewrite (surjective_pairing (TH x y 0%nat)), A, B. f_equal; ring. }
  assert (T1 : TH x y 1%nat = (x - w * fst (reduced_deflection_angle a x y), y - w * snd (reduced_deflection_angle a x y))).
  { destruct (HT 1%nat ltac:(cbn; lia)) as [A B]. cbn [Sum] in A, B. rewrite T0 in A, B. rewrite !Rplus_0_l in A, B. rewrite (hat_ratio cd z_s [a; b] Hl 0 a (x, y) eq_refl) in A, B. cbn [fst snd] in A, B.
    rewrite <- Rmult_assoc, (share_split cd z_s [a; b] Hl 0 1 ltac:(cbn; lia) ltac:(cbn; lia)) in A, B. rewrite (surjective_pairing (TH x y 1%nat)), A, B. reflexivity. }
  set (u := fun i : nat => match i with O => ua | _ => ub end).
  assert (Hu : tides [a; b] (TH x y) u). { intros [|[|i]] t E; cbn in E; [injection E as <-; rewrite T0; exact Ha|injection E as <-; rewrite T1; exact Hb|destruct i; discriminate]. }
  destruct (matrices_exist cd z_s [a; b] u) as [A HA]. cbv zeta. rewrite (effective_jacobian cd z_s [a; b] Hl rt Hrt x y (TH x y) u HT Hu A HA). cbn [length].
  destruct (HA 0%nat ltac:(cbn; lia)) as (P0 & P1 & P2 & P3). destruct (HA 1%nat ltac:(cbn; lia)) as (Q0 & Q1 & Q2 & Q3). destruct (HA 2%nat ltac:(cbn; lia)) as (R0 & R1 & R2 & R3).
  cbn [Sum] in *. cbn [u] in *. unfold redshift in *. cbn [nth map] in *. rewrite (Sh a) in R0, R1, R2, R3 by (left; reflexivity). rewrite (Sh b) in R0, R1, R2, R3 by (right; left; reflexivity). fold w in Q0, Q1, Q2, Q3.
  unfold effective_convergence_div, effective_convergence_curl, mat2_sub, eye2. cbn [m00 m01 m10 m11]. rewrite R0, R1, R2, R3, Q0, Q1, Q2, Q3, P0, P1, P2, P3. split; field.
Qed.
(** ** lenses round about one line of sight *)
Lemma round_tide x0 y0 t p u : round_about x0 y0 t -> has_tide t p u ->
  let X := fst p - x0 in let Y := snd p - y0 in gam1 u * (2 * X * Y) = gam2 u * (X ^ 2 - Y ^ 2) /\ (X = 0 -> Y = 0 -> gam1 u = 0 /\ gam2 u = 0).
Proof.
  intros [g Hg] [U1 U2] X Y. destruct p as [px py]. cbn [fst snd] in *. split.
  - assert (C1 : is_derive (fun s => fst (reduced_deflection_angle t (x0 + (cos s * X - sin s * Y)) (y0 + (sin s * X + cos s * Y)))) 0 ((conv u + gam1 u) * (- Y) + gam2 u * X)).
    { apply (D2_curve (fun a b => fst (reduced_deflection_angle t a b)) (fun s => x0 + (cos s * X - sin s * Y)) (fun s => y0 + (sin s * X + cos s * Y))).
      - rewrite cos_0, sin_0. replace (x0 + (1 * X - 0 * Y)) with px by (unfold X; ring). replace (y0 + (0 * X + 1 * Y)) with py by (unfold Y; ring). exact U1.
      - auto_derive; [exact Logic.I|]. rewrite cos_0, sin_0. ring.
      - auto_derive; [exact Logic.I|]. rewrite cos_0, sin_0. ring. }
    assert (C2 : is_derive (fun s => snd (reduced_deflection_angle t (x0 + (cos s * X - sin s * Y)) (y0 + (sin s * X + cos s * Y)))) 0 (gam2 u * (- Y) + (conv u - gam1 u) * X)).
    { apply (D2_curve (fun a b => snd (reduced_deflection_angle t a b)) (fun s => x0 + (cos s * X - sin s * Y)) (fun s => y0 + (sin s * X + cos s * Y))).
      - rewrite cos_0, sin_0. replace (x0 + (1 * X - 0 * Y)) with px by (unfold X; ring). replace (y0 + (0 * X + 1 * Y)) with py by (unfold Y; ring). exact U2.
      - auto_derive; [exact Logic.I|]. rewrite cos_0, sin_0. ring.
      - auto_derive; [exact Logic.I|]. rewrite cos_0, sin_0. ring. }
    set (m := g (X ^ 2 + Y ^ 2)).
    assert (V : forall s, reduced_deflection_angle t (x0 + (cos s * X - sin s * Y)) (y0 + (sin s * X + cos s * Y)) = (m * (cos s * X - sin s * Y), m * (sin s * X + cos s * Y))).
    { intros s. rewrite Hg. cbv zeta. assert (S := sin2_cos2 s). unfold Rsqr in S.
      replace ((x0 + (cos s * X - sin s * Y) - x0) ^ 2 + (y0 + (sin s * X + cos s * Y) - y0) ^ 2) with (X ^ 2 + Y ^ 2) by (transitivity ((X ^ 2 + Y ^ 2) * (sin s * sin s + cos s * cos s)); [rewrite S; ring|ring]).
      fold m. f_equal; ring. }
    assert (E1 : (conv u + gam1 u) * (- Y) + gam2 u * X = m * (- Y)).
    { apply is_derive_unique in C1. rewrite <- C1. apply is_derive_unique. apply (is_derive_ext (fun s => m * (cos s * X - sin s * Y))); [intros s; rewrite V; reflexivity|].
      auto_derive; [exact Logic.I|]. rewrite cos_0, sin_0. ring. }
    assert (E2 : gam2 u * (- Y) + (conv u - gam1 u) * X = m * X).
    { apply is_derive_unique in C2. rewrite <- C2. apply is_derive_unique. apply (is_derive_ext (fun s => m * (sin s * X + cos s * Y))); [intros s; rewrite V; reflexivity|].
      auto_derive; [exact Logic.I|]. rewrite cos_0, sin_0. ring. }
    assert (F1 := f_equal (fun v => v * X) E1). assert (F2 := f_equal (fun v => v * Y) E2). cbv beta in F1, F2. lra.
  - intros X0 Y0. assert (Px : px = x0) by (unfold X in X0; lra). assert (Py : py = y0) by (unfold Y in Y0; lra). subst px py.
    assert (K : forall a b, ((conv u + gam1 u) * a + gam2 u * b) * b - (gam2 u * a + (conv u - gam1 u) * b) * a = 0).
    { intros a b.
      assert (C1 : is_derive (fun s => fst (reduced_deflection_angle t (x0 + s * a) (y0 + s * b))) 0 ((conv u + gam1 u) * a + gam2 u * b)).
      { apply (D2_curve (fun a b => fst (reduced_deflection_angle t a b)) (fun s => x0 + s * a) (fun s => y0 + s * b)); [replace (x0 + 0 * a) with x0 by ring; replace (y0 + 0 * b) with y0 by ring; exact U1| |]; auto_derive; auto; ring. }
      assert (C2 : is_derive (fun s => snd (reduced_deflection_angle t (x0 + s * a) (y0 + s * b))) 0 (gam2 u * a + (conv u - gam1 u) * b)).
      { apply (D2_curve (fun a b => snd (reduced_deflection_angle t a b)) (fun s => x0 + s * a) (fun s => y0 + s * b)); [replace (x0 + 0 * a) with x0 by ring; replace (y0 + 0 * b) with y0 by ring; exact U2| |]; auto_derive; auto; ring. }
      assert (C : is_derive (fun s => fst (reduced_deflection_angle t (x0 + s * a) (y0 + s * b)) * b - snd (reduced_deflection_angle t (x0 + s * a) (y0 + s * b)) * a) 0 (((conv u + gam1 u) * a + gam2 u * b) * b - (gam2 u * a + (conv u - gam1 u) * b) * a)).
      { apply (is_derive_minus (fun s => fst (reduced_deflection_angle t (x0 + s * a) (y0 + s * b)) * b) (fun s => snd (reduced_deflection_angle t (x0 + s * a) (y0 + s * b)) * a)).
        - apply (is_derive_scal_l (fun s => fst (reduced_deflection_angle t (x0 + s * a) (y0 + s * b))) 0 _ b C1).
        - apply (is_derive_scal_l (fun s => snd (reduced_deflection_angle t (x0 + s * a) (y0 + s * b))) 0 _ a C2). }
      apply is_derive_unique in C. rewrite <- C. apply is_derive_unique. apply (is_derive_ext (fun _ => 0)); [|apply (is_derive_const (K := R_AbsRing) (V := R_NormedModule))].
      intros s. rewrite Hg. cbn [fst snd]. match goal with |- @eq _ ?l ?r => change (@eq R l r) end. ring. }
    assert (K1 := K 1 0). assert (K2 := K 1 1). lra.
Qed.
Lemma Sum_line n f g X Y : (forall i, (i < n)%nat -> exists m, f i = m * X /\ g i = m * Y) -> exists m, Sum n f = m * X /\ Sum n g = m * Y.
Proof.
  induction n as [|n IH]; intros H; cbn [Sum]; [exists 0; split; ring|]. destruct IH as [m [A B]]; [intros; apply H; lia|]. destruct (H n ltac:(lia)) as [k [C D]].
  exists (m + k). rewrite A, B, C, D. split; ring.
Qed.
Lemma round_no_twist cd z_s lenses rt x0 y0 x y th u : line_up cd z_s lenses -> (forall a b, multiplane_raytrace cd cd lenses z_s a b = Ok (rt a b)) ->
  (forall t, In t lenses -> round_about x0 y0 t) -> lens_equation cd cd z_s lenses x y th -> tides lenses th u ->
  effective_convergence_curl (jacfwd (effective_reduced_deflection_angle rt) x y) = 0.
Proof.
  intros Hl Hrt Ro Hth Hu. set (X := x - x0). set (Y := y - y0).
  assert (Line : forall j, (j <= length lenses)%nat -> exists m, fst (th j) - x0 = m * X /\ snd (th j) - y0 = m * Y).
  { intros j. induction j as [j IH] using (well_founded_induction lt_wf). intros Hj. destruct (Hth j Hj) as [A B]. cbv zeta in A, B.
    match type of A with _ = x - Sum j ?f => match type of B with _ = y - Sum j ?g => destruct (Sum_line j f g X Y) as [m [M1 M2]] end end.
    - intros i Hi. destruct (IH i Hi ltac:(lia)) as [m [I1 I2]]. destruct (nth_error lenses i) as [t|] eqn:E; [|apply nth_error_None in E; lia].
      destruct (Ro t (nth_error_In _ _ E)) as [g Hg]. rewrite (hat_ratio cd z_s lenses Hl i t _ E), Hg. cbn [fst snd]. cbv zeta. rewrite I1, I2. eexists. split; [|]; rewrite <- !Rmult_assoc; reflexivity.
    - exists (1 - m). rewrite A, B, M1, M2. unfold X, Y. split; ring. }
  assert (Ti : forall i, (i < length lenses)%nat -> exists m, fst (th i) - x0 = m * X /\ snd (th i) - y0 = m * Y /\
     gam1 (u i) * (2 * (m * X) * (m * Y)) = gam2 (u i) * ((m * X) ^ 2 - (m * Y) ^ 2) /\ (m * X = 0 -> m * Y = 0 -> gam1 (u i) = 0 /\ gam2 (u i) = 0)).
  { intros i Hi. destruct (Line i ltac:(lia)) as [m [I1 I2]]. destruct (nth_error lenses i) as [t|] eqn:E; [|apply nth_error_None in E; lia].
    destruct (round_tide x0 y0 t (th i) (u i) (Ro t (nth_error_In _ _ E)) (Hu i t E)) as [P Q]. cbv zeta in P, Q. rewrite I1, I2 in P, Q. exists m. auto. }
  destruct (Req_dec (X ^ 2 + Y ^ 2) 0) as [Z|Z].
  - assert (X0 : X = 0) by (assert (A := pow2_ge_0 X); assert (B := pow2_ge_0 Y); apply Rsqr_0_uniq; rewrite Rsqr_pow2; lra).
    assert (Y0 : Y = 0) by (assert (A := pow2_ge_0 X); assert (B := pow2_ge_0 Y); apply Rsqr_0_uniq; rewrite Rsqr_pow2; lra).
    apply (aligned_no_twist cd z_s lenses rt x y th u 1 0 Hl Hrt Hth Hu); [left; lra|]. intros i Hi. destruct (Ti i Hi) as (m & _ & _ & _ & Q). destruct Q as [-> ->]; [rewrite X0|rewrite Y0|]; ring.
  - apply (aligned_no_twist cd z_s lenses rt x y th u (X ^ 2 - Y ^ 2) (2 * X * Y) Hl Hrt Hth Hu).
    + destruct (Req_dec (X ^ 2 - Y ^ 2) 0) as [A|A]; [right|left; exact A]. intros B. apply Z. apply Rsqr_0_uniq. unfold Rsqr.
      replace ((X ^ 2 + Y ^ 2) * (X ^ 2 + Y ^ 2)) with ((X ^ 2 - Y ^ 2) * (X ^ 2 - Y ^ 2) + (2 * X * Y) * (2 * X * Y)) by ring. rewrite A, B. ring.
    + intros i Hi. destruct (Ti i Hi) as (m & _ & _ & P & Q). destruct (Req_dec m 0) as [M|M].
      * destruct Q as [-> ->]; [rewrite M| rewrite M|]; ring.
      * apply (Rmult_eq_reg_l (m ^ 2)); [|apply pow_nonzero, M]. transitivity (gam1 (u i) * (2 * (m * X) * (m * Y))); [ring|]. rewrite P. ring.
Qed.
(** ** what the tide is for a lens of the library *)
Lemma tide_exists t p : convergence_is_half_divergence (reduced_deflection_angle t) (convergence t) (fst p) (snd p) -> exists u, has_tide t p u.
Proof.
  intros (a & b & c & d & H1 & H2 & Sy & _). exists (Tide ((a + d) / 2) ((a - d) / 2) b). unfold has_tide. cbn [conv gam1 gam2].
  replace ((a + d) / 2 + (a - d) / 2) with a by field. replace ((a + d) / 2 - (a - d) / 2) with d by field. rewrite Sy at 2. split; assumption.
Qed.
Lemma tide_is t p u : convergence_is_half_divergence (reduced_deflection_angle t) (convergence t) (fst p) (snd p) -> has_tide t p u ->
  conv u = convergence t (fst p) (snd p) /\ shear_of_jacobian (jacfwd (raytrace (reduced_deflection_angle t)) (fst p) (snd p)) = (gam1 u, gam2 u).
Proof.
  intros (a & b & c & d & H1 & H2 & Sy & K) [U1 U2]. destruct (D2_unique _ _ _ _ _ _ _ H1 U1) as [A B]. destruct (D2_unique _ _ _ _ _ _ _ H2 U2) as [C D]. split; [rewrite K, A, D; field|].
  destruct (D2_raytrace _ _ _ _ _ _ _ U1 U2) as [R1 R2]. rewrite (jacfwd_D2 _ _ _ _ _ _ _ R1 R2). unfold shear_of_jacobian. cbn [m00 m01 m10 m11]. cbv zeta. cbn [m00 m01 m10 m11]. f_equal; field.
Qed.
Lemma rt_exists cd z_s lenses : line_up cd z_s lenses -> exists rt, forall x y, multiplane_raytrace cd cd lenses z_s x y = Ok (rt x y).
Proof.
  intros Hl. destruct (all_rays cd z_s lenses Hl) as [TH HT]. exists (fun x y => TH x y (length lenses)). intros x y.
  destruct Hl as (Ne & So & D & Ds & _). destruct (raytrace_equation cd cd z_s lenses x y Ne So (fun t I => proj1 (D t I)) Ds) as [_ H]. apply H, HT.
Qed.
(** two shears at 45 degrees *)
Definition shear_lens (z a b : R) : thin_lens := ThinLens z (reduced_deflection_angle_external_shear 0 0 a b) (potential_external_shear 0 0 a b) convergence_external_shear.
Lemma shear_tide z a b p : has_tide (shear_lens z a b) p (Tide 0 a b).
Proof.
  unfold has_tide, shear_lens, reduced_deflection_angle_external_shear, translate_rotate. cbn [conv gam1 gam2 reduced_deflection_angle fst snd]. split.
  - apply (D2_ext (fun u v => a * u + b * v)); [intros; ring|]. eapply D2_eq; [apply D2_plus; apply D2_scal; [apply D2_fst|apply D2_snd]| |]; ring.
  - apply (D2_ext (fun u v => b * u + (- a) * v)); [intros; ring|]. eapply D2_eq; [apply D2_plus; apply D2_scal; [apply D2_fst|apply D2_snd]| |]; ring.
Qed.
Lemma shears_line_up : line_up (fun z => z) 3 [shear_lens 1 (1 / 10) 0; shear_lens 2 0 (1 / 10)].
Proof.
  split; [discriminate|]. split; [cbn; repeat constructor; lra|]. split; [|lra]. intros t [<-|[<-|[]]]; cbn; lra.
Qed.
Lemma shears_twist : exists rt, (forall u v, multiplane_raytrace (fun z => z) (fun z => z) [shear_lens 1 (1 / 10) 0; shear_lens 2 0 (1 / 10)] 3 u v = Ok (rt u v)) /\
  forall x y, effective_convergence_curl (jacfwd (effective_reduced_deflection_angle rt) x y) = - (3 / 400).
Proof.
  destruct (rt_exists _ _ _ shears_line_up) as [rt Hrt]. exists rt. split; [exact Hrt|]. intros x y.
  destruct (two_planes _ _ _ _ rt x y _ _ shears_line_up Hrt (shear_tide 1 (1 / 10) 0 _) (shear_tide 2 0 (1 / 10) _)) as [_ ->]. unfold share. cbn [z_l shear_lens gam1 gam2]. field.
Qed.
(** an isothermal sphere in front of a sheet with the same centre *)
Lemma round_lenses z x0 y0 Rein s k : round_about x0 y0 (ThinLens z (reduced_deflection_angle_sis x0 y0 Rein s) (potential_sis x0 y0 Rein s) (convergence_sis x0 y0 Rein s)) /\
  round_about x0 y0 (ThinLens z (reduced_deflection_angle_mass_sheet x0 y0 k) (potential_mass_sheet x0 y0 k) (fun x _ => convergence_mass_sheet k x)).
Proof.
  split; cbn; [|exists (fun _ => k)].
  - eexists (fun r2 => Rein / (sqrt r2 + s)). intros x y. cbn [reduced_deflection_angle]. unfold reduced_deflection_angle_sis, translate_rotate. cbv zeta. f_equal; unfold Rdiv; ring.
  - intros x y. cbn [reduced_deflection_angle]. unfold reduced_deflection_angle_mass_sheet, translate_rotate. cbv zeta. f_equal; ring.
Qed.
