From Coq Require Import Reals List Lra Lia Permutation Sorting Bool.
From Coquelicot Require Import Coquelicot.
From Verif Require Import Py Calc2 Const_Model Cosmo_Model Lens_Spec LensBase_Model Multiplane_Model LensBase_Proofs Multiplane_Proofs.
Import ListNotations.
Open Scope R_scope.

Lemma sum_below_list {A} (h : A -> R) (l : list A) :
  sum_below (length l) (fun i => match nth_error l i with Some e => h e | None => 0 end) = rsum (map h l).
Proof.
  induction l as [|a l IH] using rev_ind; [reflexivity|].
  rewrite app_length, map_app, rsum_app. simpl length. rewrite Nat.add_1_r. cbn [sum_below].
  rewrite (sum_below_ext _ _ (fun i => match nth_error l i with Some e => h e | None => 0 end)).
  2:{ intros i Hi. rewrite nth_error_app1 by exact Hi. reflexivity. }
  rewrite IH. rewrite nth_error_app2 by lia. rewrite Nat.sub_diag. simpl. ring.
Qed.
Lemma sum_below_more n m f : (m <= n)%nat -> (forall i, (m <= i < n)%nat -> f i = 0) -> sum_below n f = sum_below m f.
Proof.
  intros H Hz. induction n as [|n IH]; [assert (m = 0)%nat by lia; subst; reflexivity|].
  destruct (Nat.eq_dec m (S n)) as [->|Hne]; [reflexivity|].
  cbn [sum_below]. rewrite IH, (Hz n) by (try lia; intros; apply Hz; lia). ring.
Qed.
Lemma SS_nth (zs : list R) d : StronglySorted Rle zs -> forall i j, (i <= j < length zs)%nat -> nth i zs d <= nth j zs d.
Proof.
  induction 1 as [|z zs Hs IH Hf]; intros i j Hij; simpl in *; [lia|].
  destruct i, j; try lia; simpl.
  - lra.
  - rewrite Forall_forall in Hf. apply Hf, nth_In. lia.
  - apply IH; lia.
Qed.

Section MP.
Variables cd tcd : R -> R.
Variables (z_s : R).
Local Notation alphahat t := (physical_deflection_angle cd t z_s).

(** angular position of the ray at redshift z, by the planes in front of it only *)
Fixpoint ray (l : list thin_lens) (x y : R) (fuel : nat) (z : R) : R * R :=
  match fuel with
  | O => (x, y)
  | S f =>
    let w (t : thin_lens) := if Rlt_dec (z_l t) z then (tcd z - tcd (z_l t)) / tcd z else 0 in
    let a (t : thin_lens) := let p := ray l x y f (z_l t) in alphahat t (fst p) (snd p) in
    (x - rsum (map (fun t => w t * fst (a t)) l), y - rsum (map (fun t => w t * snd (a t)) l))
  end.

Lemma ray_perm l l' x y : Permutation l l' -> forall f z, ray l x y f z = ray l' x y f z.
Proof.
  intros Hp. induction f as [|f IH]; intros z; [reflexivity|]. cbn [ray].
  f_equal; f_equal.
  - rewrite (rsum_perm _ _ (Permutation_map _ Hp)). f_equal. apply map_ext. intros t. rewrite IH; reflexivity.
  - rewrite (rsum_perm _ _ (Permutation_map _ Hp)). f_equal. apply map_ext. intros t. rewrite IH; reflexivity.
Qed.

Lemma ray_massless l1 m l2 x y : (forall u v, reduced_deflection_angle m u v = (0, 0)) ->
  forall f z, ray (l1 ++ m :: l2) x y f z = ray (l1 ++ l2) x y f z.
Proof.
  intros Hm. induction f as [|f IH]; intros z; [reflexivity|]. cbn [ray].
  assert (H0 : forall u v, alphahat m u v = (0, 0)).
  { intros u v. unfold physical_deflection_angle. rewrite Hm.
    unfold physical_from_reduced_deflection_angle. f_equal; ring. }
  f_equal; f_equal; rewrite !map_app, !rsum_app; simpl; rewrite H0; simpl; rewrite Rmult_0_r, Rplus_0_l;
    f_equal; f_equal; apply map_ext; intros t; rewrite IH; reflexivity.
Qed.

Lemma plane_z_sorted l : StronglySorted Rle (map z_l l) -> (forall t, In t l -> z_l t <= z_s) ->
  forall i j, (i <= j <= length l)%nat -> plane_z z_s l i <= plane_z z_s l j.
Proof.
  intros Hs Hb i j Hij. unfold plane_z.
  destruct (Nat.eq_dec j (length l)) as [->|Hj].
  - rewrite (nth_overflow _ _ (n := length l)) by (rewrite map_length; lia).
    destruct (Nat.eq_dec i (length l)) as [->|Hi].
    + rewrite nth_overflow by (rewrite map_length; lia). lra.
    + assert (In (nth i (map z_l l) z_s) (map z_l l)) by (apply nth_In; rewrite map_length; lia).
      apply in_map_iff in H. destruct H as (t & <- & Ht). apply Hb, Ht.
  - apply SS_nth; [exact Hs|]. rewrite map_length; lia.
Qed.

Lemma equation_ray l x y th :
  StronglySorted Rle (map z_l l) -> (forall t, In t l -> z_l t <= z_s) ->
  multiplane_equation cd tcd z_s l x y th ->
  forall j, (j <= length l)%nat -> forall f, (j <= f)%nat -> th j = ray l x y f (plane_z z_s l j).
Proof.
  intros Hs Hb Heq. induction j as [j IH] using (well_founded_induction Wf_nat.lt_wf). intros Hj f Hf.
  destruct (Heq j Hj) as [E1 E2].
  assert (Mono := plane_z_sorted l Hs Hb).
  assert (Hz : forall i t, nth_error l i = Some t -> plane_z z_s l i = z_l t) by (intros i t; apply nth_map_z).
  destruct f as [|f].
  - assert (j = 0)%nat by lia; subst j. cbn in E1, E2. cbn [ray].
    rewrite (surjective_pairing (th 0%nat)), E1, E2. f_equal; ring.
  - cbn [ray]. rewrite (surjective_pairing (th j)), E1, E2. f_equal; f_equal.
    + rewrite <- (sum_below_list _ l). rewrite (sum_below_more (length l) j); [|exact Hj|].
      * apply sum_below_ext. intros i Hi. unfold phys.
        destruct (nth_error l i) as [t|] eqn:Et; [|apply nth_error_None in Et; lia].
        rewrite (Hz _ _ Et). rewrite (IH i ltac:(lia) ltac:(lia) f ltac:(lia)). rewrite (Hz _ _ Et).
        destruct (Rlt_dec (z_l t) (plane_z z_s l j)) as [Hlt|Hge]; [reflexivity|].
        assert (Hij := Mono i j ltac:(lia)). rewrite (Hz _ _ Et) in Hij.
        replace (plane_z z_s l j) with (z_l t) by lra. unfold Rdiv; ring.
      * intros i Hi. destruct (nth_error l i) as [t|] eqn:Et; [|reflexivity].
        assert (Hij := Mono j i ltac:(lia)). rewrite (Hz _ _ Et) in Hij.
        destruct (Rlt_dec (z_l t) (plane_z z_s l j)); [lra|ring].
    + rewrite <- (sum_below_list _ l). rewrite (sum_below_more (length l) j); [|exact Hj|].
      * apply sum_below_ext. intros i Hi. unfold phys.
        destruct (nth_error l i) as [t|] eqn:Et; [|apply nth_error_None in Et; lia].
        rewrite (Hz _ _ Et). rewrite (IH i ltac:(lia) ltac:(lia) f ltac:(lia)). rewrite (Hz _ _ Et).
        destruct (Rlt_dec (z_l t) (plane_z z_s l j)) as [Hlt|Hge]; [reflexivity|].
        assert (Hij := Mono i j ltac:(lia)). rewrite (Hz _ _ Et) in Hij.
        replace (plane_z z_s l j) with (z_l t) by lra. unfold Rdiv; ring.
      * intros i Hi. destruct (nth_error l i) as [t|] eqn:Et; [|reflexivity].
        assert (Hij := Mono j i ltac:(lia)). rewrite (Hz _ _ Et) in Hij.
        destruct (Rlt_dec (z_l t) (plane_z z_s l j)); [lra|ring].
Qed.

Lemma raytrace_ray l x y f :
  l <> [] -> StronglySorted Rle (map z_l l) -> (forall t, In t l -> z_l t <= z_s) ->
  (forall t, In t l -> tcd (z_l t) <> 0) -> tcd z_s <> 0 -> (length l <= f)%nat ->
  multiplane_raytrace cd tcd l z_s x y = Ok (ray l x y f z_s).
Proof.
  intros H1 H2 Hb H3 H4 Hf. destruct (raytrace_equation cd tcd z_s l x y H1 H2 H3 H4) as [[th Ht] H].
  rewrite (H th Ht). f_equal.
  rewrite (equation_ray l x y th H2 Hb Ht (length l) (Nat.le_refl _) f Hf). f_equal.
  unfold plane_z. apply nth_overflow. rewrite map_length; lia.
Qed.

Lemma raytrace_order l l' x y :
  Permutation l l' -> StronglySorted Rle (map z_l l) -> StronglySorted Rle (map z_l l') ->
  (forall t, In t l -> z_l t <= z_s /\ tcd (z_l t) <> 0) -> tcd z_s <> 0 ->
  multiplane_raytrace cd tcd l z_s x y = multiplane_raytrace cd tcd l' z_s x y.
Proof.
  intros Hp H1 H2 H3 H4. destruct l as [|a l0] eqn:El.
  - apply Permutation_nil in Hp. subst l'. reflexivity.
  - rewrite <- El in *. assert (Hl := Permutation_length Hp).
    rewrite (raytrace_ray l x y (length l)); try assumption; try (rewrite El; discriminate); try (intros; apply H3; assumption); [|lia].
    rewrite (raytrace_ray l' x y (length l)); try assumption; try lia.
    + f_equal. apply ray_perm, Hp.
    + intros ->. rewrite El in Hl. discriminate.
    + intros t Ht; apply H3. eapply Permutation_in; [apply Permutation_sym, Hp|exact Ht].
    + intros t Ht; apply H3. eapply Permutation_in; [apply Permutation_sym, Hp|exact Ht].
Qed.

Lemma sorted_remove (l1 : list R) m l2 : StronglySorted Rle (l1 ++ m :: l2) -> StronglySorted Rle (l1 ++ l2).
Proof.
  induction l1 as [|a l1 IH]; simpl; intros H; inversion H; subst; [assumption|].
  constructor; [apply IH; assumption|]. apply Forall_app in H3. destruct H3 as [Ha Hb].
  inversion Hb; subst. apply Forall_app; split; assumption.
Qed.

Lemma raytrace_massless l1 m l2 x y :
  (forall u v, reduced_deflection_angle m u v = (0, 0)) ->
  StronglySorted Rle (map z_l (l1 ++ m :: l2)) ->
  (forall t, In t (l1 ++ m :: l2) -> z_l t <= z_s /\ tcd (z_l t) <> 0) -> tcd z_s <> 0 ->
  multiplane_raytrace cd tcd (l1 ++ m :: l2) z_s x y =
  match l1 ++ l2 with [] => Ok (x, y) | _ => multiplane_raytrace cd tcd (l1 ++ l2) z_s x y end.
Proof.
  intros Hm Hs Hb Hd.
  assert (Hlen : length (l1 ++ m :: l2) = S (length (l1 ++ l2))) by (rewrite !app_length; simpl; lia).
  rewrite (raytrace_ray (l1 ++ m :: l2) x y (S (length (l1 ++ l2)))); try assumption; try lia;
    try (intros; apply Hb; assumption).
  2:{ destruct l1; discriminate. }
  rewrite ray_massless by exact Hm.
  destruct (l1 ++ l2) as [|a l0] eqn:El.
  - simpl. f_equal. f_equal; ring.
  - rewrite <- El in *. rewrite (raytrace_ray (l1 ++ l2) x y (S (length (l1 ++ l2)))); try assumption; try lia; try reflexivity.
    + rewrite El; discriminate.
    + rewrite map_app in *. simpl in Hs. eapply sorted_remove; eassumption.
    + intros t Ht. apply Hb. apply in_app_iff in Ht. apply in_app_iff. destruct Ht; [left|right; right]; assumption.
    + intros t Ht. apply Hb. apply in_app_iff in Ht. apply in_app_iff. destruct Ht; [left|right; right]; assumption.
Qed.

(** ** one plane *)
Lemma phys_ratio t u v : 1 + z_s <> 0 -> cd z_s <> 0 -> cd z_s <> cd (z_l t) ->
  alphahat t u v = (cd z_s / (cd z_s - cd (z_l t)) * fst (reduced_deflection_angle t u v),
                    cd z_s / (cd z_s - cd (z_l t)) * snd (reduced_deflection_angle t u v)).
Proof.
  intros H1 H2 H3. unfold physical_deflection_angle, physical_from_reduced_deflection_angle,
    angular_diameter_distance, angular_diameter_distance_z1z2, comoving_distance_z1z2.
  destruct (reduced_deflection_angle t u v) as [a b]; cbn [fst snd].
  f_equal; field; split; try assumption; lra.
Qed.
End MP.

Section One.
(** a flat universe: transverse and radial comoving distances coincide *)
Variables (cd : R -> R) (z_s : R) (t : thin_lens).
Hypothesis Hz : 1 + z_s <> 0.
Hypothesis Hs : cd z_s <> 0.
Hypothesis Hl : cd (z_l t) <> 0.
Hypothesis Hls : cd z_s <> cd (z_l t).

Lemma one_plane_core shapiro geometric x y :
  let '(ax, ay) := reduced_deflection_angle t x y in
  exists TD, raytrace_core cd cd [t] z_s shapiro geometric x y = Ok (x - ax, y - ay, TD) /\
  ((shapiro || geometric)%bool = true ->
   exists px py, physical_deflection_angle cd t z_s x y = (px, py) /\
   TD = match plane_delay shapiro geometric t (cd (z_l t)) (cd z_s - cd (z_l t)) (cd z_s - cd (z_l t))
          (cd z_s) (cd z_s) (x * arcsec_to_rad * cd (z_l t)) (y * arcsec_to_rad * cd (z_l t)) px py with
        | Some b => Some (0 + b) | None => None end).
Proof.
  assert (Ar := arcsec_rad_inv).
  assert (Ex : forall w, w * arcsec_to_rad * cd (z_l t) * rad_to_arcsec / cd (z_l t) = w).
  { intros w. transitivity (w * (arcsec_to_rad * rad_to_arcsec)); [field; exact Hl|rewrite Ar; ring]. }
  unfold raytrace_core, lens_planes, enumerate. cbn [map length seq combine py_sorted sort_insert fst].
  unfold py_get. cbn [nth_error Nat.sub bind map for_loop plane_step z_next_of Nat.eqb].
  unfold py_get; cbn [nth_error bind]. rewrite !Ex.
  assert (Hp := phys_ratio cd z_s t x y Hz Hs Hls).
  destruct (physical_deflection_angle cd t z_s x y) as [px py] eqn:Ep.
  destruct (reduced_deflection_angle t x y) as [ax ay]. cbn [fst snd] in Hp. injection Hp as Hpx Hpy.
  unfold transverse_comoving_distance_z1z2. cbn [bind].
  eexists. split.
  - apply (f_equal Ok). apply f_equal2; [|reflexivity]. apply f_equal2.
    + rewrite Hpx. transitivity ((x - ax) * (arcsec_to_rad * rad_to_arcsec)); [|rewrite Ar; ring].
      field. split; lra.
    + rewrite Hpy. transitivity ((y - ay) * (arcsec_to_rad * rad_to_arcsec)); [|rewrite Ar; ring].
      field. split; lra.
  - intros Hb. exists px, py. split; [reflexivity|]. rewrite Hb. reflexivity.
Qed.

Lemma one_plane_raytrace x y :
  multiplane_raytrace cd cd [t] z_s x y = Ok (raytrace (reduced_deflection_angle t) x y).
Proof.
  assert (H := one_plane_core false false x y). unfold multiplane_raytrace, raytrace.
  destruct (reduced_deflection_angle t x y) as [ax ay]. destruct H as (TD & -> & _). reflexivity.
Qed.

Lemma one_plane_effective x y :
  multiplane_effective_deflection cd cd [t] z_s x y = Ok (reduced_deflection_angle t x y).
Proof.
  unfold multiplane_effective_deflection. rewrite one_plane_raytrace. unfold raytrace.
  destruct (reduced_deflection_angle t x y) as [ax ay]. simpl. f_equal; f_equal; ring.
Qed.

Lemma one_plane_delay x y (Hzl : 1 + z_l t <> 0) :
  multiplane_time_delay cd cd [t] z_s x y true false =
    Ok (Some ((1 + z_l t) * time_delay cd t z_s x y true false)) /\
  multiplane_time_delay cd cd [t] z_s x y false true =
    Ok (Some ((1 + z_l t) * (cd z_s / (cd z_s - cd (z_l t))) ^ 2 * time_delay cd t z_s x y false true)) /\
  multiplane_time_delay cd cd [t] z_s x y false false = Raise ValueError.
Proof.
  assert (Ar := arcsec_rad_inv). assert (Cp := c_Mpc_s_pos). assert (Dp := days_pos).
  assert (Ex : forall w, w * arcsec_to_rad * cd (z_l t) * rad_to_arcsec / cd (z_l t) = w).
  { intros w. transitivity (w * (arcsec_to_rad * rad_to_arcsec)); [field; exact Hl|rewrite Ar; ring]. }
  assert (N1 : (cd z_s - cd (z_l t)) * c_Mpc_s <> 0) by (apply Rmult_integral_contrapositive; split; lra).
  assert (N2 : cd z_s * (cd z_s - cd (z_l t)) <> 0) by (apply Rmult_integral_contrapositive; split; lra).
  assert (HT := one_plane_core true false x y). assert (HF := one_plane_core false true x y).
  assert (H0 := one_plane_core false false x y).
  assert (Hp := phys_ratio cd z_s t x y Hz Hs Hls).
  unfold multiplane_time_delay, time_delay.
  destruct (reduced_deflection_angle t x y) as [ax ay]. cbn [fst snd] in Hp.
  split; [|split].
  - destruct HT as (TD & -> & HTD). destruct (HTD eq_refl) as (px & py & _ & ->).
    cbn [bind snd orb]. f_equal. unfold plane_delay, odiv.
    destruct (Req_EM_T ((cd z_s - cd (z_l t)) * c_Mpc_s) 0); [contradiction|].
    destruct (Req_EM_T (cd z_s * (cd z_s - cd (z_l t))) 0); [contradiction|].
    rewrite !Ex. f_equal. unfold arcsec2_to_days, time_delay_arcsec2_to_days, angular_diameter_distance,
      angular_diameter_distance_z1z2, comoving_distance_z1z2. field. repeat split; try assumption; lra.
  - destruct HF as (TD & -> & HTD). destruct (HTD eq_refl) as (px & py & Ep & ->). rewrite Ep in Hp. injection Hp as -> ->.
    cbn [bind snd orb]. f_equal. unfold plane_delay, odiv.
    destruct (Req_EM_T ((cd z_s - cd (z_l t)) * c_Mpc_s) 0); [contradiction|].
    f_equal. unfold arcsec2_to_days, time_delay_arcsec2_to_days, angular_diameter_distance,
      angular_diameter_distance_z1z2, comoving_distance_z1z2. field. repeat split; try assumption; lra.
  - destruct H0 as (TD & -> & _). reflexivity.
Qed.

(** effective convergence of the one-plane thick lens *)
Lemma one_plane_effective_convergence x y :
  convergence_is_half_divergence (reduced_deflection_angle t) (convergence t) x y ->
  forall rt, (forall u v, multiplane_raytrace cd cd [t] z_s u v = Ok (rt u v)) ->
  let J := jacfwd (effective_reduced_deflection_angle rt) x y in
  effective_convergence_div J = convergence t x y /\ effective_convergence_curl J = 0.
Proof.
  intros (a & b & c & d & H1 & H2 & Hc & Hk) rt Hrt.
  assert (E : forall u v, effective_reduced_deflection_angle rt u v = reduced_deflection_angle t u v).
  { intros u v. assert (Hu := Hrt u v). rewrite one_plane_raytrace in Hu. injection Hu as Hu.
    unfold effective_reduced_deflection_angle. rewrite <- Hu. unfold raytrace.
    destruct (reduced_deflection_angle t u v). f_equal; ring. }
  cbv zeta. rewrite (jacfwd_D2 _ x y a b c d).
  - unfold effective_convergence_div, effective_convergence_curl; cbn. rewrite Hk, Hc. split; field.
  - revert H1; apply D2_ext. intros; rewrite E; reflexivity.
  - revert H2; apply D2_ext. intros; rewrite E; reflexivity.
Qed.
End One.

(** ** the order of the lenses matters *)
Definition massless (z : R) : thin_lens := ThinLens z (fun _ _ => (0, 0)) (fun _ _ => 0) (fun _ _ => 0).

Ltac sort_planes := unfold lens_planes, enumerate; repeat (simpl; destruct (Rle_dec _ _); try lra); simpl.
Lemma planes_213 : lens_planes [2; 1; 3] = [1; 0; 2]%nat.
Proof. sort_planes; reflexivity. Qed.
Lemma planes_123 : lens_planes [1; 2; 3] = [0; 1; 2]%nat.
Proof. sort_planes; reflexivity. Qed.
Lemma planes_21 : lens_planes [2; 1] = [1; 0]%nat.
Proof. sort_planes; reflexivity. Qed.

Lemma order_crash :
  multiplane_raytrace (fun z => z) (fun z => z) [massless 1; massless 2] 3 1 0 = Ok (1, 0) /\
  multiplane_raytrace (fun z => z) (fun z => z) [massless 2; massless 1] 3 1 0 = Raise IndexError.
Proof.
  split.
  - assert (H := raytrace_massless (fun z => z) (fun z => z) 3 [] (massless 1) [massless 2] 1 0).
    cbn [app] in H. rewrite H.
    + rewrite (one_plane_raytrace (fun z => z) 3 (massless 2)) by (simpl; lra).
      unfold raytrace; simpl. f_equal; f_equal; ring.
    + reflexivity.
    + simpl. repeat constructor; lra.
    + simpl. intros t [<-|[<-|[]]]; simpl; lra.
    + lra.
  - unfold multiplane_raytrace, raytrace_core. cbn [map z_l massless]. rewrite planes_21. reflexivity.
Qed.

Lemma order_wrong x y :
  multiplane_raytrace (fun z => z) (fun z => z) [massless 2; massless 1; massless 3] 4 x y = Ok (3 / 4 * x, 3 / 4 * y).
Proof.
  assert (Ar := arcsec_rad_inv).
  unfold multiplane_raytrace, raytrace_core. cbn [map z_l massless]. rewrite planes_213. simpl. unfold transverse_comoving_distance_z1z2. rewrite !Rmult_0_r.
  apply (f_equal Ok), (f_equal2 pair).
  - transitivity ((3 / 4) * x * (arcsec_to_rad * rad_to_arcsec)); [field|rewrite Ar; ring].
  - transitivity ((3 / 4) * y * (arcsec_to_rad * rad_to_arcsec)); [field|rewrite Ar; ring].
Qed.

Lemma order_right x y :
  multiplane_raytrace (fun z => z) (fun z => z) [massless 1; massless 2; massless 3] 4 x y = Ok (x, y).
Proof.
  assert (Ar := arcsec_rad_inv).
  unfold multiplane_raytrace, raytrace_core. cbn [map z_l massless]. rewrite planes_123. simpl. unfold transverse_comoving_distance_z1z2. rewrite !Rmult_0_r.
  apply (f_equal Ok), (f_equal2 pair).
  - transitivity (x * (arcsec_to_rad * rad_to_arcsec)); [field|rewrite Ar; ring].
  - transitivity (y * (arcsec_to_rad * rad_to_arcsec)); [field|rewrite Ar; ring].
Qed.
