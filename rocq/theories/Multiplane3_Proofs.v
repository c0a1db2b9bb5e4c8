(** * Planes at one redshift *)
From Coq Require Import Reals List Lra Lia Permutation Sorting Bool.
From Verif Require Import Py Const_Model Cosmo_Model LensBase_Model Multiplane_Model LensBase_Proofs Multiplane_Proofs Multiplane2_Proofs.
Import ListNotations.
Open Scope R_scope.

Lemma fold_pair (l : list thin_lens) x y : forall a, 
  fold_left (fun a lens => let '(ax_cur, ay_cur) := reduced_deflection_angle lens x y in (fst a + ax_cur, snd a + ay_cur)) l a =
  (fst a + rsum (map (fun t => fst (reduced_deflection_angle t x y)) l), snd a + rsum (map (fun t => snd (reduced_deflection_angle t x y)) l)).
Proof.
  induction l as [|t l IH]; intros [a b]; simpl; [f_equal; ring|]. destruct (reduced_deflection_angle t x y) as [u v]. rewrite IH. simpl. f_equal; ring.
Qed.
Lemma rsum_scal c (l : list R) : rsum (map (fun r => c * r) l) = c * rsum l.
Proof. induction l as [|a l IH]; simpl; [ring|]. rewrite IH; ring. Qed.

Lemma rsum_cons a l : rsum (a :: l) = a + rsum l.
Proof. reflexivity. Qed.
Section MP.
Variables cd tcd : R -> R.
Variables (z_s : R).
Local Notation alphahat t := (physical_deflection_angle cd t z_s).

Lemma group_alpha zg g u v : (forall t, In t g -> z_l t = zg) ->
  alphahat (singleplane zg g) u v = (rsum (map (fun t => fst (alphahat t u v)) g), rsum (map (fun t => snd (alphahat t u v)) g)).
Proof.
  intros Hg. unfold physical_deflection_angle at 1. cbn [singleplane reduced_deflection_angle z_l]. unfold singleplane_deflection. rewrite fold_pair. cbn [fst snd].
  unfold physical_from_reduced_deflection_angle. f_equal; rewrite Rplus_0_l, <- rsum_scal, map_map; f_equal; apply map_ext_in; intros t Ht;
    unfold physical_deflection_angle, physical_from_reduced_deflection_angle; rewrite (Hg t Ht); destruct (reduced_deflection_angle t u v); reflexivity.
Qed.

Lemma ray_group l1 g l2 zg x y : (forall t, In t g -> z_l t = zg) ->
  forall f z, ray cd tcd z_s (l1 ++ g ++ l2) x y f z = ray cd tcd z_s (l1 ++ singleplane zg g :: l2) x y f z.
Proof.
  intros Hg. induction f as [|f IH]; intros z; [reflexivity|]. cbn [ray].
  set (p := ray cd tcd z_s (l1 ++ singleplane zg g :: l2) x y f zg).
  assert (A := group_alpha zg g (fst p) (snd p) Hg).
  assert (E : forall h : R * R -> R, 
    rsum (map (fun t => (if Rlt_dec (z_l t) z then (tcd z - tcd (z_l t)) / tcd z else 0) * h (alphahat t (fst (ray cd tcd z_s (l1 ++ g ++ l2) x y f (z_l t))) (snd (ray cd tcd z_s (l1 ++ g ++ l2) x y f (z_l t))))) g) =
    (if Rlt_dec zg z then (tcd z - tcd zg) / tcd z else 0) * rsum (map (fun t => h (alphahat t (fst p) (snd p))) g)).
  { intros h. rewrite <- rsum_scal, map_map. f_equal. apply map_ext_in. intros t Ht. rewrite (Hg t Ht), IH. reflexivity. }
  assert (F : forall (h : R * R -> R) l,
    map (fun t => (if Rlt_dec (z_l t) z then (tcd z - tcd (z_l t)) / tcd z else 0) * h (alphahat t (fst (ray cd tcd z_s (l1 ++ g ++ l2) x y f (z_l t))) (snd (ray cd tcd z_s (l1 ++ g ++ l2) x y f (z_l t))))) l =
    map (fun t => (if Rlt_dec (z_l t) z then (tcd z - tcd (z_l t)) / tcd z else 0) * h (alphahat t (fst (ray cd tcd z_s (l1 ++ singleplane zg g :: l2) x y f (z_l t))) (snd (ray cd tcd z_s (l1 ++ singleplane zg g :: l2) x y f (z_l t))))) l).
  { intros h l. apply map_ext. intros t. rewrite IH. reflexivity. }
  f_equal; f_equal; rewrite !map_app, !rsum_app, E, !F; cbn [map]; rewrite rsum_cons; f_equal; f_equal; cbn [singleplane z_l];
    fold (singleplane zg g); fold p; rewrite A; reflexivity.
Qed.

Lemma sorted_group (l1 : list R) zg n l2 : (1 <= n)%nat -> StronglySorted Rle (l1 ++ repeat zg n ++ l2) -> StronglySorted Rle (l1 ++ zg :: l2).
Proof.
  intros Hn. induction n as [|[|n] IH]; [lia|intros H; exact H|]. intros H. apply IH; [lia|]. cbn [repeat app] in *.
  eapply sorted_remove. exact H.
Qed.
Lemma map_group zg g : (forall t, In t g -> z_l t = zg) -> map z_l g = repeat zg (length g).
Proof. induction g as [|t g IH]; intros H; [reflexivity|]. simpl. rewrite (H t (or_introl eq_refl)), IH; [reflexivity|]. intros u Hu; apply H; right; exact Hu. Qed.

Lemma raytrace_group l1 g l2 zg x y : g <> [] -> (forall t, In t g -> z_l t = zg) ->
  StronglySorted Rle (map z_l (l1 ++ g ++ l2)) -> (forall t, In t (l1 ++ g ++ l2) -> z_l t <= z_s /\ tcd (z_l t) <> 0) -> tcd z_s <> 0 ->
  multiplane_raytrace cd tcd (l1 ++ g ++ l2) z_s x y = multiplane_raytrace cd tcd (l1 ++ singleplane zg g :: l2) z_s x y.
Proof.
  intros Hne Hg Hs Hb Hd.
  assert (Hl : (1 <= length g)%nat) by (destruct g; [congruence|simpl; lia]).
  set (f := (length (l1 ++ g ++ l2) + length (l1 ++ singleplane zg g :: l2))%nat).
  assert (In0 : forall t, In t (l1 ++ singleplane zg g :: l2) -> z_l t <= z_s /\ tcd (z_l t) <> 0).
  { intros t Ht. apply in_app_iff in Ht. destruct Ht as [Ht|[<-|Ht]].
    - apply Hb, in_app_iff. left; exact Ht.
    - cbn [singleplane z_l]. destruct g as [|t g]; [congruence|]. rewrite <- (Hg t (or_introl eq_refl)). apply Hb, in_app_iff. right. left. reflexivity.
    - apply Hb, in_app_iff. right. apply in_app_iff. right; exact Ht. }
  rewrite (raytrace_ray cd tcd z_s (l1 ++ g ++ l2) x y f), (raytrace_ray cd tcd z_s (l1 ++ singleplane zg g :: l2) x y f); try assumption; try (unfold f; lia);
    try (intros t Ht; apply Hb, Ht); try (intros t Ht; apply In0, Ht).
  - f_equal. apply ray_group, Hg.
  - destruct l1; discriminate.
  - rewrite map_app. cbn [map singleplane z_l]. apply (sorted_group _ _ (length g)); [exact Hl|]. rewrite <- map_group by exact Hg. rewrite !map_app in Hs. exact Hs.
  - intros E. apply app_eq_nil in E. destruct E as [_ E]. apply app_eq_nil in E. destruct E as [E _]. congruence.
Qed.
End MP.

Lemma raytrace_all cd z_s g zg x y : g <> [] -> (forall t, In t g -> z_l t = zg) ->
  1 + z_s <> 0 -> zg <= z_s -> cd z_s <> 0 -> cd zg <> 0 -> cd z_s <> cd zg ->
  multiplane_raytrace cd cd g z_s x y = Ok (raytrace (singleplane_deflection g) x y).
Proof.
  intros Hne Hg H1 Hz H2 H3 H4.
  assert (H := raytrace_group cd cd z_s [] g [] zg x y Hne Hg). rewrite app_nil_r in H. cbn [app] in H. rewrite H.
  - rewrite (one_plane_raytrace cd z_s (singleplane zg g)); try assumption. reflexivity.
  - rewrite (map_group zg g Hg). generalize (length g). clear. induction n; simpl; constructor; [assumption|]. apply Forall_forall. intros r Hr. apply repeat_spec in Hr. subst; lra.
  - intros t Ht. rewrite (Hg t Ht). split; assumption.
  - exact H2.
Qed.

(** two planes at one redshift: the distance between them is 0 and the delay divides by it *)
Lemma delay_pair cd D z_s a b x y shapiro geometric : z_l a = z_l b -> (shapiro || geometric)%bool = true ->
  multiplane_time_delay cd D [a; b] z_s x y shapiro geometric = Ok None.
Proof.
  intros E F. unfold multiplane_time_delay, raytrace_core.
  replace (lens_planes (map z_l [a; b])) with [0; 1]%nat.
  2:{ unfold lens_planes, enumerate. simpl. rewrite E. destruct (Rle_dec (z_l b) (z_l b)); [reflexivity|lra]. }
  cbn [length Nat.sub]. unfold py_get at 1 2 3. cbn [nth_error bind map for_loop plane_step z_next_of Nat.eqb Nat.add].
  unfold py_get. cbn [nth_error bind map]. 
  destruct (physical_deflection_angle cd a z_s _ _) as [ax ay]. cbn [bind].
  assert (Z : forall X Y ax ay, plane_delay shapiro geometric a (D (z_l a)) (transverse_comoving_distance_z1z2 D (z_l a) (z_l b)) (transverse_comoving_distance_z1z2 D (z_l a) z_s) (D (z_l b)) (D z_s) X Y ax ay = None).
  { intros. unfold plane_delay, odiv, transverse_comoving_distance_z1z2 at 1. rewrite E.
    destruct (Req_EM_T ((D (z_l b) - D (z_l b)) * c_Mpc_s) 0) as [|N]; [reflexivity|]. exfalso; apply N; ring. }
  rewrite F, Z. unfold plane_step, z_next_of. cbn [Nat.eqb bind]. unfold py_get. cbn [nth_error bind].
  match goal with |- context [physical_deflection_angle cd b z_s ?u ?v] => destruct (physical_deflection_angle cd b z_s u v) as [bx by_] end.
  rewrite F. reflexivity.
Qed.
