From Coq Require Import Reals List Lra Lia Sorting.
From Coquelicot Require Import Rcomplements.
From Verif Require Import Py Const_Model Cosmo_Model LensBase_Model Multiplane_Model LensBase_Proofs Multiplane_Proofs Multiplane2_Proofs Tri_Model Tri_Spec Tri2_Proofs Root_Proofs.
Import ListNotations.
Local Open Scope R_scope.

Definition size (a b : R) : R := distance (a, b) (0, 0).
Lemma size_dist a b c d : distance (a, b) (c, d) = size (a - c) (b - d).
Proof. unfold size, distance. cbn [fst snd]. f_equal. ring. Qed.
Lemma size_add a b c d : size (a + c) (b + d) <= size a b + size c d.
Proof.
  assert (T := dist_triangle (a + c, b + d) (c, d) (0, 0)). rewrite (size_dist (a + c) (b + d) c d) in T. fold (size c d) in T. fold (size (a + c) (b + d)) in T.
  replace (a + c - c) with a in T by ring. replace (b + d - d) with b in T by ring. exact T.
Qed.
Lemma size_scal k a b : 0 <= k -> size (k * a) (k * b) = k * size a b.
Proof.
  intros K. unfold size, distance. cbn [fst snd]. replace ((k * a - 0) ^ 2 + (k * b - 0) ^ 2) with (k ^ 2 * ((a - 0) ^ 2 + (b - 0) ^ 2)) by ring.
  rewrite sqrt_mult_alt by apply pow2_ge_0. rewrite sqrt_pow2 by exact K. reflexivity.
Qed.
Lemma size_pos a b : 0 <= size a b.
Proof. apply sqrt_pos. Qed.
Lemma size_0 : size 0 0 = 0.
Proof. unfold size, distance. cbn [fst snd]. replace ((0 - 0) ^ 2 + (0 - 0) ^ 2) with 0 by ring. apply sqrt_0. Qed.
Lemma size_sum n f g b : (forall i, (i < n)%nat -> size (f i) (g i) <= b i) -> size (sum_below n f) (sum_below n g) <= sum_below n b.
Proof.
  induction n as [|n IH]; intros H; cbn [sum_below]; [rewrite size_0; lra|].
  assert (A := size_add (sum_below n f) (sum_below n g) (f n) (g n)). assert (B := IH (fun i Hi => H i (Nat.lt_lt_succ_r _ _ Hi))). assert (C := H n (Nat.lt_succ_diag_r n)). lra.
Qed.
Lemma sum_below_sub n f g : sum_below n f - sum_below n g = sum_below n (fun i => f i - g i).
Proof. induction n; cbn [sum_below]; [ring|]. rewrite <- IHn. ring. Qed.

Lemma fold_deflection x y lenses : forall a, fold_left (fun a lens => let '(ax_cur, ay_cur) := reduced_deflection_angle lens x y in (fst a + ax_cur, snd a + ay_cur)) lenses a =
  (fst a + sum_below (length lenses) (fun i => match nth_error lenses i with Some t => fst (reduced_deflection_angle t x y) | None => 0 end),
   snd a + sum_below (length lenses) (fun i => match nth_error lenses i with Some t => snd (reduced_deflection_angle t x y) | None => 0 end)).
Proof.
  assert (Sh : forall n f, sum_below (S n) f = f 0%nat + sum_below n (fun i => f (S i))).
  { induction n as [|n IH]; intros f; [cbn; ring|]. rewrite <- (IH (fun i => f (S i))) || idtac. change (sum_below (S (S n)) f) with (sum_below (S n) f + f (S n)). rewrite IH. cbn [sum_below]. ring. }
  induction lenses as [|t l IH]; intros [a b]; cbn [fold_left length].
  - cbn. f_equal; ring.
  - rewrite IH, !Sh. cbn [nth_error]. destruct (reduced_deflection_angle t x y) as [u v]. cbn [fst snd]. f_equal; ring.
Qed.

Section Born.
Variables (cd : R -> R) (z_s : R) (lenses : list thin_lens) (x y : R) (B L : nat -> R).
Hypothesis some : lenses <> [].
Hypothesis order : StronglySorted Rle (map z_l lenses).
Hypothesis ahead : forall t, In t lenses -> 0 <= z_l t < z_s.
Hypothesis cdpos : forall t, In t lenses -> 0 < cd (z_l t).
Hypothesis incr : forall a b, 0 <= a -> a < b -> b <= z_s -> cd a < cd b.
Hypothesis zs1 : 1 + z_s <> 0.
Hypothesis bounds : forall i t, nth_error lenses i = Some t -> 0 <= L i /\ forall u v, distance (u, v) (x, y) <= sum_below i B ->
  distance (reduced_deflection_angle t u v) (0, 0) <= B i /\ distance (reduced_deflection_angle t u v) (reduced_deflection_angle t x y) <= L i * distance (u, v) (x, y).
Let z j := plane_z z_s lenses j.
Lemma front t : In t lenses -> z_l t < z_s.
Proof. intros H. apply (ahead t H). Qed.
Lemma above t : In t lenses -> cd (z_l t) < cd z_s.
Proof. intros H. destruct (ahead t H). apply incr; lra. Qed.
Lemma z_at i t : nth_error lenses i = Some t -> z i = z_l t.
Proof. intros H. apply nth_map_z, H. Qed.
Lemma z_end : z (length lenses) = z_s.
Proof. unfold z, plane_z. apply nth_overflow. rewrite map_length. lia. Qed.
Lemma cd_zs : 0 < cd z_s.
Proof.
  assert (Ex : forall l : list thin_lens, l <> [] -> exists t, In t l) by (intros [|t l] H; [contradiction|exists t; left; reflexivity]).
  destruct (Ex lenses some) as [t H]. assert (A := cdpos t H). assert (C := above t H). lra.
Qed.
Lemma mono_le a b : 0 <= a -> a <= b -> b <= z_s -> cd a <= cd b.
Proof. intros A [H| ->] C; [left; apply incr; assumption|lra]. Qed.
Lemma z_nonneg i : (i < length lenses)%nat -> 0 <= z i.
Proof.
  intros H. destruct (nth_error lenses i) as [t|] eqn:E; [|apply nth_error_None in E; lia]. rewrite (z_at i t E). apply (ahead t), (nth_error_In _ _ E).
Qed.
Lemma z_le i j : (i < j)%nat -> (j <= length lenses)%nat -> z i <= z j.
Proof.
  intros H1 H2. unfold z, plane_z. assert (front' := front). revert i j H1 H2; generalize order; clear - front'; intros ord i j H1 H2. revert i j H1 H2.
  assert (F : forall w, In w (map z_l lenses) -> w <= z_s) by (intros w Hw; apply in_map_iff in Hw; destruct Hw as (t & <- & Ht); left; apply front', Ht).
  rewrite <- (map_length z_l). clear front'. revert ord F; generalize (map z_l lenses). intros zs Hz F. induction Hz as [|w l Hs IH Hf]; intros i j H1 H2; [cbn in H2; lia|].
  destruct j as [|j]; [lia|]. cbn [length] in H2. destruct i as [|i]; cbn [nth].
  - destruct (Nat.eq_dec j (length l)) as [->|N].
    + rewrite (nth_overflow l) by lia. apply F. left; reflexivity.
    + rewrite Forall_forall in Hf. apply Hf, nth_In. lia.
  - apply IH; [intros u Hu; apply F; right; exact Hu|lia|lia].
Qed.
Lemma z_zs j : (j <= length lenses)%nat -> z j <= z_s.
Proof. intros H. destruct (Nat.eq_dec j (length lenses)) as [->|N]; [rewrite z_end; lra|]. rewrite <- z_end. apply z_le; lia. Qed.
(** the share of the deflection of plane i seen on plane j *)
Let share i j := (cd (z j) - cd (z i)) / cd (z j) * (cd z_s / (cd z_s - cd (z i))).
Lemma share_bounds i j t : nth_error lenses i = Some t -> (i < j)%nat -> (j <= length lenses)%nat -> 0 <= share i j <= 1.
Proof.
  intros Ht H1 H2. assert (Hin := nth_error_In _ _ Ht). assert (P := cdpos t Hin). assert (Q := above t Hin). 
  assert (Zs : cd (z j) <= cd z_s). { destruct (Nat.eq_dec j (length lenses)) as [->|N]; [rewrite z_end; lra|]. rewrite <- z_end. apply mono_le; [apply z_nonneg; lia|apply z_le; lia|rewrite z_end; lra]. }
  assert (Z := mono_le _ _ (z_nonneg i ltac:(lia)) (z_le i j H1 H2) (z_zs j H2)).
  rewrite <- (z_at i t Ht) in P, Q. unfold share. set (a := cd (z i)) in *. set (b := cd (z j)) in *. set (c := cd z_s) in *.
  assert (b1 : 0 < b) by lra. assert (E : (b - a) / b * (c / (c - a)) = ((b - a) * c) / (b * (c - a))) by (field; lra). rewrite E.
  assert (D : 0 < b * (c - a)) by (apply Rmult_lt_0_compat; lra). split.
  - apply (proj1 (Rle_div_r 0 _ _ D)). rewrite Rmult_0_l. apply Rmult_le_pos; lra.
  - apply (proj2 (Rle_div_l _ 1 _ D)). nra.
Qed.
Lemma share_end i t : nth_error lenses i = Some t -> share i (length lenses) = 1.
Proof.
  intros Ht. assert (Hin := nth_error_In _ _ Ht). assert (P := cdpos t Hin). assert (Q := above t Hin). unfold share. rewrite z_end, (z_at i t Ht). field. split; lra.
Qed.
Lemma share_phys i j t p : nth_error lenses i = Some t ->
  (cd (z j) - cd (z i)) / cd (z j) * fst (phys cd z_s lenses i p) = share i j * fst (reduced_deflection_angle t (fst p) (snd p)) /\
  (cd (z j) - cd (z i)) / cd (z j) * snd (phys cd z_s lenses i p) = share i j * snd (reduced_deflection_angle t (fst p) (snd p)).
Proof.
  intros Ht. assert (Hin := nth_error_In _ _ Ht). assert (Q := above t Hin). rewrite <- (z_at i t Ht) in Q. assert (S := cd_zs).
  unfold phys. rewrite Ht. unfold physical_deflection_angle, physical_from_reduced_deflection_angle. destruct (reduced_deflection_angle t (fst p) (snd p)) as [u v]. cbn [fst snd].
  replace (angular_diameter_distance cd z_s / angular_diameter_distance_z1z2 cd (z_l t) z_s) with (cd z_s / (cd z_s - cd (z i))).
  2:{ rewrite (z_at i t Ht). unfold angular_diameter_distance, angular_diameter_distance_z1z2, comoving_distance_z1z2. rewrite (z_at i t Ht) in Q. field; repeat split; first [exact zs1|lra]. }
  unfold share. split; ring.
Qed.
Let al i p := match nth_error lenses i with Some t => reduced_deflection_angle t (fst p) (snd p) | None => (0, 0) end.
Lemma near th : multiplane_equation cd cd z_s lenses x y th -> forall j, (j <= length lenses)%nat -> distance (th j) (x, y) <= sum_below j B.
Proof.
  intros E j. induction j as [j IH] using (well_founded_induction Wf_nat.lt_wf). intros Hj.
  destruct (E j Hj) as [E1 E2]. rewrite (surjective_pairing (th j)), E1, E2, size_dist.
  rewrite (sum_below_ext j _ (fun i => share i j * fst (al i (th i)))).
  2:{ intros i Hi. unfold al. destruct (nth_error lenses i) as [t|] eqn:Et; [|apply nth_error_None in Et; lia]. apply (share_phys i j t (th i) Et). }
  rewrite (sum_below_ext j (fun i => _ * snd (phys _ _ _ _ _)) (fun i => share i j * snd (al i (th i)))).
  2:{ intros i Hi. unfold al. destruct (nth_error lenses i) as [t|] eqn:Et; [|apply nth_error_None in Et; lia]. apply (share_phys i j t (th i) Et). }
  set (f := fun i => share i j * fst (al i (th i))). set (g := fun i => share i j * snd (al i (th i))).
  replace (size (x - sum_below j f - x) (y - sum_below j g - y)) with (size (sum_below j f) (sum_below j g)).
  2:{ unfold size, distance. cbn [fst snd]. f_equal. ring. }
  apply size_sum. intros i Hi. unfold f, g. destruct (nth_error lenses i) as [t|] eqn:Et; [|apply nth_error_None in Et; lia].
  assert (Sb := share_bounds i j t Et Hi Hj). rewrite size_scal by lra. unfold al. rewrite Et.
  destruct (bounds i t Et) as [_ Hb]. destruct (Hb (fst (th i)) (snd (th i))) as [H1 _]; [rewrite <- surjective_pairing; apply IH; lia|].
  rewrite (surjective_pairing (reduced_deflection_angle t (fst (th i)) (snd (th i)))) in H1. fold (size (fst (reduced_deflection_angle t (fst (th i)) (snd (th i)))) (snd (reduced_deflection_angle t (fst (th i)) (snd (th i))))) in H1.
  assert (P := size_pos (fst (reduced_deflection_angle t (fst (th i)) (snd (th i)))) (snd (reduced_deflection_angle t (fst (th i)) (snd (th i))))). nra.
Qed.
Theorem born : exists p, multiplane_raytrace cd cd lenses z_s x y = Ok p /\
  distance p (raytrace (singleplane_deflection lenses) x y) <= sum_below (length lenses) (fun i => L i * sum_below i B).
Proof.
  destruct (raytrace_equation cd cd z_s lenses x y some order) as [[th E] H]; [intros t Ht; assert (A := cdpos t Ht); lra|assert (A := cd_zs); lra|].
  exists (th (length lenses)). split; [apply H, E|]. assert (N := near th E).
  destruct (E (length lenses) (le_n _)) as [E1 E2]. rewrite (surjective_pairing (th (length lenses))).
  unfold raytrace, singleplane_deflection. rewrite fold_deflection. cbn [fst snd].
  set (n := length lenses) in *. fold (plane_z z_s lenses n) in E1, E2.
  assert (E1' : fst (th n) = x - sum_below n (fun i => fst (al i (th i)))).
  { rewrite E1. f_equal. apply sum_below_ext. intros i Hi. unfold al. destruct (nth_error lenses i) as [t|] eqn:Et; [|apply nth_error_None in Et; unfold n in Hi; lia].
    transitivity (share i n * fst (reduced_deflection_angle t (fst (th i)) (snd (th i)))); [apply (share_phys i n t (th i) Et)|]. unfold n. rewrite (share_end i t Et). ring. }
  assert (E2' : snd (th n) = y - sum_below n (fun i => snd (al i (th i)))).
  { rewrite E2. f_equal. apply sum_below_ext. intros i Hi. unfold al. destruct (nth_error lenses i) as [t|] eqn:Et; [|apply nth_error_None in Et; unfold n in Hi; lia].
    transitivity (share i n * snd (reduced_deflection_angle t (fst (th i)) (snd (th i)))); [apply (share_phys i n t (th i) Et)|]. unfold n. rewrite (share_end i t Et). ring. }
  rewrite E1', E2', size_dist.
  match goal with |- size ?u ?v <= _ => assert (S1 : size u v = size (sum_below n (fun i => fst (al i (th i)) - match nth_error lenses i with Some t => fst (reduced_deflection_angle t x y) | None => 0 end))
    (sum_below n (fun i => snd (al i (th i)) - match nth_error lenses i with Some t => snd (reduced_deflection_angle t x y) | None => 0 end))) end.
  { rewrite <- !sum_below_sub. unfold size, distance. cbn [fst snd]. f_equal. ring. }
  rewrite S1. apply size_sum. intros i Hi. unfold al. destruct (nth_error lenses i) as [t|] eqn:Et; [|apply nth_error_None in Et; unfold n in Hi; lia].
  destruct (bounds i t Et) as [Hl Hb]. assert (Ni := N i ltac:(lia)). destruct (Hb (fst (th i)) (snd (th i))) as [_ H2]; [rewrite <- surjective_pairing; exact Ni|].
  rewrite <- size_dist, <- !surjective_pairing. eapply Rle_trans; [exact H2|]. rewrite <- surjective_pairing. apply Rmult_le_compat_l; assumption.
Qed.
End Born.

(** weaker lenses *)
Definition scaled (eps : R) (t : thin_lens) : thin_lens :=
  ThinLens (z_l t) (fun u v => (eps * fst (reduced_deflection_angle t u v), eps * snd (reduced_deflection_angle t u v))) (fun u v => eps * potential t u v) (fun u v => eps * convergence t u v).
Lemma sum_below_le n f g : (forall i, (i < n)%nat -> f i <= g i) -> sum_below n f <= sum_below n g.
Proof. induction n as [|n IH]; intros H; cbn [sum_below]; [lra|]. assert (A := IH (fun i Hi => H i (Nat.lt_lt_succ_r _ _ Hi))). assert (C := H n (Nat.lt_succ_diag_r n)). lra. Qed.
Theorem born_scaled cd z_s lenses x y B L eps : 0 <= eps <= 1 -> lenses <> [] -> StronglySorted Rle (map z_l lenses) ->
  (forall t, In t lenses -> 0 <= z_l t < z_s) -> (forall t, In t lenses -> 0 < cd (z_l t)) -> (forall a b, 0 <= a -> a < b -> b <= z_s -> cd a < cd b) -> 1 + z_s <> 0 ->
  (forall i t, nth_error lenses i = Some t -> 0 <= L i /\ forall u v, distance (u, v) (x, y) <= sum_below i B ->
    distance (reduced_deflection_angle t u v) (0, 0) <= B i /\ distance (reduced_deflection_angle t u v) (reduced_deflection_angle t x y) <= L i * distance (u, v) (x, y)) ->
  exists p, multiplane_raytrace cd cd (map (scaled eps) lenses) z_s x y = Ok p /\
  distance p (raytrace (singleplane_deflection (map (scaled eps) lenses)) x y) <= eps ^ 2 * sum_below (length lenses) (fun i => L i * sum_below i B).
Proof.
  intros He Hne Hs Ha Hc Hi Hz Hb.
  assert (Zm : map z_l (map (scaled eps) lenses) = map z_l lenses) by (rewrite map_map; apply map_ext; reflexivity).
  assert (In' : forall t, In t (map (scaled eps) lenses) -> exists t', In t' lenses /\ z_l t = z_l t') by (intros t Ht; apply in_map_iff in Ht; destruct Ht as (t' & <- & Ht); exists t'; split; [exact Ht|reflexivity]).
  assert (Bp : forall i, (i <= length lenses)%nat -> 0 <= sum_below i B).
  { induction i as [|i IH]; intros Hl; cbn [sum_below]; [lra|]. assert (A := IH ltac:(lia)). destruct (nth_error lenses i) as [t|] eqn:Et; [|apply nth_error_None in Et; lia].
    destruct (Hb i t Et) as [_ H]. destruct (H x y) as [H1 _]; [unfold distance; cbn [fst snd]; replace ((x - x) ^ 2 + (y - y) ^ 2) with 0 by ring; rewrite sqrt_0; exact A|].
    assert (P := sqrt_pos ((fst (reduced_deflection_angle t x y) - fst (0, 0)) ^ 2 + (snd (reduced_deflection_angle t x y) - snd (0, 0)) ^ 2)). unfold distance in H1 at 1. lra. }
  destruct (born cd z_s (map (scaled eps) lenses) x y (fun i => eps * B i) (fun i => eps * L i)) as (p & E & D).
  - destruct lenses; [contradiction|discriminate].
  - rewrite Zm. exact Hs.
  - intros t Ht. destruct (In' t Ht) as (t' & H1 & ->). apply Ha, H1.
  - intros t Ht. destruct (In' t Ht) as (t' & H1 & ->). apply Hc, H1.
  - exact Hi.
  - exact Hz.
  - intros i t Et. rewrite nth_error_map in Et. destruct (nth_error lenses i) as [t'|] eqn:Et'; [|discriminate]. injection Et as <-.
    destruct (Hb i t' Et') as [Hl H]. split; [nra|]. intros u v Hu. rewrite sum_below_scal in Hu.
    assert (Li : (i < length lenses)%nat) by (apply nth_error_Some; rewrite Et'; discriminate). assert (P := Bp i ltac:(lia)).
    destruct (H u v) as [H1 H2]; [nra|]. unfold scaled. cbn [reduced_deflection_angle].
    rewrite (surjective_pairing (reduced_deflection_angle t' u v)) in H1, H2. rewrite (surjective_pairing (reduced_deflection_angle t' x y)) in H2. rewrite size_dist in H1, H2. rewrite !size_dist.
    split.
    + replace (eps * fst (reduced_deflection_angle t' u v) - 0) with (eps * (fst (reduced_deflection_angle t' u v) - 0)) by ring. replace (eps * snd (reduced_deflection_angle t' u v) - 0) with (eps * (snd (reduced_deflection_angle t' u v) - 0)) by ring.
      rewrite size_scal by lra. apply Rmult_le_compat_l; lra.
    + rewrite <- !Rmult_minus_distr_l, size_scal by lra. rewrite Rmult_assoc. rewrite size_dist in H2. apply Rmult_le_compat_l; lra.
  - exists p. split; [exact E|]. eapply Rle_trans; [exact D|]. rewrite map_length. right.
    rewrite <- sum_below_scal. apply sum_below_ext. intros i _. rewrite sum_below_scal. ring.
Qed.

From Verif Require Import CosmoTable_Model CosmoTable_Proofs.
Definition tame (lenses : list thin_lens) (x y : R) (B L : nat -> R) : Prop :=
  forall i t, nth_error lenses i = Some t -> 0 <= L i /\ forall u v, distance (u, v) (x, y) <= sum_below i B ->
    distance (reduced_deflection_angle t u v) (0, 0) <= B i /\
    distance (reduced_deflection_angle t u v) (reduced_deflection_angle t x y) <= L i * distance (u, v) (x, y).
Lemma born_flat h0 Om0 z_s lenses x y B L : 0 < h0 -> 0 < Om0 < 1 -> / 1000 <= Rpower (Om0 / (1 - Om0)) (1 / 3) ->
  (1 + z_s) * Rpower (Om0 / (1 - Om0)) (1 / 3) <= 10 -> lenses <> [] -> StronglySorted Rle (map z_l lenses) ->
  (forall t, In t lenses -> 0 < z_l t < z_s) -> tame lenses x y B L ->
  let cd := fun z => flat_comoving_distance z h0 Om0 in
  exists p, multiplane_raytrace cd cd lenses z_s x y = Ok p /\
  distance p (raytrace (singleplane_deflection lenses) x y) <= sum_below (length lenses) (fun i => L i * sum_below i B).
Proof.
  intros Hh HO Hl Hu Hne Hs Hz Ht cd. set (r := Rpower (Om0 / (1 - Om0)) (1 / 3)) in *.
  assert (Inc : forall a b, 0 <= a -> a < b -> b <= z_s -> cd a < cd b).
  { intros a b Ha Hab Hb. unfold cd. apply distance_increasing; try assumption. change (ratio Om0) with r. nra. }
  assert (C0 : cd 0 = 0) by (unfold cd, flat_comoving_distance; apply flat_zero).
  assert (Zs : 0 < z_s). { assert (Ex : exists t, In t lenses) by (destruct lenses as [|t l]; [contradiction|exists t; left; reflexivity]). destruct Ex as [t Hin]. destruct (Hz t Hin). lra. }
  apply born; try assumption.
  - intros t Hin. destruct (Hz t Hin). lra.
  - intros t Hin. destruct (Hz t Hin). rewrite <- C0. apply Inc; lra.
  - lra.
Qed.
Definition sheet (z k : R) : thin_lens := ThinLens z (fun u v => (k * u, k * v)) (fun u v => k / 2 * (u ^ 2 + v ^ 2)) (fun _ _ => k).
Lemma two_sheets cd z_s z1 z2 k1 k2 x y : z1 <= z2 -> 0 < cd z1 -> 0 < cd z2 -> cd z1 < cd z_s -> cd z2 < cd z_s -> 1 + z_s <> 0 ->
  multiplane_raytrace cd cd [sheet z1 k1; sheet z2 k2] z_s x y =
  Ok (let c := 1 - k1 - k2 + k1 * k2 * ((1 - cd z1 / cd z2) / (1 - cd z1 / cd z_s)) in (c * x, c * y)).
Proof.
  intros Hz H1 H2 H1s H2s Hn. set (l := [sheet z1 k1; sheet z2 k2]).
  assert (ne : l <> []) by discriminate. assert (so : StronglySorted Rle (map z_l l)) by (cbn; constructor; [constructor; [constructor|constructor]|constructor; [exact Hz|constructor]]).
  assert (nz : forall t, In t l -> cd (z_l t) <> 0) by (intros t [<-|[<-|[]]]; cbn; lra).
  destruct (raytrace_equation cd cd z_s l x y ne so nz ltac:(lra)) as [[th E] H]. rewrite (H th E).
  destruct (E 0%nat ltac:(cbn; lia)) as [A0 B0]. destruct (E 1%nat ltac:(cbn; lia)) as [A1 B1]. destruct (E 2%nat ltac:(cbn; lia)) as [A2 B2].
  clear E H. cbn in A0, A1, A2, B0, B1, B2. unfold angular_diameter_distance, angular_diameter_distance_z1z2, comoving_distance_z1z2 in *.
  cbn [l length]. cbv zeta. f_equal. rewrite (surjective_pairing (th 2%nat)). rewrite A2, B2, A1, B1, A0, B0. f_equal; field; repeat split; lra.
Qed.
Lemma two_sheets_hyps : let lenses := [sheet 1 (1 / 10); sheet 2 (1 / 10)] in
  StronglySorted Rle (map z_l lenses) /\ (forall t, In t lenses -> 0 < z_l t < 3) /\
  tame lenses 1 0 (fun i => match i with O => 1 / 10 | _ => 11 / 100 end) (fun _ => 1 / 10) /\
  sum_below (length lenses) (fun i => (fun _ => 1 / 10) i * sum_below i (fun i => match i with O => 1 / 10 | _ => 11 / 100 end)) = 1 / 100.
Proof.
  intros lenses. split; [cbn; repeat constructor; lra|]. split; [intros t [<-|[<-|[]]]; cbn; lra|]. split; [|cbn; lra].
  assert (G : forall z B u v, size u v <= 10 * B -> distance (reduced_deflection_angle (sheet z (1 / 10)) u v) (0, 0) <= B /\
    distance (reduced_deflection_angle (sheet z (1 / 10)) u v) (reduced_deflection_angle (sheet z (1 / 10)) 1 0) <= 1 / 10 * distance (u, v) (1, 0)).
  { intros z B u v H. cbn [reduced_deflection_angle sheet]. fold (size (1 / 10 * u) (1 / 10 * v)). rewrite size_scal by lra. split; [lra|].
    rewrite !size_dist, <- !Rmult_minus_distr_l, size_scal by lra. lra. }
  assert (O1 : size 1 0 = 1). { unfold size, distance. cbn [fst snd]. replace ((1 - 0) ^ 2 + (0 - 0) ^ 2) with (1 ^ 2) by ring. apply sqrt_pow2. lra. }
  assert (T : forall u v, size u v <= 1 + distance (u, v) (1, 0)). { intros u v. assert (T := dist_triangle (u, v) (1, 0) (0, 0)). fold (size u v) in T. fold (size 1 0) in T. lra. }
  intros [|[|i]] t Et; [| |destruct i; discriminate]; injection Et as <-; (split; [lra|]); intros u v Hu; cbn [sum_below] in Hu; apply G; assert (A := T u v); lra.
Qed.
