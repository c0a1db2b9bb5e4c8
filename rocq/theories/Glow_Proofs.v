(** * Proofs for C155: the light of a source behind an SIS *)
From Coq Require Import Reals List Permutation Lra.
From Verif Require Import LensBase_Model LensBasic_Model Images_Proofs Astro_Proofs Invert_Spec Invert_Proofs Glow_Spec.
Import ListNotations.
Local Open Scope R_scope.

Lemma same_list alpha x0 y0 S l l' : all_images alpha x0 y0 S l -> all_images alpha x0 y0 S l' -> Permutation l l'.
Proof.
  assert (K : forall l l', all_images alpha x0 y0 S l -> all_images alpha x0 y0 S l' -> forall i, In i l -> In i l').
  { intros a a' (_ & _ & A) (_ & B & C) [P m] H. destruct (A P m H) as (O & R & M). destruct (B P O R) as (m' & H'). destruct (C P m' H') as (_ & _ & M'). rewrite M in M'. injection M' as ->. exact H'. }
  intros A B. apply NoDup_Permutation; [apply A|apply B|]. intros i. split; apply K; assumption.
Qed.
Lemma sum_perm (f : (R * R) * R -> R) l l' : Permutation l l' -> fold_right (fun i a => f i + a) 0 l = fold_right (fun i a => f i + a) 0 l'.
Proof. induction 1; cbn; lra. Qed.
Lemma light_perm l l' : Permutation l l' -> light l = light l' /\ light_centre l = light_centre l'.
Proof.
  intros H. assert (E : light l = light l') by (exact (sum_perm (fun i => snd i) l l' H)). split; [exact E|]. unfold light_centre. rewrite E, (sum_perm (fun i => snd i * fst (fst i)) l l' H), (sum_perm (fun i => snd i * snd (fst i)) l l' H). reflexivity.
Qed.
Section Sis.
Variables (x0 y0 Rein sx sy : R).
Hypothesis HR : 0 < Rein.
Hypothesis Hs : (sx, sy) <> (x0, y0).
Let alpha := reduced_deflection_angle_sis x0 y0 Rein 0.
Let b := sqrt ((sx - x0) ^ 2 + (sy - y0) ^ 2).
Let c := (sx - x0) / b. Let s := (sy - y0) / b.
Lemma centre_off k : k <> 0 -> (x0 + k * c, y0 + k * s) <> (x0, y0).
Proof. intros H E. destruct (polar_off x0 y0 c s (cs x0 y0 sx sy Hs) k H) as [N|N]; apply N; [exact (f_equal fst E)|exact (f_equal snd E)]. Qed.
Lemma sis_list : exists l, all_images alpha x0 y0 (sx, sy) l /\ light l = Rmax (1 + Rein / b) (2 * Rein / b) /\ light_centre l = (x0 + Rmin 2 (1 + Rein / b) * (sx - x0), y0 + Rmin 2 (1 + Rein / b) * (sy - y0)).
Proof.
  assert (B : 0 < b) by (exact (b_pos x0 y0 sx sy Hs)). assert (N : c ^ 2 + s ^ 2 = 1) by (exact (cs x0 y0 sx sy Hs)). assert (XY : x0 + b * c = sx /\ y0 + b * s = sy) by (exact (src_is x0 y0 sx sy Hs)). destruct XY as [X Y]. assert (Xc : sx - x0 = b * c) by lra. assert (Yc : sy - y0 = b * s) by lra.
  assert (I : forall P, P <> (x0, y0) -> (raytrace alpha (fst P) (snd P) = (sx, sy) <-> P = (x0 + (b + Rein) * c, y0 + (b + Rein) * s) \/ (b < Rein /\ P = (x0 + (b - Rein) * c, y0 + (b - Rein) * s)))).
  { intros [x y] O. cbn [fst snd]. rewrite <- X, <- Y. unfold alpha. rewrite (sis_images x0 y0 Rein HR b c s B N x y (neq_or (x, y) _ _ O)). split.
    - intros [(-> & ->)|(L & -> & ->)]; [left; reflexivity|right; split; [exact L|reflexivity]].
    - intros [E|(L & E)]; [left|right]; repeat split; try assumption; try exact (f_equal fst E); exact (f_equal snd E). }
  assert (O1 := centre_off (b + Rein) ltac:(lra)).
  assert (M1 : magnification alpha (x0 + (b + Rein) * c) (y0 + (b + Rein) * s) = Some (1 + Rein / b)).
  { unfold alpha. rewrite (sis_mag x0 y0 Rein _ _ (polar_off x0 y0 c s N (b + Rein) ltac:(lra))). rewrite (polar_norm x0 y0 c s N), Rabs_pos_eq by lra. replace (1 - Rein / (b + Rein)) with (b / (b + Rein)) by (field; lra).
    unfold inv_abs. assert (P : 0 < b / (b + Rein)) by (apply Rdiv_lt_0_compat; lra). destruct (Req_EM_T (b / (b + Rein)) 0) as [Z|_]; [lra|]. rewrite Rabs_pos_eq by lra. f_equal. field. split; lra. }
  destruct (Rlt_or_le b Rein) as [L|L].
  - destruct (sis_image_mags x0 y0 Rein HR b c s B N L) as [_ M2]. fold alpha in M2. assert (O2 := centre_off (b - Rein) ltac:(lra)). assert (G : 1 < Rein / b) by (apply (Rmult_lt_reg_r b); [exact B|]; unfold Rdiv; rewrite Rmult_assoc, Rinv_l by lra; lra).
    exists [((x0 + (b + Rein) * c, y0 + (b + Rein) * s), 1 + Rein / b); ((x0 + (b - Rein) * c, y0 + (b - Rein) * s), Rein / b - 1)]. split; [split; [|split]|].
    + constructor; [|constructor; [intros []|constructor]]. intros [E|[]]. assert (E' := f_equal snd E). cbn [snd] in E'. lra.
    + intros P O R. apply (I P O) in R as [->|[_ ->]]; [exists (1 + Rein / b); left; reflexivity|exists (Rein / b - 1); right; left; reflexivity].
    + intros P m [E|[E|[]]]; [assert (EP := f_equal fst E); assert (Em := f_equal snd E)|assert (EP := f_equal fst E); assert (Em := f_equal snd E)]; cbn [fst snd] in EP, Em; subst P m; cbn [fst snd].
      * split; [exact O1|]. split; [apply (I (_, _) O1); left; reflexivity|exact M1].
      * split; [exact O2|]. split; [apply (I (_, _) O2); right; split; [exact L|reflexivity]|exact M2].
    + unfold light_centre, light. cbn [fold_right fst snd]. rewrite Rmin_left by lra. rewrite Rmax_right by (replace (2 * Rein / b) with (2 * (Rein / b)) by (field; lra); lra). split; [field; lra|]. rewrite Xc, Yc. apply f_equal2; field; split; lra.
  - assert (G : Rein / b <= 1) by (apply (Rmult_le_reg_r b); [exact B|]; unfold Rdiv; rewrite Rmult_assoc, Rinv_l by lra; lra). assert (G0 : 0 < Rein / b) by (apply Rdiv_lt_0_compat; lra).
    exists [((x0 + (b + Rein) * c, y0 + (b + Rein) * s), 1 + Rein / b)]. split; [split; [|split]|].
    + constructor; [intros []|constructor].
    + intros P O R. apply (I P O) in R as [->|[L' _]]; [exists (1 + Rein / b); left; reflexivity|lra].
    + intros P m [E|[]]. assert (EP := f_equal fst E). assert (Em := f_equal snd E). cbn [fst snd] in EP, Em. subst P m. cbn [fst snd]. split; [exact O1|]. split; [apply (I (_, _) O1); left; reflexivity|exact M1].
    + unfold light_centre, light. cbn [fold_right fst snd]. rewrite Rmin_right by lra. rewrite Rmax_left by (replace (2 * Rein / b) with (2 * (Rein / b)) by (field; lra); lra). split; [ring|]. rewrite Xc, Yc. apply f_equal2; field; split; lra.
Qed.
Lemma sis_light l : all_images alpha x0 y0 (sx, sy) l -> light l = Rmax (1 + Rein / b) (2 * Rein / b) /\ light_centre l = (x0 + Rmin 2 (1 + Rein / b) * (sx - x0), y0 + Rmin 2 (1 + Rein / b) * (sy - y0)).
Proof. intros A. destruct sis_list as (l' & A' & E1 & E2). destruct (light_perm l l' (same_list _ _ _ _ _ _ A A')) as [-> ->]. split; assumption. Qed.
Lemma sis_shift l : all_images alpha x0 y0 (sx, sy) l -> separation (light_centre l) (sx, sy) = Rmin b Rein.
Proof.
  intros A. destruct (sis_light l A) as [_ E]. assert (B : 0 < b) by (exact (b_pos x0 y0 sx sy Hs)). assert (B2 : b ^ 2 = (sx - x0) ^ 2 + (sy - y0) ^ 2) by (exact (b_sq x0 y0 sx sy)). unfold separation. rewrite E. cbn [fst snd].
  set (g := Rmin 2 (1 + Rein / b)). replace ((x0 + g * (sx - x0) - sx) ^ 2 + (y0 + g * (sy - y0) - sy) ^ 2) with ((g - 1) ^ 2 * b ^ 2) by (rewrite B2; ring). replace ((g - 1) ^ 2 * b ^ 2) with (Rsqr ((g - 1) * b)) by (unfold Rsqr; ring). rewrite sqrt_Rsqr_abs.
  assert (G0 : 0 < Rein / b) by (apply Rdiv_lt_0_compat; lra). unfold g. destruct (Rlt_or_le b Rein) as [L|L].
  - assert (G : 1 < Rein / b) by (apply (Rmult_lt_reg_r b); [exact B|]; unfold Rdiv; rewrite Rmult_assoc, Rinv_l by lra; lra). rewrite Rmin_left by lra. rewrite Rmin_left by lra. rewrite Rabs_pos_eq by lra. ring.
  - assert (G : Rein / b <= 1) by (apply (Rmult_le_reg_r b); [exact B|]; unfold Rdiv; rewrite Rmult_assoc, Rinv_l by lra; lra). rewrite Rmin_right by lra. rewrite Rmin_right by lra. replace ((1 + Rein / b - 1) * b) with Rein by (field; lra). apply Rabs_pos_eq. lra.
Qed.
End Sis.
Lemma sis_closer x0 y0 Rein sx sy sx' sy' l l' : 0 < Rein -> (sx, sy) <> (x0, y0) -> (sx', sy') <> (x0, y0) -> all_images (reduced_deflection_angle_sis x0 y0 Rein 0) x0 y0 (sx, sy) l -> all_images (reduced_deflection_angle_sis x0 y0 Rein 0) x0 y0 (sx', sy') l' ->
  (sx - x0) ^ 2 + (sy - y0) ^ 2 < (sx' - x0) ^ 2 + (sy' - y0) ^ 2 -> light l' < light l.
Proof.
  intros HR H H' A A' L. destruct (sis_light x0 y0 Rein sx sy HR H l A) as [-> _]. destruct (sis_light x0 y0 Rein sx' sy' HR H' l' A') as [-> _]. assert (B := b_pos x0 y0 sx sy H). assert (B' := b_pos x0 y0 sx' sy' H').
  assert (Q : sqrt ((sx - x0) ^ 2 + (sy - y0) ^ 2) < sqrt ((sx' - x0) ^ 2 + (sy' - y0) ^ 2)) by (apply sqrt_lt_1_alt; split; [assert (U := pow2_ge_0 (sx - x0)); assert (V := pow2_ge_0 (sy - y0)); lra|exact L]).
  set (b := sqrt ((sx - x0) ^ 2 + (sy - y0) ^ 2)) in *. set (b' := sqrt ((sx' - x0) ^ 2 + (sy' - y0) ^ 2)) in *. clearbody b b'. assert (I : Rein / b' < Rein / b) by (unfold Rdiv; apply Rmult_lt_compat_l; [exact HR|]; apply Rinv_lt_contravar; [apply Rmult_lt_0_compat; assumption|exact Q]).
  replace (2 * Rein / b) with (2 * (Rein / b)) by (field; lra). replace (2 * Rein / b') with (2 * (Rein / b')) by (field; lra). unfold Rmax. destruct (Rle_dec _ _); destruct (Rle_dec _ _); lra.
Qed.
Lemma sis_distance x0 y0 Rein sx sy l : 0 < Rein -> (sx, sy) <> (x0, y0) -> all_images (reduced_deflection_angle_sis x0 y0 Rein 0) x0 y0 (sx, sy) l -> 1 < light l /\ separation (sx, sy) (x0, y0) = Rmax (Rein / (light l - 1)) (2 * Rein / light l).
Proof.
  intros HR H A. destruct (sis_light x0 y0 Rein sx sy HR H l A) as [-> _]. assert (B := b_pos x0 y0 sx sy H). unfold separation. cbn [fst snd]. set (b := sqrt ((sx - x0) ^ 2 + (sy - y0) ^ 2)) in *. clearbody b. assert (G0 : 0 < Rein / b) by (apply Rdiv_lt_0_compat; lra).
  replace (2 * Rein / b) with (2 * (Rein / b)) by (field; lra). split; [assert (M := Rmax_l (1 + Rein / b) (2 * (Rein / b))); lra|]. set (g := Rein / b) in *. assert (Eb : b = Rein / g) by (unfold g; field; lra). rewrite Eb. clearbody g. clear Eb B b.
  destruct (Rlt_or_le 1 g) as [L|L].
  - rewrite (Rmax_right (1 + g)) by lra. rewrite Rmax_right; [field; lra|]. replace (2 * Rein / (2 * g)) with (Rein * / g) by (field; lra). unfold Rdiv. apply Rmult_le_compat_l; [lra|]. apply Rinv_le_contravar; lra.
  - rewrite (Rmax_left (1 + g)) by lra. rewrite Rmax_left; [f_equal; ring|]. replace (1 + g - 1) with g by ring. apply (Rmult_le_reg_r (g * (1 + g))); [nra|]. replace (2 * Rein / (1 + g) * (g * (1 + g))) with (Rein * (2 * g)) by (field; lra). replace (Rein / g * (g * (1 + g))) with (Rein * (1 + g)) by (field; lra). apply Rmult_le_compat_l; lra.
Qed.
Lemma sis_all x0 y0 Rein sx sy : 0 < Rein -> (sx, sy) <> (x0, y0) -> exists l, all_images (reduced_deflection_angle_sis x0 y0 Rein 0) x0 y0 (sx, sy) l.
Proof. intros HR H. destruct (sis_list x0 y0 Rein sx sy HR H) as (l & A & _). exists l. exact A. Qed.
Lemma sis_light_sep x0 y0 Rein sx sy l : 0 < Rein -> (sx, sy) <> (x0, y0) -> all_images (reduced_deflection_angle_sis x0 y0 Rein 0) x0 y0 (sx, sy) l -> let b := separation (sx, sy) (x0, y0) in
  light l = Rmax (1 + Rein / b) (2 * Rein / b) /\ light_centre l = (x0 + Rmin 2 (1 + Rein / b) * (sx - x0), y0 + Rmin 2 (1 + Rein / b) * (sy - y0)) /\ separation (light_centre l) (sx, sy) = Rmin b Rein.
Proof. intros HR H A b. destruct (sis_light x0 y0 Rein sx sy HR H l A) as [E1 E2]. assert (E3 := sis_shift x0 y0 Rein sx sy HR H l A). split; [exact E1|]. split; [exact E2|exact E3]. Qed.
