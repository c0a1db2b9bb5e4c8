(** * Proofs about composite lenses that are moved as a whole (C124) *)
From Coq Require Import Reals Lra Lia List Arith Bool Sorting.Sorted.
From Verif Require Import Py Const_Model Cosmo_Model LensBase_Model Multiplane_Model Multiplane_Proofs Rigid_Spec Mirror_Spec Whole_Spec.
Import ListNotations.
Local Open Scope R_scope.

Lemma alike_bind {A B A' B'} (P : A -> A' -> Prop) (Q : B -> B' -> Prop) r r' f f' :
  alike P r r' -> (forall v v', P v v' -> alike Q (f v) (f' v')) -> alike Q (bind r f) (bind r' f').
Proof. destruct r, r'; cbn; intros H K; try contradiction; auto. Qed.
Lemma alike_refl {A} (r : result A) : alike eq r r.
Proof. destruct r; reflexivity. Qed.
Lemma carry_fst M a b x y : fst (carry M a b (x, y)) = lxx M * x + lxy M * y + a. Proof. reflexivity. Qed.
Lemma carry_snd M a b x y : snd (carry M a b (x, y)) = lyx M * x + lyy M * y + b. Proof. reflexivity. Qed.

(** ** one plane *)
Section Single.
Variables (M : linear) (a b : R).
Lemma sp_deflection l l' x y : Forall2 (moved_lens M a b) l l' -> let p := carry M a b (x, y) in
  singleplane_deflection l' (fst p) (snd p) = apply M (singleplane_deflection l x y).
Proof.
  intros H p. unfold singleplane_deflection.
  assert (G : forall u, fold_left (fun a0 lens => let '(ax_cur, ay_cur) := reduced_deflection_angle lens (fst p) (snd p) in (fst a0 + ax_cur, snd a0 + ay_cur)) l' (apply M u) =
    apply M (fold_left (fun a0 lens => let '(ax_cur, ay_cur) := reduced_deflection_angle lens x y in (fst a0 + ax_cur, snd a0 + ay_cur)) l u)).
  { induction H as [|L L' l l' HL H IH]; intros u; [reflexivity|]. cbn [fold_left]. destruct HL as [_ HL]. destruct (HL x y) as (HD & _ & _). fold p in HD. rewrite HD, <- IH. f_equal.
    destruct (reduced_deflection_angle L x y) as [ax ay]. unfold apply. cbn [fst snd]. f_equal; ring. }
  rewrite <- G. f_equal. unfold apply. cbn. f_equal; ring.
Qed.
Lemma sp_sum (f : thin_lens -> R -> R -> R) l l' x y : Forall2 (moved_lens M a b) l l' -> let p := carry M a b (x, y) in
  (forall L L', moved_lens M a b L L' -> f L' (fst p) (snd p) = f L x y) ->
  fold_left (fun s lens => s + f lens (fst p) (snd p)) l' 0 = fold_left (fun s lens => s + f lens x y) l 0.
Proof.
  intros H p K. generalize 0 as u. induction H as [|L L' l l' HL H IH]; intros u; [reflexivity|]. cbn [fold_left]. rewrite (K L L' HL). apply IH.
Qed.
Lemma sp_moved z l l' : Forall2 (moved_lens M a b) l l' -> moved_lens M a b (singleplane z l) (singleplane z l').
Proof.
  intros H. split; [reflexivity|]. intros x y p. split; [apply sp_deflection; exact H|]. split; cbn [singleplane potential convergence].
  - apply (sp_sum potential); [exact H|]. intros L L' [_ HL]. apply (HL x y).
  - apply (sp_sum convergence); [exact H|]. intros L L' [_ HL]. apply (HL x y).
Qed.
End Single.

(** ** several planes *)
Section Multi.
Variables (cd tcd : R -> R) (z_s : R) (M : linear) (a b : R).
Hypothesis KL : keeps_lengths M.
Variables (shapiro geometric : bool) (l l' : list thin_lens).
Hypothesis HL : Forall2 (moved_lens M a b) l l'.

(** the two states on a plane at distance D *)
Definition rel (D : R) (st st' : mp_state) : Prop :=
  let '(X, Y, tx, ty, TD) := st in let '(X', Y', tx', ty', TD') := st' in
  X' = lxx M * X + lxy M * Y + D * a * arcsec_to_rad /\ Y' = lyx M * X + lyy M * Y + D * b * arcsec_to_rad /\
  tx' = lxx M * tx + lxy M * ty + a /\ ty' = lyx M * tx + lyy M * ty + b /\ TD' = TD.
Definition rel_end (r r' : R * R * option R) : Prop := fst r' = carry M a b (fst r) /\ snd r' = snd r.

Lemma same_z : map z_l l' = map z_l l.
Proof. induction HL as [|L L' k k' H1 H2 IH]; [reflexivity|]. cbn. destruct H1 as [-> _]. rewrite IH; [reflexivity|exact H2]. Qed.
Lemma same_length : length l' = length l.
Proof. rewrite <- (map_length z_l l'), same_z, map_length. reflexivity. Qed.
Lemma get_moved i : alike (moved_lens M a b) (py_get l i) (py_get l' i).
Proof.
  unfold py_get. revert i. induction HL as [|L L' k k' H1 H2 IH]; intros [|i]; cbn; try reflexivity; try exact H1. apply IH. exact H2.
Qed.
Lemma on_plane L L' D X Y X' Y' : z_l L' = z_l L -> (a = 0 /\ b = 0) \/ tcd (z_l L) <> 0 -> D = tcd (z_l L) ->
  X' = lxx M * X + lxy M * Y + D * a * arcsec_to_rad -> Y' = lyx M * X + lyy M * Y + D * b * arcsec_to_rad ->
  (X' * rad_to_arcsec / D, Y' * rad_to_arcsec / D) = carry M a b (X * rad_to_arcsec / D, Y * rad_to_arcsec / D).
Proof.
  intros _ HD ED -> ->. assert (Ar := arcsec_rad_inv). unfold carry, apply. cbn [fst snd]. destruct HD as [[-> ->]|HD].
  - unfold Rdiv. f_equal; ring.
  - rewrite <- ED in HD. f_equal.
    + transitivity (lxx M * (X * rad_to_arcsec / D) + lxy M * (Y * rad_to_arcsec / D) + a * (arcsec_to_rad * rad_to_arcsec)); [field; exact HD|rewrite Ar; ring].
    + transitivity (lyx M * (X * rad_to_arcsec / D) + lyy M * (Y * rad_to_arcsec / D) + b * (arcsec_to_rad * rad_to_arcsec)); [field; exact HD|rewrite Ar; ring].
Qed.
Lemma phys_moved L L' x y : moved_lens M a b L L' ->
  physical_deflection_angle cd L' z_s (fst (carry M a b (x, y))) (snd (carry M a b (x, y))) = apply M (physical_deflection_angle cd L z_s x y).
Proof.
  intros [Z H]. destruct (H x y) as (HD & _ & _). unfold physical_deflection_angle. rewrite HD, Z. destruct (reduced_deflection_angle L x y) as [ax ay]. unfold physical_from_reduced_deflection_angle, apply. cbn. f_equal; ring.
Qed.
Definition z_at (i last : nat) : R := match z_next_of l z_s i last with Ok z => z | _ => 0 end.
Lemma step_moved last D_s i st st' D :
  (a = 0 /\ b = 0 \/ forall L, In L l -> tcd (z_l L) <> 0) -> (a = 0 /\ b = 0 \/ forall L, nth_error l i = Some L -> D = tcd (z_l L)) -> rel D st st' ->
  alike (rel (tcd (z_at i last))) (plane_step cd tcd l z_s shapiro geometric last D_s i st) (plane_step cd tcd l' z_s shapiro geometric last D_s i st').
Proof.
  intros H0 HD Hr. destruct st as [[[[X Y] tx] ty] TD], st' as [[[[X' Y'] tx'] ty'] TD']. unfold plane_step.
  assert (Ez : z_next_of l' z_s i last = z_next_of l z_s i last) by (unfold z_next_of; rewrite same_z; reflexivity). rewrite Ez.
  unfold z_at. destruct (z_next_of l z_s i last) as [zn|e] eqn:En; [|reflexivity]. cbn [bind].
  assert (G := get_moved i). unfold py_get in *. destruct (nth_error l i) as [L|] eqn:EL; destruct (nth_error l' i) as [L'|] eqn:EL'; cbn [alike] in G; try contradiction; cbn [bind]; [|reflexivity].
  assert (Gm := G). destruct G as [Z G]. rewrite Z.
  set (Dl := tcd (z_l L)) in *.
  assert (Hr' : rel Dl (X, Y, tx, ty, TD) (X', Y', tx', ty', TD')).
  { destruct HD as [[Ha Hb]|HD]; [|rewrite (HD L eq_refl) in Hr; exact Hr]. unfold rel in *. rewrite Ha, Hb in *. destruct Hr as (-> & -> & -> & -> & ->). repeat split; ring. }
  destruct Hr' as (EX & EY & Etx & Ety & ETD).
  assert (Hl : (a = 0 /\ b = 0) \/ tcd (z_l L) <> 0) by (destruct H0 as [H0|H0]; [left; exact H0|right; apply H0; eapply nth_error_In; exact EL]).
  assert (P := on_plane L L' Dl X Y X' Y' Z Hl eq_refl EX EY).
  set (px := X * rad_to_arcsec / Dl) in *. set (py := Y * rad_to_arcsec / Dl) in *.
  assert (Px : X' * rad_to_arcsec / Dl = fst (carry M a b (px, py))) by (rewrite <- P; reflexivity).
  assert (Py : Y' * rad_to_arcsec / Dl = snd (carry M a b (px, py))) by (rewrite <- P; reflexivity).
  assert (Ph := phys_moved L L' px py Gm).
  destruct (G px py) as (_ & Gp & _). 
  unfold plane_delay. fold Dl. rewrite Px, Py. fold px py. rewrite Gp, Z, Ph.
  destruct (physical_deflection_angle cd L z_s px py) as [ax ay]. 
  assert (K := KL (ax, ay)). unfold apply in *. cbn [fst snd] in *. cbv beta iota zeta. cbn [alike]. unfold rel.
  rewrite K, ETD, EX, EY, Etx, Ety. unfold transverse_comoving_distance_z1z2. fold Dl.
  split; [ring|]. split; [ring|]. split; [ring|]. split; [ring|]. reflexivity.
Qed.
Lemma finish D_end st st' : (a = 0 /\ b = 0) \/ D_end <> 0 -> rel D_end st st' ->
  alike rel_end (let '(X, Y, _, _, TD) := st in Ok (X * rad_to_arcsec / D_end, Y * rad_to_arcsec / D_end, TD))
    (let '(X, Y, _, _, TD) := st' in Ok (X * rad_to_arcsec / D_end, Y * rad_to_arcsec / D_end, TD)).
Proof.
  destruct st as [[[[X Y] tx] ty] TD], st' as [[[[X' Y'] tx'] ty'] TD']. intros HD (EX & EY & _ & _ & ET). cbn. split; [|exact ET]. cbn [fst].
  rewrite EX, EY. assert (Ar := arcsec_rad_inv). unfold carry, apply. cbn [fst snd]. destruct HD as [[-> ->]|HD].
  - unfold Rdiv. f_equal; ring.
  - f_equal.
    + transitivity (lxx M * (X * rad_to_arcsec / D_end) + lxy M * (Y * rad_to_arcsec / D_end) + a * (arcsec_to_rad * rad_to_arcsec)); [field; exact HD|rewrite Ar; ring].
    + transitivity (lyx M * (X * rad_to_arcsec / D_end) + lyy M * (Y * rad_to_arcsec / D_end) + b * (arcsec_to_rad * rad_to_arcsec)); [field; exact HD|rewrite Ar; ring].
Qed.
Lemma rel_any D D' st st' : a = 0 -> b = 0 -> rel D st st' -> rel D' st st'.
Proof. intros Ha Hb. destruct st as [[[[X Y] tx] ty] TD], st' as [[[[X' Y'] tx'] ty'] TD']. unfold rel. rewrite Ha, Hb, !Rmult_0_r, !Rmult_0_l. tauto. Qed.

(** no shift: any list, in any order *)
Lemma loop_any last D_s ks : a = 0 -> b = 0 -> forall st st', rel 0 st st' ->
  alike (rel 0) (for_loop (plane_step cd tcd l z_s shapiro geometric last D_s) ks st) (for_loop (plane_step cd tcd l' z_s shapiro geometric last D_s) ks st').
Proof.
  intros Ha Hb. induction ks as [|k ks IH]; intros st st' Hr; [exact Hr|]. cbn [for_loop].
  apply (alike_bind (rel 0)); [|exact IH]. assert (S1 := step_moved last D_s k st st' 0 (or_introl (conj Ha Hb)) (or_introl (conj Ha Hb)) Hr).
  destruct (plane_step cd tcd l z_s shapiro geometric last D_s k st) as [v|e], (plane_step cd tcd l' z_s shapiro geometric last D_s k st') as [v'|e']; cbn [alike] in *; try exact S1. apply (rel_any _ 0 _ _ Ha Hb S1).
Qed.
Lemma core_turned x y : a = 0 -> b = 0 -> let p := carry M a b (x, y) in
  alike rel_end (raytrace_core cd tcd l z_s shapiro geometric x y) (raytrace_core cd tcd l' z_s shapiro geometric (fst p) (snd p)).
Proof.
  intros Ha Hb p. unfold raytrace_core. rewrite same_z. apply (alike_bind eq); [apply alike_refl|]. intros f f' <-. apply (alike_bind eq); [apply alike_refl|]. intros la la' <-.
  apply (alike_bind eq); [apply alike_refl|]. intros z0 z0' <-. apply (alike_bind (rel 0)).
  - apply loop_any; [exact Ha|exact Hb|]. unfold rel, p, carry, apply. cbn [fst snd]. rewrite Ha, Hb. repeat split; ring.
  - intros st st' Hr. apply finish; [left; split; assumption|]. apply (rel_any 0 _ _ _ Ha Hb Hr).
Qed.
(** with a shift: lenses listed by redshift *)
Lemma loop_sorted D_s : (forall L, In L l -> tcd (z_l L) <> 0) -> forall m j st st', (j + m = length l)%nat -> rel (tcd (plane_z z_s l j)) st st' ->
  alike (rel (tcd z_s)) (for_loop (plane_step cd tcd l z_s shapiro geometric (length l - 1) D_s) (seq j m) st) (for_loop (plane_step cd tcd l' z_s shapiro geometric (length l - 1) D_s) (seq j m) st').
Proof.
  intros H0. induction m as [|m IH]; intros j st st' Hj Hr.
  - cbn. unfold plane_z in Hr. rewrite nth_overflow in Hr by (rewrite map_length; lia). exact Hr.
  - cbn [seq for_loop]. apply (alike_bind (rel (tcd (plane_z z_s l (S j))))); [|intros v v'; apply IH; lia].
    assert (E : z_at j (length l - 1) = plane_z z_s l (S j)).
    { unfold z_at, z_next_of, py_get. destruct (Nat.eqb_spec j (length l - 1)).
      - unfold plane_z. rewrite nth_overflow; [reflexivity|]. rewrite map_length; lia.
      - destruct (nth_error (map z_l l) (j + 1)) as [w|] eqn:Ew.
        + unfold plane_z. replace (S j) with (j + 1)%nat by lia. rewrite (nth_error_nth _ _ _ Ew). reflexivity.
        + apply nth_error_None in Ew. rewrite map_length in Ew. lia. }
    rewrite <- E. apply (step_moved _ _ _ _ _ (tcd (plane_z z_s l j))); [right; exact H0| |exact Hr]. right. intros L EL. rewrite (nth_map_z z_s l j L EL). reflexivity.
Qed.
Lemma core_moved x y : StronglySorted Rle (map z_l l) -> (forall L, In L l -> tcd (z_l L) <> 0) -> tcd z_s <> 0 -> let p := carry M a b (x, y) in
  alike rel_end (raytrace_core cd tcd l z_s shapiro geometric x y) (raytrace_core cd tcd l' z_s shapiro geometric (fst p) (snd p)).
Proof.
  intros Hs H0 Hz p. unfold raytrace_core. rewrite same_z, lens_planes_sorted by exact Hs. rewrite map_length, seq_length.
  destruct (Nat.eq_dec (length l) 0) as [E|E]; [rewrite E; reflexivity|].
  assert (P0 : py_get (seq 0 (length l)) 0 = Ok 0%nat) by (unfold py_get; destruct (length l); [congruence|reflexivity]).
  assert (P1 : py_get (seq 0 (length l)) (length l - 1) = Ok (length l - 1)%nat).
  { unfold py_get. destruct (nth_error (seq 0 (length l)) (length l - 1)) as [w|] eqn:Ew.
    - apply nth_error_nth with (d := 0%nat) in Ew. rewrite seq_nth in Ew by lia. f_equal; lia.
    - apply nth_error_None in Ew. rewrite seq_length in Ew; lia. }
  assert (P2 : py_get (map z_l l) 0 = Ok (plane_z z_s l 0)) by (unfold py_get, plane_z; destruct l; [cbn in E; congruence|reflexivity]).
  rewrite P0, P1. cbn [bind]. rewrite P2. cbn [bind]. apply (alike_bind (rel (tcd z_s))).
  - apply loop_sorted; [exact H0|lia|]. unfold rel, p, carry, apply. cbn [fst snd]. repeat split; ring.
  - intros st st' Hr. apply finish; [right; exact Hz|exact Hr].
Qed.
End Multi.

Lemma alike_mono {A B} (P Q : A -> B -> Prop) r r' : (forall v v', P v v' -> Q v v') -> alike P r r' -> alike Q r r'.
Proof. destruct r, r'; cbn; auto. Qed.

(** from the core to what users call *)
Section Called.
Variables (cd tcd : R -> R) (M : linear) (a b : R) (l l' : list thin_lens) (z_s x y : R).
Let p := carry M a b (x, y).
Hypothesis core : forall sh ge, alike (rel_end M a b) (raytrace_core cd tcd l z_s sh ge x y) (raytrace_core cd tcd l' z_s sh ge (fst p) (snd p)).
Lemma called_moved :
  alike (fun r r' => r' = carry M a b r) (multiplane_raytrace cd tcd l z_s x y) (multiplane_raytrace cd tcd l' z_s (fst p) (snd p)) /\
  alike (fun r r' => r' = apply M r) (multiplane_effective_deflection cd tcd l z_s x y) (multiplane_effective_deflection cd tcd l' z_s (fst p) (snd p)) /\
  forall sh ge, multiplane_time_delay cd tcd l' z_s (fst p) (snd p) sh ge = multiplane_time_delay cd tcd l z_s x y sh ge.
Proof.
  assert (R1 : alike (fun r r' => r' = carry M a b r) (multiplane_raytrace cd tcd l z_s x y) (multiplane_raytrace cd tcd l' z_s (fst p) (snd p))).
  { unfold multiplane_raytrace. apply (alike_bind (rel_end M a b)); [apply core|]. intros v v' [H _]. exact H. }
  split; [exact R1|]. split.
  - unfold multiplane_effective_deflection. apply (alike_bind _ _ _ _ _ _ R1). intros [u v] w ->. unfold p, carry, apply. cbn. f_equal; ring.
  - intros sh ge. unfold multiplane_time_delay. assert (C := core sh ge).
    destruct (raytrace_core cd tcd l z_s sh ge x y) as [r|e], (raytrace_core cd tcd l' z_s sh ge (fst p) (snd p)) as [r'|e']; cbn in *; try contradiction; [|congruence].
    destruct C as [_ ->]. reflexivity.
Qed.
End Called.
Lemma multiplane_turned cd tcd M l l' z_s x y : keeps_lengths M -> Forall2 (moved_lens M 0 0) l l' -> let p := carry M 0 0 (x, y) in
  alike (fun r r' => r' = carry M 0 0 r) (multiplane_raytrace cd tcd l z_s x y) (multiplane_raytrace cd tcd l' z_s (fst p) (snd p)) /\
  alike (fun r r' => r' = apply M r) (multiplane_effective_deflection cd tcd l z_s x y) (multiplane_effective_deflection cd tcd l' z_s (fst p) (snd p)) /\
  forall sh ge, multiplane_time_delay cd tcd l' z_s (fst p) (snd p) sh ge = multiplane_time_delay cd tcd l z_s x y sh ge.
Proof. intros K H p. apply called_moved. intros sh ge. apply core_turned; auto. Qed.
Lemma multiplane_moved cd tcd M a b l l' z_s x y : keeps_lengths M -> Forall2 (moved_lens M a b) l l' ->
  StronglySorted Rle (map z_l l) -> (forall L, In L l -> tcd (z_l L) <> 0) -> tcd z_s <> 0 -> let p := carry M a b (x, y) in
  alike (fun r r' => r' = carry M a b r) (multiplane_raytrace cd tcd l z_s x y) (multiplane_raytrace cd tcd l' z_s (fst p) (snd p)) /\
  alike (fun r r' => r' = apply M r) (multiplane_effective_deflection cd tcd l z_s x y) (multiplane_effective_deflection cd tcd l' z_s (fst p) (snd p)) /\
  forall sh ge, multiplane_time_delay cd tcd l' z_s (fst p) (snd p) sh ge = multiplane_time_delay cd tcd l z_s x y sh ge.
Proof. intros K H S1 H0 Hz p. apply called_moved. intros sh ge. apply core_moved; auto. Qed.

(** one thin lens *)
Lemma thin_moved cd M a b L L' z_s : keeps_lengths M -> moved_lens M a b L L' ->
  moved_ray M a b (raytrace (reduced_deflection_angle L)) (raytrace (reduced_deflection_angle L')) /\
  forall x y sh ge, let p := carry M a b (x, y) in time_delay cd L' z_s (fst p) (snd p) sh ge = time_delay cd L z_s x y sh ge /\
  physical_deflection_angle cd L' z_s (fst p) (snd p) = apply M (physical_deflection_angle cd L z_s x y) /\ surface_density cd L' z_s (fst p) (snd p) = surface_density cd L z_s x y.
Proof.
  intros K HM. assert (HM' := HM). destruct HM as [Z H]. split.
  - intros x y p. unfold raytrace, p. destruct (H x y) as (HD & _). rewrite HD. destruct (reduced_deflection_angle L x y) as [u v]. unfold carry, apply. cbn [fst snd]. f_equal; ring.
  - intros x y sh ge p. destruct (H x y) as (HD & HP & HC). fold p in HD, HP, HC. split; [|split].
    + unfold time_delay. rewrite HD, HP, Z. specialize (K (reduced_deflection_angle L x y)). destruct (apply M (reduced_deflection_angle L x y)) as [u' v'], (reduced_deflection_angle L x y) as [u v]. cbn [fst snd] in K. rewrite K. reflexivity.
    + apply phys_moved. exact HM'.
    + unfold surface_density. rewrite HC, Z. reflexivity.
Qed.
Lemma turned_keeps t : keeps_lengths (turned t).
Proof. intros [u v]. unfold apply, turned. cbn [fst snd lxx lxy lyx lyy]. assert (S := sin2_cos2 t). unfold Rsqr in S. transitivity ((sin t * sin t + cos t * cos t) * (u ^ 2 + v ^ 2)); [ring|rewrite S; ring]. Qed.
Lemma named_keep : keeps_lengths unturned /\ keeps_lengths flipped_y /\ keeps_lengths flipped_x /\ keeps_lengths swapped.
Proof. repeat split; intros [u v]; unfold apply; cbn [fst snd lxx lxy lyx lyy unturned flipped_y flipped_x swapped]; ring. Qed.
(** lenses that are carried along in the sense of C94, or mirrored in the sense of C106 *)
Lemma carried_is_moved t a b z f f' psi psi' k k' :
  (forall x y, carried_vector t a b f f' x y) -> (forall x y, carried t a b psi psi' x y) -> (forall x y, carried t a b k k' x y) ->
  moved_lens (turned t) a b (ThinLens z f psi k) (ThinLens z f' psi' k').
Proof.
  intros H1 H2 H3. split; [reflexivity|]. intros x y. assert (E : carry (turned t) a b (x, y) = motion t a b x y) by (unfold carry, apply, turned, motion, turn; cbn; f_equal; ring). rewrite E. cbv zeta. cbn [reduced_deflection_angle potential convergence].
  split; [|split; [apply H2|apply H3]]. rewrite (H1 x y). unfold turn, apply, turned. cbn. f_equal; ring.
Qed.
Lemma mirrored_is_moved z f f' psi psi' k k' :
  (forall x y, mirrored_vector f f' x y) -> (forall x y, mirrored psi psi' x y) -> (forall x y, mirrored k k' x y) ->
  moved_lens flipped_y 0 0 (ThinLens z f psi k) (ThinLens z f' psi' k').
Proof.
  intros H1 H2 H3. split; [reflexivity|]. intros x y. assert (E : carry flipped_y 0 0 (x, y) = (x, - y)) by (unfold carry, apply, flipped_y; cbn; f_equal; ring). rewrite E. cbv zeta. cbn [reduced_deflection_angle potential convergence fst snd].
  split; [|split; [apply H2|apply H3]]. rewrite (H1 x y). unfold flip, apply, flipped_y. cbn. f_equal; ring.
Qed.
