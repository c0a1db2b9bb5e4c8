(** * The light of a star, with and without a lens (C140) *)
From Coq Require Import Reals Lra Lia Psatz.
From Coquelicot Require Import Coquelicot.
From Verif Require Import Py PixMean_Spec MicroStat_Spec Star_Spec.
Local Open Scope R_scope.

(** ** Chords of a disc *)
Lemma sqrt_neg0 t : t <= 0 -> sqrt t = 0.
Proof. exact (sqrt_neg_0 t). Qed.
Lemma is_RInt_zero_ext (g : R -> R) a b : a <= b -> (forall t, a < t < b -> g t = 0) -> is_RInt g a b 0.
Proof.
  intros ab H. apply (is_RInt_ext (fun _ => 0)).
  - intros t. rewrite Rmin_left, Rmax_right by lra. intros T. symmetry. apply H. exact T.
  - assert (Q : is_RInt (fun _ : R => 0) a b ((b - a) * 0)) by exact (is_RInt_const (V := R_NormedModule) a b (0 : R)). rewrite Rmult_0_r in Q. exact Q.
Qed.
Lemma is_RInt_const_ext (g : R -> R) a b k : a <= b -> (forall t, a < t < b -> g t = k) -> is_RInt g a b (k * (b - a)).
Proof.
  intros ab H. apply (is_RInt_ext (fun _ => k)).
  - intros t. rewrite Rmin_left, Rmax_right by lra. intros T. symmetry. apply H. exact T.
  - rewrite Rmult_comm. exact (is_RInt_const (V := R_NormedModule) a b (k : R)).
Qed.
Lemma join (g : R -> R) a b c u v : is_RInt g a b u -> is_RInt g b c v -> is_RInt g a c (u + v).
Proof. intros A B. exact (is_RInt_Chasles (V := R_NormedModule) g a b c u v A B). Qed.
Lemma step (g : R -> R) a p q b k : a <= p -> p <= q -> q <= b -> (forall t, a < t < p -> g t = 0) -> (forall t, p < t < q -> g t = k) -> (forall t, q < t < b -> g t = 0) ->
  is_RInt g a b (k * (q - p)).
Proof.
  intros A B C H1 H2 H3. replace (k * (q - p)) with (0 + k * (q - p) + 0) by ring.
  eapply join; [eapply join|]; [apply is_RInt_zero_ext|apply is_RInt_const_ext|apply is_RInt_zero_ext]; assumption.
Qed.

Lemma is_RInt_eq (f : R -> R) a b (u v : R) : is_RInt f a b u -> u = v -> is_RInt f a b v.
Proof. intros H <-. exact H. Qed.
Lemma cos2_int : is_RInt (fun t => cos t ^ 2) (- (PI / 2)) (PI / 2) (PI / 2).
Proof.
  eapply is_RInt_eq.
  - apply (is_RInt_derive (V := R_CompleteNormedModule) (fun t => (t + sin t * cos t) / 2)).
    + intros t _. auto_derive; [trivial|]. assert (E := sin2_cos2 t). unfold Rsqr in E. nra.
    + intros t _. apply (ex_derive_continuous (fun t => cos t ^ 2)). auto_derive. trivial.
  - cbv beta. unfold minus, plus, opp; cbn -[PI]. rewrite cos_neg, cos_PI2. field.
Qed.
Lemma chord_continuous r (c x : R) : continuous (fun x => sqrt (r - (x - c) ^ 2)) x.
Proof.
  apply (continuous_comp (fun x => r - (x - c) ^ 2) sqrt); [|apply continuous_sqrt].
  apply (ex_derive_continuous (fun x => r - (x - c) ^ 2)). auto_derive. trivial.
Qed.
Lemma half_disc r c : 0 <= r -> is_RInt (fun x => sqrt (r ^ 2 - (x - c) ^ 2)) (c - r) (c + r) (PI * r ^ 2 / 2).
Proof.
  intros r0.
  assert (C : is_RInt (fun t => scal (r * cos t) (sqrt (r ^ 2 - ((c + r * sin t) - c) ^ 2))) (- (PI / 2)) (PI / 2)
     (RInt (fun x => sqrt (r ^ 2 - (x - c) ^ 2)) (c + r * sin (- (PI / 2))) (c + r * sin (PI / 2)))).
  { apply (is_RInt_comp (V := R_CompleteNormedModule) (fun x => sqrt (r ^ 2 - (x - c) ^ 2)) (fun t => c + r * sin t) (fun t => r * cos t)).
    - intros t _. apply chord_continuous.
    - intros t _. split; [auto_derive; [trivial|ring]|]. apply (ex_derive_continuous (fun t => r * cos t)). auto_derive. trivial. }
  rewrite sin_neg, sin_PI2 in C. replace (c + r * - (1)) with (c - r) in C by ring. rewrite Rmult_1_r in C.
  assert (D : is_RInt (fun t => scal (r * cos t) (sqrt (r ^ 2 - ((c + r * sin t) - c) ^ 2))) (- (PI / 2)) (PI / 2) (r ^ 2 * (PI / 2))).
  { apply (is_RInt_ext (fun t => scal (r ^ 2) (cos t ^ 2))); [|apply (is_RInt_scal (V := R_NormedModule)), cos2_int].
    intros t. assert (P := PI_RGT_0). rewrite Rmin_left, Rmax_right by lra. intros T.
    assert (K : 0 <= cos t) by (apply cos_ge_0; lra).
    replace (r ^ 2 - (c + r * sin t - c) ^ 2) with ((r * cos t) ^ 2).
    - rewrite sqrt_pow2 by nra. unfold scal; cbn; unfold mult; cbn. ring.
    - assert (E := sin2_cos2 t). unfold Rsqr in E. replace (c + r * sin t - c) with (r * sin t) by ring.
      replace (r ^ 2) with (r ^ 2 * (sin t * sin t + cos t * cos t)) by (rewrite E; ring). ring. }
  assert (E := is_RInt_unique _ _ _ _ C). rewrite (is_RInt_unique _ _ _ _ D) in E.
  replace (PI * r ^ 2 / 2) with (r ^ 2 * (PI / 2)) by field. rewrite E. apply (RInt_correct (V := R_CompleteNormedModule)).
  apply (ex_RInt_continuous (V := R_CompleteNormedModule)). intros x _. apply chord_continuous.
Qed.
Lemma disc_int r c a b : 0 <= r -> a <= c - r -> c + r <= b -> is_RInt (fun x => sqrt (r ^ 2 - (x - c) ^ 2)) a b (PI * r ^ 2 / 2).
Proof.
  intros r0 A B. replace (PI * r ^ 2 / 2) with (0 + PI * r ^ 2 / 2 + 0) by ring.
  eapply join; [eapply join|]; [apply is_RInt_zero_ext|apply half_disc|apply is_RInt_zero_ext]; try assumption.
  - intros t T. apply sqrt_neg0. nra.
  - intros t T. apply sqrt_neg0. nra.
Qed.
Lemma chord_le r1 r2 u : 0 <= r1 -> r1 <= r2 -> sqrt (r1 ^ 2 - u ^ 2) <= sqrt (r2 ^ 2 - u ^ 2).
Proof. intros A B. apply sqrt_le_1_alt. nra. Qed.
Lemma chord_r r u : 0 <= r -> sqrt (r ^ 2 - u ^ 2) <= r.
Proof. intros A. rewrite <- (sqrt_pow2 r A) at 2. apply sqrt_le_1_alt. nra. Qed.
Lemma chord_lt r u t : 0 <= t -> t < sqrt (r ^ 2 - u ^ 2) -> t ^ 2 + u ^ 2 < r ^ 2.
Proof.
  intros T H. destruct (Rle_dec (r ^ 2 - u ^ 2) 0) as [N | N]; [rewrite (sqrt_neg0 _ N) in H; lra|].
  assert (S := sqrt_sqrt (r ^ 2 - u ^ 2) ltac:(lra)). nra.
Qed.
Lemma chord_gt r u t : sqrt (r ^ 2 - u ^ 2) < t -> r ^ 2 < t ^ 2 + u ^ 2.
Proof.
  intros H. destruct (Rle_dec (r ^ 2 - u ^ 2) 0) as [N | N].
  - rewrite (sqrt_neg0 _ N) in H. nra.
  - assert (S := sqrt_sqrt (r ^ 2 - u ^ 2) ltac:(lra)). assert (Z := sqrt_pos (r ^ 2 - u ^ 2)). nra.
Qed.

(** ** Rings *)
Section Ring.
Variables (F : R -> R -> R) (cx cy r1 r2 k : R).
Hypotheses (H1 : 0 <= r1) (H2 : r1 <= r2).
Let d2 x y := (x - cx) ^ 2 + (y - cy) ^ 2.
(** bright between the two radii, dark outside; on the two circles and at the centre anything *)
Hypothesis bright : forall x y, r1 ^ 2 < d2 x y < r2 ^ 2 -> d2 x y <> 0 -> F x y = k.
Hypothesis dark : forall x y, d2 x y < r1 ^ 2 \/ r2 ^ 2 < d2 x y -> d2 x y <> 0 -> F x y = 0.
Let ch r x := sqrt (r ^ 2 - (x - cx) ^ 2).

Lemma off x y : y <> cy -> d2 x y <> 0.
Proof. intros N. unfold d2. assert (0 < (y - cy) ^ 2) by (apply pow2_gt_0; lra). assert (0 <= (x - cx) ^ 2) by apply pow2_ge_0. lra. Qed.
Lemma ring_inner c d x : c <= cy - r2 -> cy + r2 <= d -> is_RInt (F x) c d (2 * k * (ch r2 x - ch r1 x)).
Proof.
  intros C D. assert (L := chord_le r1 r2 (x - cx) H1 H2). assert (P := sqrt_pos (r1 ^ 2 - (x - cx) ^ 2)).
  assert (B2 := chord_r r2 (x - cx) ltac:(lra)). fold (ch r1 x) in L, P. fold (ch r2 x) in L, B2.
  replace (2 * k * (ch r2 x - ch r1 x)) with (k * ((cy - ch r1 x) - (cy - ch r2 x)) + k * ((cy + ch r2 x) - (cy + ch r1 x))) by ring.
  apply (join _ c cy d).
  - replace (k * (cy - ch r1 x - (cy - ch r2 x))) with (k * (cy - ch r1 x - (cy - ch r2 x)) + 0) by ring.
    apply (join _ c (cy - ch r1 x) cy); [|apply is_RInt_zero_ext; [lra|]].
    + apply step; try lra.
      * intros t T. apply dark; [right|apply off; lra]. unfold d2. assert (Q := chord_gt r2 (x - cx) (cy - t) ltac:(unfold ch in *; lra)). nra.
      * intros t T. apply bright; [|apply off; lra]. unfold d2. assert (Q := chord_gt r1 (x - cx) (cy - t) ltac:(unfold ch in *; lra)).
        assert (Q2 := chord_lt r2 (x - cx) (cy - t) ltac:(lra) ltac:(unfold ch in *; lra)). nra.
      * intros t T. exfalso; lra.
    + intros t T. apply dark; [left|apply off; lra]. unfold d2. assert (Q2 := chord_lt r1 (x - cx) (cy - t) ltac:(lra) ltac:(unfold ch in *; lra)). nra.
  - replace (k * (cy + ch r2 x - (cy + ch r1 x))) with (0 + k * (cy + ch r2 x - (cy + ch r1 x))) by ring.
    apply (join _ cy (cy + ch r1 x) d); [apply is_RInt_zero_ext; [lra|]|].
    + intros t T. apply dark; [left|apply off; lra]. unfold d2. assert (Q2 := chord_lt r1 (x - cx) (t - cy) ltac:(lra) ltac:(unfold ch in *; lra)). nra.
    + apply step; try lra.
      * intros t T. exfalso; lra.
      * intros t T. apply bright; [|apply off; lra]. unfold d2. assert (Q := chord_gt r1 (x - cx) (t - cy) ltac:(unfold ch in *; lra)).
        assert (Q2 := chord_lt r2 (x - cx) (t - cy) ltac:(lra) ltac:(unfold ch in *; lra)). nra.
      * intros t T. apply dark; [right|apply off; lra]. unfold d2. assert (Q := chord_gt r2 (x - cx) (t - cy) ltac:(unfold ch in *; lra)). nra.
Qed.
Lemma ring_light a b c d : holds_disc a b c d cx cy r2 -> light_is F a b c d (k * (PI * r2 ^ 2 - PI * r1 ^ 2)).
Proof.
  intros (A & B & C & D).
  assert (O : is_RInt (fun x => RInt (F x) c d) a b (k * (PI * r2 ^ 2 - PI * r1 ^ 2))).
  { apply (is_RInt_ext (fun x => scal (2 * k) (minus (ch r2 x) (ch r1 x)))).
    - intros x _. symmetry. apply is_RInt_unique. exact (ring_inner c d x C D).
    - eapply is_RInt_eq; [apply (is_RInt_scal (V := R_NormedModule)), (is_RInt_minus (V := R_NormedModule)); apply disc_int; lra|].
      unfold scal, minus, plus, opp; cbn -[PI]; unfold mult; cbn -[PI]. field. }
  split; [|unfold box; exact (is_RInt_unique _ _ _ _ O)].
  split; [|eexists; exact O]. intros u _. eexists. apply ring_inner; assumption.
Qed.
End Ring.
