From Coq Require Import Reals ZArith Bool Lra Lia.
From Coquelicot Require Import Coquelicot.
From Verif Require Import Interp1_Model.
Open Scope R_scope.

(** ** gluing two C1 functions *)
Definition glue (c : R) (f h : R -> R) (u : R) : R := if Rle_dec u c then f u else h u.

Lemma glue_left c f h u : u <= c -> glue c f h u = f u.
Proof. intros H; unfold glue. destruct (Rle_dec u c); [reflexivity|lra]. Qed.
Lemma glue_right c f h u : c < u -> glue c f h u = h u.
Proof. intros H; unfold glue. destruct (Rle_dec u c); [lra|reflexivity]. Qed.

Lemma locally_lt (a b : R) : a < b -> locally a (fun u => u < b).
Proof.
  intros H. assert (Hp : 0 < b - a) by lra. exists (mkposreal _ Hp). intros u Hu.
  change (Rabs (u - a) < b - a) in Hu. apply Rabs_def2 in Hu. lra.
Qed.
Lemma locally_gt (a b : R) : b < a -> locally a (fun u => b < u).
Proof.
  intros H. assert (Hp : 0 < a - b) by lra. exists (mkposreal _ Hp). intros u Hu.
  change (Rabs (u - a) < a - b) in Hu. apply Rabs_def2 in Hu. lra.
Qed.

Lemma derive_eps (f : R -> R) a l : is_derive f a l <->
  forall eps : posreal, locally a (fun u => Rabs (f u - f a - l * (u - a)) <= eps * Rabs (u - a)).
Proof.
  split.
  - intros [_ H] eps. specialize (H a (fun P H => H) eps). revert H. apply filter_imp. intros u Hu.
    change (Rabs (minus (minus (f u) (f a)) (scal (minus u a) l)) <= eps * Rabs (minus u a)) in Hu.
    change (Rabs ((f u - f a) - (u - a) * l) <= eps * Rabs (u - a)) in Hu.
    replace (f u - f a - l * (u - a)) with (f u - f a - (u - a) * l) by ring. exact Hu.
  - intros H. split; [apply is_linear_scal_l|]. intros z Hz eps.
    apply (is_filter_lim_locally_unique a z) in Hz. subst z.
    specialize (H eps). revert H. apply filter_imp. intros u Hu.
    change (Rabs ((f u - f a) - (u - a) * l) <= eps * Rabs (u - a)).
    replace (f u - f a - (u - a) * l) with (f u - f a - l * (u - a)) by ring. exact Hu.
Qed.
Lemma cont_eps (f : R -> R) a : continuous f a <->
  forall eps : posreal, locally a (fun u => Rabs (f u - f a) < eps).
Proof.
  split.
  - intros H eps. apply (H (fun v => Rabs (v - f a) < eps)). exists eps. intros v Hv. exact Hv.
  - intros H P [eps HP]. change (locally a (fun u => P (f u))). generalize (H eps). apply filter_imp. intros u Hu. apply HP. exact Hu.
Qed.

Lemma glue_derive c f h df dh : (forall u, is_derive f u (df u)) -> (forall u, is_derive h u (dh u)) ->
  f c = h c -> df c = dh c -> forall u, is_derive (glue c f h) u (glue c df dh u).
Proof.
  intros Hf Hh E DE u. destruct (Rlt_dec u c) as [L|L].
  - rewrite glue_left by lra. apply (is_derive_ext_loc f); [|apply Hf].
    generalize (locally_lt u c L). apply filter_imp. intros v Hv. rewrite glue_left by lra. reflexivity.
  - destruct (Rlt_dec c u) as [G|G].
    + rewrite glue_right by lra. apply (is_derive_ext_loc h); [|apply Hh].
      generalize (locally_gt u c G). apply filter_imp. intros v Hv. rewrite glue_right by lra. reflexivity.
    + assert (u = c) by lra; subst u. rewrite glue_left by lra. apply derive_eps. intros eps.
      rewrite (glue_left c f h c) by lra.
      generalize (filter_and _ _ (proj1 (derive_eps f c (df c)) (Hf c) eps) (proj1 (derive_eps h c (dh c)) (Hh c) eps)).
      apply filter_imp. intros v [H1 H2]. destruct (Rle_dec v c) as [Q|Q].
      * rewrite glue_left by lra. exact H1.
      * rewrite glue_right by lra. rewrite E, DE. exact H2.
Qed.
Lemma glue_cont c f h : (forall u, continuous f u) -> (forall u, continuous h u) -> f c = h c ->
  forall u, continuous (glue c f h) u.
Proof.
  intros Hf Hh E u. destruct (Rlt_dec u c) as [L|L].
  - apply (continuous_ext_loc _ f); [|apply Hf].
    generalize (locally_lt u c L). apply filter_imp. intros v Hv. rewrite glue_left by lra. reflexivity.
  - destruct (Rlt_dec c u) as [G|G].
    + apply (continuous_ext_loc _ h); [|apply Hh].
      generalize (locally_gt u c G). apply filter_imp. intros v Hv. rewrite glue_right by lra. reflexivity.
    + assert (u = c) by lra; subst u. apply cont_eps. intros eps. rewrite (glue_left c f h c) by lra.
      generalize (filter_and _ _ (proj1 (cont_eps f c) (Hf c) eps) (proj1 (cont_eps h c) (Hh c) eps)).
      apply filter_imp. intros v [H1 H2]. destruct (Rle_dec v c) as [Q|Q].
      * rewrite glue_left by lra. exact H1.
      * rewrite glue_right by lra. rewrite E. exact H2.
Qed.

(** ** Hermite cubic on one cell *)
Definition hermite (xa xb ya yb ma mb u : R) : R :=
  let dx := xb - xa in let t := (u - xa) / dx in
  h_poly t 0 * ya + h_poly t 1 * ma * dx + h_poly t 2 * yb + h_poly t 3 * mb * dx.
Definition dhermite (xa xb ya yb ma mb u : R) : R :=
  let dx := xb - xa in let t := (u - xa) / dx in
  ((- 6 * t + 6 * t ^ 2) * ya + (1 - 4 * t + 3 * t ^ 2) * ma * dx
   + (6 * t - 6 * t ^ 2) * yb + (- 2 * t + 3 * t ^ 2) * mb * dx) / dx.
Lemma hermite_derive xa xb ya yb ma mb u : xa <> xb ->
  is_derive (hermite xa xb ya yb ma mb) u (dhermite xa xb ya yb ma mb u).
Proof.
  intros H. unfold hermite, dhermite, h_poly. auto_derive; [lra|]. field. lra.
Qed.
Lemma dhermite_cont xa xb ya yb ma mb u : xa <> xb -> continuous (dhermite xa xb ya yb ma mb) u.
Proof.
  intros H. apply (ex_derive_continuous (dhermite xa xb ya yb ma mb)). unfold dhermite. auto_derive. lra.
Qed.
Lemma hermite_a xa xb ya yb ma mb : xa <> xb -> hermite xa xb ya yb ma mb xa = ya.
Proof. intros H. unfold hermite, h_poly. field. lra. Qed.
Lemma hermite_b xa xb ya yb ma mb : xa <> xb -> hermite xa xb ya yb ma mb xb = yb.
Proof. intros H. unfold hermite, h_poly. field. lra. Qed.
Lemma dhermite_a xa xb ya yb ma mb : xa <> xb -> dhermite xa xb ya yb ma mb xa = ma.
Proof. intros H. unfold dhermite. field. lra. Qed.
Lemma dhermite_b xa xb ya yb ma mb : xa <> xb -> dhermite xa xb ya yb ma mb xb = mb.
Proof. intros H. unfold dhermite. field. lra. Qed.
Lemma hermite_line xa xb a b u : xa <> xb -> hermite xa xb (a * xa + b) (a * xb + b) a a u = a * u + b.
Proof. intros H. unfold hermite, h_poly. field. lra. Qed.

(** ** the bin search *)
Definition increasing (n : nat) (x : nat -> R) : Prop := forall i j, (i < j < n)%nat -> x i < x j.

Lemma searchsorted_spec x k v : (forall i j, (i < j < k)%nat -> x i < x j) ->
  (searchsorted x k v <= k)%nat /\
  (forall i, (i < searchsorted x k v)%nat -> x i < v) /\
  (forall i, (searchsorted x k v <= i < k)%nat -> v <= x i).
Proof.
  induction k as [|k IH]; intros Hx; simpl.
  - split; [lia|]. split; intros; lia.
  - destruct IH as (A & B & C); [intros i j Hij; apply Hx; lia|].
    destruct (Rlt_dec (x k) v) as [L|L].
    + assert (E : searchsorted x k v = k).
      { destruct (Nat.eq_dec (searchsorted x k v) k) as [e|e]; [exact e|]. exfalso.
        assert (v <= x (searchsorted x k v)) by (apply C; lia).
        assert (x (searchsorted x k v) < x k) by (apply Hx; lia). lra. }
      rewrite E in *. split; [lia|]. split; [|intros; lia].
      intros i Hi. destruct (Nat.eq_dec i k); [subst; exact L|apply B; lia].
    + rewrite Nat.add_0_r. split; [lia|]. split; [exact B|]. intros i Hi.
      destruct (Nat.eq_dec i k); [subst; lra|apply C; lia].
Qed.

Section Table.
Variables (n : nat) (x y : nat -> R).
Hypothesis Hn : (2 <= n)%nat.
Hypothesis Hx : increasing n x.

Definition cell (i : nat) : R -> R := hermite (x i) (x (S i)) (y i) (y (S i)) (tangent n x y i) (tangent n x y (S i)).
Definition dcell (i : nat) : R -> R := dhermite (x i) (x (S i)) (y i) (y (S i)) (tangent n x y i) (tangent n x y (S i)).

Lemma x_step i : (S i < n)%nat -> x i <> x (S i).
Proof. intros H. assert (x i < x (S i)) by (apply Hx; lia). lra. Qed.

(** in cell i the code evaluates the cubic of that cell *)
Lemma raw_cell i xs : (S i < n)%nat -> x i < xs -> ((S (S i) < n)%nat -> xs <= x (S i)) ->
  interp1d_raw n x y xs = cell i xs.
Proof.
  intros Hi L U. destruct (searchsorted_spec x (n - 1) xs) as (A & B & C).
  { intros j k Hjk; apply Hx; lia. }
  assert (E : searchsorted x (n - 1) xs = S i).
  { destruct (lt_eq_lt_dec (searchsorted x (n - 1) xs) (S i)) as [[Q|Q]|Q]; [|exact Q|].
    - exfalso. assert (xs <= x i) by (apply C; lia). lra.
    - exfalso. assert (x (S i) < xs) by (apply B; lia). assert (xs <= x (S i)) by (apply U; lia). lra. }
  unfold interp1d_raw. rewrite E. replace (Z.of_nat (S i) - 1)%Z with (Z.of_nat i) by lia.
  replace (Z.of_nat i + 1)%Z with (Z.of_nat (S i)) by lia.
  assert (W : forall a k, wrap a n (Z.of_nat k) = a k).
  { intros a k. unfold wrap. destruct (Z.ltb_spec (Z.of_nat k) 0); [lia|]. rewrite Nat2Z.id. reflexivity. }
  rewrite !W. reflexivity.
Qed.

(** at or below the first knot the code evaluates the cubic between the last and the first knot *)
Lemma raw_below xs : xs <= x 0%nat ->
  interp1d_raw n x y xs =
  hermite (x (n - 1)%nat) (x 0%nat) (y (n - 1)%nat) (y 0%nat) (tangent n x y (n - 1)) (tangent n x y 0) xs.
Proof.
  intros H. destruct (searchsorted_spec x (n - 1) xs) as (A & B & C).
  { intros j k Hjk; apply Hx; lia. }
  assert (E : searchsorted x (n - 1) xs = 0%nat).
  { destruct (searchsorted x (n - 1) xs) as [|k] eqn:Q; [reflexivity|]. exfalso.
    assert (x 0%nat < xs) by (apply B; lia). lra. }
  unfold interp1d_raw. rewrite E. change (Z.of_nat 0 - 1)%Z with (-1)%Z. change (-1 + 1)%Z with 0%Z.
  assert (W1 : forall a, wrap a n (-1) = a (n - 1)%nat).
  { intros a. unfold wrap. change (-1 <? 0)%Z with true. cbv iota. f_equal. lia. }
  assert (W0 : forall a, wrap a n 0 = a 0%nat) by reflexivity.
  rewrite !W1, !W0. reflexivity.
Qed.

(** the spline: cells 0..k glued *)
Fixpoint spline (k : nat) : R -> R :=
  match k with O => cell 0 | S j => glue (x (S j)) (spline j) (cell (S j)) end.
Fixpoint dspline (k : nat) : R -> R :=
  match k with O => dcell 0 | S j => glue (x (S j)) (dspline j) (dcell (S j)) end.

Lemma spline_last k u : (S k < n)%nat -> x k < u -> spline k u = cell k u /\ dspline k u = dcell k u.
Proof.
  destruct k as [|k]; intros H1 H2; simpl; [tauto|]. rewrite !glue_right by exact H2. tauto.
Qed.
Lemma spline_cell k i u : (i <= k)%nat -> (S k < n)%nat -> x i < u -> ((i < k)%nat -> u <= x (S i)) -> spline k u = cell i u.
Proof.
  induction k as [|k IH]; intros Hi Hk L U.
  - replace i with 0%nat by lia. reflexivity.
  - destruct (Nat.eq_dec i (S k)) as [->|Hne]; [apply spline_last; assumption|].
    simpl. assert (Hu : u <= x (S i)) by (apply U; lia).
    assert (x (S i) <= x (S k)) by (destruct (Nat.eq_dec i k) as [->|]; [lra|apply Rlt_le, Hx; lia]).
    rewrite glue_left by lra. apply IH; [lia|lia|exact L|]. intros _; exact Hu.
Qed.
Lemma spline_C1 k : (S k < n)%nat ->
  (forall u, is_derive (spline k) u (dspline k u)) /\ (forall u, continuous (dspline k) u).
Proof.
  induction k as [|k IH]; intros Hk.
  - split; intros u; [apply hermite_derive|apply dhermite_cont]; apply x_step; lia.
  - destruct IH as [D C]; [lia|]. assert (Hk' : x k <> x (S k)) by (apply x_step; lia).
    assert (Hk2 : x (S k) <> x (S (S k))) by (apply x_step; lia).
    destruct (spline_last k (x (S k)) ltac:(lia)) as [E1 E2]; [apply Hx; lia|].
    simpl. split.
    + apply glue_derive; [exact D|intros u; apply hermite_derive; exact Hk2| |].
      * rewrite E1. unfold cell. rewrite hermite_b, hermite_a by assumption. reflexivity.
      * rewrite E2. unfold dcell. rewrite dhermite_b, dhermite_a by assumption. reflexivity.
    + apply glue_cont; [exact C|intros u; apply dhermite_cont; exact Hk2|].
      rewrite E2. unfold dcell. rewrite dhermite_b, dhermite_a by assumption. reflexivity.
Qed.

(** every query at or above the first knot lies in one cell *)
Lemma find_cell xs : x 0%nat < xs -> exists i, (S i < n)%nat /\ x i < xs /\ ((S (S i) < n)%nat -> xs <= x (S i)).
Proof.
  intros H. destruct (searchsorted_spec x (n - 1) xs) as (A & B & C).
  { intros j k Hjk; apply Hx; lia. }
  destruct (searchsorted x (n - 1) xs) as [|i] eqn:E.
  - exfalso. assert (xs <= x 0%nat) by (apply C; lia). lra.
  - exists i. split; [lia|]. split; [apply B; lia|]. intros Hs. apply C; lia.
Qed.

Lemma raw_first : interp1d_raw n x y (x 0%nat) = y 0%nat.
Proof.
  rewrite raw_below by lra. rewrite hermite_b; [reflexivity|].
  assert (x 0%nat < x (n - 1)%nat) by (apply Hx; lia). lra.
Qed.
Lemma raw_spline xs : x 0%nat <= xs -> interp1d_raw n x y xs = spline (n - 2) xs.
Proof.
  intros [H|<-].
  - destruct (find_cell xs H) as (i & Hi & L & U).
    rewrite (raw_cell i) by assumption. symmetry. apply spline_cell; [lia|lia|exact L|]. intros; apply U; lia.
  - rewrite raw_first.
    assert (G : forall k, (S k < n)%nat -> spline k (x 0%nat) = y 0%nat).
    { induction k as [|k IH]; intros Hk; simpl.
      - unfold cell. apply hermite_a, x_step; lia.
      - rewrite glue_left; [apply IH; lia|]. apply Rlt_le, Hx; lia. }
    symmetry. apply G. lia.
Qed.
Lemma raw_C1 : exists g dg, (forall u, is_derive g u (dg u)) /\ (forall u, continuous dg u) /\
  (forall xs, x 0%nat <= xs -> interp1d_raw n x y xs = g xs).
Proof.
  exists (spline (n - 2)), (dspline (n - 2)). destruct (spline_C1 (n - 2)) as [A B]; [lia|].
  split; [exact A|]. split; [exact B|]. exact raw_spline.
Qed.
Lemma raw_knot i : (i < n)%nat -> interp1d_raw n x y (x i) = y i.
Proof.
  destruct i as [|i]; intros Hi; [exact raw_first|].
  rewrite (raw_cell i); [apply hermite_b, x_step; lia|lia|apply Hx; lia|]. intros; lra.
Qed.
Lemma raw_line a b xs : (forall i, (i < n)%nat -> y i = a * x i + b) -> interp1d_raw n x y xs = a * xs + b.
Proof.
  intros Hy.
  assert (S1 : forall i, (S i < n)%nat -> slope x y i = a).
  { intros i Hi. unfold slope. rewrite !Hy by lia. assert (Hd := x_step i Hi). field. lra. }
  assert (T : forall i, (i < n)%nat -> tangent n x y i = a).
  { intros i Hi. unfold tangent. destruct (Nat.eqb_spec i 0); [apply S1; lia|].
    destruct (Nat.eqb_spec i (n - 1)); [apply S1; lia|]. rewrite !S1 by lia. field. }
  destruct (Rle_dec xs (x 0%nat)) as [L|L].
  - rewrite raw_below by exact L. rewrite !T, !Hy by lia. apply hermite_line.
    assert (x 0%nat < x (n - 1)%nat) by (apply Hx; lia). lra.
  - destruct (find_cell xs) as (i & Hi & A & B); [lra|]. rewrite (raw_cell i) by assumption.
    unfold cell. rewrite !T, !Hy by lia. apply hermite_line, x_step; lia.
Qed.
(** beyond the last knot the last cubic continues *)
Lemma raw_above xs : x (n - 1)%nat < xs -> interp1d_raw n x y xs = cell (n - 2) xs.
Proof.
  intros H. apply raw_cell; [lia| |intros; lia].
  assert (x (n - 2)%nat < x (n - 1)%nat) by (apply Hx; lia). lra.
Qed.
(** the cubic of a cell between values of the end slopes and the secant *)
Lemma dspline_cell k i u : (i <= k)%nat -> (S k < n)%nat -> x i < u -> ((i < k)%nat -> u <= x (S i)) -> dspline k u = dcell i u.
Proof.
  induction k as [|k IH]; intros Hi Hk L U.
  - replace i with 0%nat by lia. reflexivity.
  - destruct (Nat.eq_dec i (S k)) as [->|Hne]; [apply spline_last; assumption|].
    simpl. assert (Hu : u <= x (S i)) by (apply U; lia).
    assert (x (S i) <= x (S k)) by (destruct (Nat.eq_dec i k) as [->|]; [lra|apply Rlt_le, Hx; lia]).
    rewrite glue_left by lra. apply IH; [lia|lia|exact L|]. intros _; exact Hu.
Qed.
End Table.

(** ** statements used by the properties *)
Lemma mode_in_range n x y mode xs : xs <= x (n - 1)%nat -> interp1d n x y mode xs = interp1d_raw n x y xs.
Proof.
  intros H. destruct mode; simpl; try reflexivity; destruct (Rlt_dec (x (n - 1)%nat) xs); reflexivity || lra.
Qed.
Lemma knot_le_last n x i : increasing n x -> (i < n)%nat -> x i <= x (n - 1)%nat.
Proof.
  intros Hx Hi. destruct (Nat.eq_dec i (n - 1)) as [->|]; [lra|]. apply Rlt_le, Hx. lia.
Qed.
Lemma c1_all_modes n x y : (2 <= n)%nat -> increasing n x ->
  exists g dg, (forall u, is_derive g u (dg u)) /\ (forall u, continuous dg u) /\
  forall mode xs, x 0%nat <= xs <= x (n - 1)%nat -> interp1d n x y mode xs = g xs.
Proof.
  intros Hn Hx. destruct (raw_C1 n x y Hn Hx) as (g & dg & A & B & C). exists g, dg.
  split; [exact A|]. split; [exact B|]. intros mode xs H. rewrite mode_in_range by lra. apply C; lra.
Qed.
Lemma knots_all_modes n x y mode i : (2 <= n)%nat -> increasing n x -> (i < n)%nat -> interp1d n x y mode (x i) = y i.
Proof.
  intros Hn Hx Hi. rewrite mode_in_range by (apply knot_le_last; assumption). apply raw_knot; assumption.
Qed.
Lemma line_all_modes n x y mode a b xs : (2 <= n)%nat -> increasing n x ->
  (forall i, (i < n)%nat -> y i = a * x i + b) -> x 0%nat <= xs <= x (n - 1)%nat ->
  interp1d n x y mode xs = a * xs + b.
Proof.
  intros Hn Hx Hy H. rewrite mode_in_range by lra. apply raw_line; assumption.
Qed.
Lemma hermite_cubic xa xb ya yb ma mb : xa <> xb -> exists a0 a1 a2 a3,
  forall u, hermite xa xb ya yb ma mb u = a0 + a1 * u + a2 * u ^ 2 + a3 * u ^ 3.
Proof.
  intros H. set (d := xb - xa).
  exists (ya - ma * xa + (3 * (yb - ya) / d - 2 * ma - mb) / d * xa ^ 2 - (ma + mb - 2 * (yb - ya) / d) / d ^ 2 * xa ^ 3),
    (ma - 2 * ((3 * (yb - ya) / d - 2 * ma - mb) / d) * xa + 3 * ((ma + mb - 2 * (yb - ya) / d) / d ^ 2) * xa ^ 2),
    ((3 * (yb - ya) / d - 2 * ma - mb) / d - 3 * ((ma + mb - 2 * (yb - ya) / d) / d ^ 2) * xa),
    ((ma + mb - 2 * (yb - ya) / d) / d ^ 2).
  intros u. unfold hermite, h_poly. fold d. replace yb with (yb) by ring. field. unfold d. lra.
Qed.
Lemma last_cubic n x y : (2 <= n)%nat -> increasing n x -> exists a0 a1 a2 a3,
  forall xs, x (n - 2)%nat < xs -> interp1d n x y Extrapolate xs = a0 + a1 * xs + a2 * xs ^ 2 + a3 * xs ^ 3.
Proof.
  intros Hn Hx.
  assert (L : x (n - 2)%nat < x (S (n - 2))) by (apply Hx; lia).
  destruct (hermite_cubic (x (n - 2)%nat) (x (S (n - 2))) (y (n - 2)%nat) (y (S (n - 2)))
     (tangent n x y (n - 2)) (tangent n x y (S (n - 2))) ltac:(lra)) as (a0 & a1 & a2 & a3 & H).
  exists a0, a1, a2, a3. intros xs Hs. rewrite <- H. simpl. apply (raw_cell n x y Hn Hx); [lia|exact Hs|intros; lia].
Qed.

Definition wx (i : nat) : R := INR i.
Definition wy (i : nat) : R := INR i * INR i.
Lemma wx_incr : increasing 3 wx.
Proof. intros i j H. apply lt_INR. lia. Qed.
Lemma w_below u : u <= 0 -> interp1d_raw 3 wx wy u = hermite 2 0 4 0 3 1 u.
Proof.
  intros H. rewrite raw_below by (try exact wx_incr; try (unfold wx; simpl; lra); lia).
  assert (E1 : wx (3 - 1) = 2) by (unfold wx; simpl; ring). assert (E0 : wx 0 = 0) by reflexivity.
  assert (F1 : wy (3 - 1) = 4) by (unfold wy; simpl; ring). assert (F0 : wy 0 = 0) by (unfold wy; simpl; ring).
  assert (T1 : tangent 3 wx wy (3 - 1) = 3) by (unfold tangent, slope, wx, wy; simpl; field).
  assert (T0 : tangent 3 wx wy 0 = 1) by (unfold tangent, slope, wx, wy; simpl; field).
  rewrite E1, E0, F1, F0, T1, T0. reflexivity.
Qed.
Lemma w_at : interp1d_raw 3 wx wy (-1) = - / 2.
Proof. rewrite w_below by lra. unfold hermite, h_poly. field. Qed.
Lemma w_first u : 0 < u <= 1 -> interp1d_raw 3 wx wy u = u - u ^ 2 + u ^ 3.
Proof.
  intros H. rewrite (raw_cell 3 wx wy ltac:(lia) wx_incr 0) by (try (unfold wx; simpl; lra); lia).
  unfold cell.
  assert (T1 : tangent 3 wx wy 1 = 2) by (unfold tangent, slope, wx, wy; simpl; field).
  assert (T0 : tangent 3 wx wy 0 = 1) by (unfold tangent, slope, wx, wy; simpl; field).
  rewrite T1, T0. unfold hermite, h_poly, wx, wy; simpl. field.
Qed.
Lemma below_const : interp1d 3 wx wy Const (-1) <> wy 0.
Proof.
  rewrite mode_in_range by (unfold wx; simpl; lra). rewrite w_at. unfold wy; simpl. lra.
Qed.
Lemma below_linear : interp1d 3 wx wy Linear (-1) <> wy 0 + (-1 - wx 0) * (wy 1 - wy 0) / (wx 1 - wx 0).
Proof.
  rewrite mode_in_range by (unfold wx; simpl; lra). rewrite w_at. unfold wy, wx; simpl. lra.
Qed.
Lemma below_cubic a0 a1 a2 a3 :
  (forall u, wx 0 <= u <= wx 1 -> interp1d 3 wx wy Extrapolate u = a0 + a1 * u + a2 * u ^ 2 + a3 * u ^ 3) ->
  interp1d 3 wx wy Extrapolate (-1) <> a0 + a1 * (-1) + a2 * (-1) ^ 2 + a3 * (-1) ^ 3.
Proof.
  intros H. simpl in *. rewrite w_at. unfold wx in H; simpl in H.
  assert (H1 := H 1 ltac:(lra)). assert (H2 := H (/ 2) ltac:(lra)). assert (H3 := H (/ 4) ltac:(lra)).
  assert (H4 := H (3 / 4) ltac:(lra)). rewrite w_first in H1, H2, H3, H4 by lra. simpl in *. lra.
Qed.
