(** * The image search for affine lenses *)
From Coq Require Import Reals List Arith Lia Lra ZArith Psatz.
From Verif Require Import Py Fsum LM_Model Gauss_Model Tri_Model Tri_Spec Tri_Proofs Tri2_Proofs.
Import ListNotations.
Local Open Scope R_scope.
Lemma Rabs_le_between x y : Rabs x <= y <-> - y <= x <= y.
Proof. split; [intros H; split; [assert (Q := Rle_abs (- x)); rewrite Rabs_Ropp in Q; lra|assert (Q := Rle_abs x); lra]|intros H; apply Rabs_le; lra]. Qed.

(** ** the initial triangulation *)
Lemma linspace_value a b n i : (2 <= n)%nat -> linspace a b n i = a + INR i * ((b - a) / INR (n - 1)).
Proof. intros H. unfold linspace. destruct (Nat.leb_spec n 1); [lia|reflexivity]. Qed.
Lemma between_knots (x : nat -> R) m v : (1 <= m)%nat -> x 0%nat <= v <= x m -> exists i, (i < m)%nat /\ x i <= v <= x (S i).
Proof.
  induction m as [|m IH]; intros Hm H; [lia|]. destruct (Rle_dec (x m) v) as [L|L].
  - exists m. split; [lia|lra].
  - destruct m as [|m]; [lra|]. destruct (IH ltac:(lia) ltac:(lra)) as (i & Hi & B). exists i. split; [lia|exact B].
Qed.
Section Grid.
Variables (x0 y0 fov : R) (n : nat).
Hypotheses (Hf : 0 < fov) (Hn : (2 <= n)%nat).
Definition h := fov / INR (n - 1).
Lemma n1_pos : 0 < INR (n - 1).
Proof. apply (lt_INR 0). lia. Qed.
Lemma h_pos : 0 < h.
Proof. unfold h. apply Rdiv_lt_0_compat; [exact Hf|exact n1_pos]. Qed.
Definition gx (i : nat) : R := x0 - fov / 2 + INR i * h.
Definition gy (j : nat) : R := y0 - fov / 2 + INR j * h.
Definition upper (i j : nat) : tri := ((gx i, gy j), (gx i, gy (S j)), (gx (S i), gy (S j))).
Definition lower (i j : nat) : tri := ((gx i, gy j), (gx (S i), gy j), (gx (S i), gy (S j))).
Lemma in_initial p : In p (initial_triangles x0 y0 fov n) <->
  exists i j, (i < n - 1)%nat /\ (j < n - 1)%nat /\ (p = upper i j \/ p = lower i j).
Proof.
  unfold initial_triangles.
  assert (LX : forall i, linspace (x0 - fov / 2) (x0 + fov / 2) n i = gx i).
  { intros i. rewrite linspace_value by exact Hn. unfold gx, h. replace (x0 + fov / 2 - (x0 - fov / 2)) with fov by field. reflexivity. }
  assert (LY : forall i, linspace (y0 - fov / 2) (y0 + fov / 2) n i = gy i).
  { intros i. rewrite linspace_value by exact Hn. unfold gy, h. replace (y0 + fov / 2 - (y0 - fov / 2)) with fov by field. reflexivity. }
  assert (C : forall i j, In (i, j) (flat_map (fun i => map (fun j => (i, j)) (seq 0 (n - 1))) (seq 0 (n - 1))) <-> (i < n - 1)%nat /\ (j < n - 1)%nat).
  { intros i j. rewrite in_flat_map. split.
    - intros (i' & Hi & H). apply in_map_iff in H. destruct H as (j' & E & Hj). injection E as <- <-. apply in_seq in Hi, Hj. lia.
    - intros [Hi Hj]. exists i. split; [apply in_seq; lia|]. apply in_map_iff. exists j. split; [reflexivity|apply in_seq; lia]. }
  rewrite in_app_iff, !in_map_iff. split.
  - intros [([i j] & <- & H)|([i j] & <- & H)]; apply C in H; exists i, j; (split; [apply H|]; split; [apply H|]).
    + left. unfold upper. rewrite !LX, !LY. reflexivity.
    + right. unfold lower. rewrite !LX, !LY. reflexivity.
  - intros (i & j & Hi & Hj & [->| ->]).
    + left. exists (i, j). split; [unfold upper; rewrite !LX, !LY; reflexivity|apply C; auto].
    + right. exists (i, j). split; [unfold lower; rewrite !LX, !LY; reflexivity|apply C; auto].
Qed.
Lemma gx_S i : gx (S i) = gx i + h. Proof. unfold gx. rewrite S_INR. ring. Qed.
Lemma gy_S i : gy (S i) = gy i + h. Proof. unfold gy. rewrite S_INR. ring. Qed.
Lemma gx_last : gx (n - 1) = x0 + fov / 2. Proof. unfold gx, h. field. assert (P := n1_pos). lra. Qed.
Lemma gy_last : gy (n - 1) = y0 + fov / 2. Proof. unfold gy, h. field. assert (P := n1_pos). lra. Qed.
Lemma initial_orient p : In p (initial_triangles x0 y0 fov n) -> Rabs (orient p) = h ^ 2.
Proof.
  intros H. apply in_initial in H. destruct H as (i & j & _ & _ & [->| ->]); unfold orient, upper, lower; cbn [fst snd]; rewrite !gx_S, !gy_S.
  - replace (_ - _) with (- h ^ 2) by ring. rewrite Rabs_Ropp. apply Rabs_right. apply Rle_ge, pow2_ge_0.
  - replace (_ - _) with (h ^ 2) at 1 by ring. apply Rabs_right. apply Rle_ge, pow2_ge_0.
Qed.
Lemma initial_cover vx vy : Rabs (vx - x0) <= fov / 2 -> Rabs (vy - y0) <= fov / 2 ->
  exists p, In p (initial_triangles x0 y0 fov n) /\ in_triangle p (vx, vy).
Proof.
  intros Hx Hy. apply Rabs_le_between in Hx. apply Rabs_le_between in Hy.
  destruct (between_knots gx (n - 1) vx ltac:(lia)) as (i & Hi & Bx).
  { rewrite gx_last. unfold gx. cbn [INR]. lra. }
  destruct (between_knots gy (n - 1) vy ltac:(lia)) as (j & Hj & By).
  { rewrite gy_last. unfold gy. cbn [INR]. lra. }
  rewrite gx_S in Bx. rewrite gy_S in By. assert (P := h_pos).
  set (u := (vx - gx i) / h). set (w := (vy - gy j) / h).
  assert (Eu : vx = gx i + u * h) by (unfold u; field; lra). assert (Ew : vy = gy j + w * h) by (unfold w; field; lra).
  assert (Bu : 0 <= u <= 1). { split; apply Rmult_le_reg_r with h; lra. }
  assert (Bw : 0 <= w <= 1). { split; apply Rmult_le_reg_r with h; lra. }
  destruct (Rle_dec u w) as [L|L].
  - exists (upper i j). split; [apply in_initial; exists i, j; auto|]. unfold in_triangle, upper. exists (1 - w), (w - u), u. cbn [fst snd].
    rewrite !gx_S, !gy_S, Eu, Ew. repeat split; lra || ring.
  - exists (lower i j). split; [apply in_initial; exists i, j; auto|]. unfold in_triangle, lower. exists (1 - u), (u - w), w. cbn [fst snd].
    rewrite !gx_S, !gy_S, Eu, Ew. repeat split; lra || ring.
Qed.
Lemma gx_range i : (i <= n - 1)%nat -> x0 - fov / 2 <= gx i <= x0 + fov / 2.
Proof.
  intros H. assert (P := h_pos). assert (I : 0 <= INR i) by apply pos_INR. apply le_INR in H. rewrite <- gx_last. unfold gx. split; nra.
Qed.
Lemma gy_range i : (i <= n - 1)%nat -> y0 - fov / 2 <= gy i <= y0 + fov / 2.
Proof.
  intros H. assert (P := h_pos). assert (I : 0 <= INR i) by apply pos_INR. apply le_INR in H. rewrite <- gy_last. unfold gy. split; nra.
Qed.
Lemma convex_range lo hi a b c u v w : 0 <= a -> 0 <= b -> 0 <= c -> a + b + c = 1 -> lo <= u <= hi -> lo <= v <= hi -> lo <= w <= hi ->
  lo <= a * u + b * v + c * w <= hi.
Proof.
  intros Ha Hb Hc S Hu Hv Hw. split.
  - replace lo with (a * lo + b * lo + c * lo) by (rewrite <- !Rmult_plus_distr_r, S; ring).
    assert (a * lo <= a * u) by (apply Rmult_le_compat_l; lra). assert (b * lo <= b * v) by (apply Rmult_le_compat_l; lra).
    assert (c * lo <= c * w) by (apply Rmult_le_compat_l; lra). lra.
  - replace hi with (a * hi + b * hi + c * hi) by (rewrite <- !Rmult_plus_distr_r, S; ring).
    assert (a * u <= a * hi) by (apply Rmult_le_compat_l; lra). assert (b * v <= b * hi) by (apply Rmult_le_compat_l; lra).
    assert (c * w <= c * hi) by (apply Rmult_le_compat_l; lra). lra.
Qed.
Lemma initial_inside p v : In p (initial_triangles x0 y0 fov n) -> in_triangle p v -> Rabs (fst v - x0) <= fov / 2 /\ Rabs (snd v - y0) <= fov / 2.
Proof.
  intros H V. apply in_initial in H. destruct H as (i & j & Hi & Hj & [->| ->]); destruct V as (a & b & c & Ha & Hb & Hc & S & Ex & Ey);
  cbn [fst snd] in Ex, Ey; rewrite Ex, Ey; split; apply Rabs_le_between;
  [assert (R1 := convex_range (x0 - fov / 2) (x0 + fov / 2) a b c _ _ _ Ha Hb Hc S (gx_range i ltac:(lia)) (gx_range i ltac:(lia)) (gx_range (Datatypes.S i) ltac:(lia)))
  |assert (R1 := convex_range (y0 - fov / 2) (y0 + fov / 2) a b c _ _ _ Ha Hb Hc S (gy_range j ltac:(lia)) (gy_range (Datatypes.S j) ltac:(lia)) (gy_range (Datatypes.S j) ltac:(lia)))
  |assert (R1 := convex_range (x0 - fov / 2) (x0 + fov / 2) a b c _ _ _ Ha Hb Hc S (gx_range i ltac:(lia)) (gx_range (Datatypes.S i) ltac:(lia)) (gx_range (Datatypes.S i) ltac:(lia)))
  |assert (R1 := convex_range (y0 - fov / 2) (y0 + fov / 2) a b c _ _ _ Ha Hb Hc S (gy_range j ltac:(lia)) (gy_range j ltac:(lia)) (gy_range (Datatypes.S j) ltac:(lia)))]; lra.
Qed.
End Grid.

(** ** affine lenses *)
Section Affine.
Variables m11 m12 m21 m22 c1 c2 : R.
Hypothesis Hdet : m11 * m22 - m12 * m21 <> 0.
Notation raytrace := (affine_map m11 m12 m21 m22 c1 c2).
Variable xi : pt.
Notation s := (raytrace xi).
Lemma affine_orient p : orient (tmap raytrace p) = (m11 * m22 - m12 * m21) * orient p.
Proof. destruct p as [[p0 p1] p2]. unfold orient, tmap, affine_map. cbn [fst snd]. ring. Qed.
Lemma affine_in p : in_triangle (tmap raytrace p) s <-> in_triangle p xi.
Proof.
  destruct p as [[p0 p1] p2]. destruct xi as [x y]. unfold in_triangle, tmap, affine_map. cbn [fst snd]. split.
  - intros (a & b & c & Ha & Hb & Hc & S & Ex & Ey). exists a, b, c. repeat (split; [assumption|]).
    set (dx := x - (a * fst p0 + b * fst p1 + c * fst p2)). set (dy := y - (a * snd p0 + b * snd p1 + c * snd p2)).
    assert (E1 : m11 * dx + m12 * dy = 0).
    { unfold dx, dy. replace c1 with ((a + b + c) * c1) in Ex at 1 by (rewrite S; ring). lra. }
    assert (E2 : m21 * dx + m22 * dy = 0).
    { unfold dx, dy. replace c2 with ((a + b + c) * c2) in Ey at 1 by (rewrite S; ring). lra. }
    assert (D1 : dx * (m11 * m22 - m12 * m21) = 0) by (transitivity (m22 * (m11 * dx + m12 * dy) - m12 * (m21 * dx + m22 * dy)); [ring|rewrite E1, E2; ring]).
    assert (D2 : dy * (m11 * m22 - m12 * m21) = 0) by (transitivity (m11 * (m21 * dx + m22 * dy) - m21 * (m11 * dx + m12 * dy)); [ring|rewrite E1, E2; ring]).
    apply Rmult_integral in D1. apply Rmult_integral in D2. destruct D1 as [D1|]; [|contradiction]. destruct D2 as [D2|]; [|contradiction].
    unfold dx in D1. unfold dy in D2. split; lra.
  - intros (a & b & c & Ha & Hb & Hc & S & -> & ->). exists a, b, c. repeat (split; [assumption|]).
    replace a with (1 - b - c) by lra. split; ring.
Qed.
Lemma affine_located p : nondegenerate p -> (triangle_contains (tmap raytrace p) s = true <-> in_triangle p xi).
Proof.
  intros H. rewrite contains_iff; [apply affine_in|]. unfold nondegenerate. rewrite affine_orient. apply Rmult_integral_contrapositive. auto.
Qed.
Lemma in_refine E q : In q (refine E) -> exists p r, In p E /\ In r (triangle_neighbors p) /\ In q (triangle_upsample r).
Proof.
  unfold refine. intros H. apply in_flat_map in H. destruct H as (r & Hr & Hq).
  apply (sublist_in _ _ _ (keep_sublist triangle_equals _)) in Hr. apply in_flat_map in Hr. destruct Hr as (p & Hp & Hr). exists p, r. auto.
Qed.
Lemma refine_first p t q : In q (triangle_upsample p) -> In q (refine (p :: t)).
Proof.
  intros H. unfold refine. apply in_flat_map. exists p. split; [|exact H]. unfold remove_triangle_duplicates.
  assert (E : exists l, flat_map triangle_neighbors (p :: t) = p :: l) by (destruct p as [[p0 p1] p2]; eexists; reflexivity).
  destruct E as [l ->]. destruct (keep_first triangle_equals p l) as [t' ->]. left. reflexivity.
Qed.
Variables (x0 y0 fov : R) (n : nat).
Hypotheses (Hf : 0 < fov) (Hn : (2 <= n)%nat).
Hypotheses (Hx : Rabs (fst xi - x0) <= fov / 2) (Hy : Rabs (snd xi - y0) <= fov / 2).
Definition area0 : R := (fov / INR (n - 1)) ^ 2 / 2.
Lemma area0_pos : 0 < area0.
Proof. unfold area0. assert (P := h_pos fov n Hf Hn). unfold h in P. assert (Q := Rmult_lt_0_compat _ _ P P). cbn [pow]. lra. Qed.
Notation st := (stage raytrace s x0 y0 fov n).
Lemma stage_facts d : st d <> [] /\ forall p, In p (st d) -> nondegenerate p /\ in_triangle p xi /\ triangle_area p = area0 / 4 ^ d.
Proof.
  induction d as [|d [IN IF]].
  - cbn [stage]. assert (P := h_pos fov n Hf Hn).
    assert (ND : forall p, In p (initial_triangles x0 y0 fov n) -> nondegenerate p /\ triangle_area p = area0 / 4 ^ 0).
    { intros p Hp. apply initial_orient in Hp; try assumption. split.
      - intros Z. rewrite Z, Rabs_R0 in Hp. assert (Q := Rmult_lt_0_compat _ _ P P). cbn [pow] in Hp. lra.
      - rewrite area_orient, Hp. unfold area0, h. cbn [pow]. field. assert (Q := n1_pos n Hn). lra. }
    split.
    + destruct xi as [vx vy] eqn:EX. cbn [fst snd] in Hx, Hy. destruct (initial_cover x0 y0 fov n Hf Hn vx vy Hx Hy) as (p & Hp & V).
      intros Z. assert (I : In p (locate raytrace (raytrace (vx, vy)) (initial_triangles x0 y0 fov n))).
      { apply filter_In. split; [exact Hp|]. rewrite <- EX. apply affine_located; [apply ND, Hp|]. rewrite EX. exact V. }
      rewrite Z in I. destruct I.
    + intros p Hp. apply filter_In in Hp. destruct Hp as [Hp L]. destruct (ND p Hp) as [N1 N2]. split; [exact N1|]. split; [|exact N2]. apply affine_located; assumption.
  - cbn [stage].
    assert (ND : forall q, In q (refine (st d)) -> nondegenerate q /\ triangle_area q = area0 / 4 ^ S d).
    { intros q Hq. apply in_refine in Hq. destruct Hq as (p & r & Hp & Hr & Hq). destruct (IF p Hp) as (N1 & _ & A1).
      split.
      - unfold nondegenerate. rewrite (upsample_orient r q Hq), (neighbors_orient p r Hr). unfold nondegenerate in N1. lra.
      - rewrite (upsample_area r q Hq), (neighbors_area p r Hr), A1. cbn [pow]. field. apply pow_nonzero. lra. }
    split.
    + destruct (st d) as [|p t] eqn:E; [contradiction|]. destruct (IF p (or_introl eq_refl)) as (N1 & V & _).
      apply upsample_union in V. destruct V as (q & Hq & V). assert (Rq := refine_first p t q Hq).
      intros Z. assert (I : In q (locate raytrace s (refine (p :: t)))).
      { apply filter_In. split; [exact Rq|]. apply affine_located; [apply ND, Rq|exact V]. }
      rewrite Z in I. destruct I.
    + intros p Hp. apply filter_In in Hp. destruct Hp as [Hp L]. destruct (ND p Hp) as [N1 N2]. split; [exact N1|]. split; [|exact N2]. apply affine_located; assumption.
Qed.
Variables (rootfind : pt -> list pt -> result (list pt)) (epsilon : R).
Lemma pow4_pos k : 0 < 4 ^ k. Proof. apply pow_lt. lra. Qed.
(** the search from stage d on *)
Lemma search_stage left first E Emid d : st d = locate raytrace s (if first : bool then E else refine E) ->
  (forall g, exists l, rootfind s g = Ok l /\ length l = length g) ->
  exists r, search raytrace rootfind s epsilon left first E Emid = Ok r /\
    (area0 / 4 ^ (d + left) < epsilon ^ 2 -> exists l, r = Some l) /\
    (Emid = None -> epsilon ^ 2 <= area0 / 4 ^ (d + left) -> r = None).
Proof.
  intros Hd Hroot. revert first E Emid d Hd. induction left as [|left IH]; intros first E Emid d Hd; cbn [search]; cbv zeta; rewrite <- Hd.
  all: destruct (stage_facts d) as [NE F]; destruct (st d) as [|p t] eqn:E0; [contradiction|].
  all: destruct (F p (or_introl eq_refl)) as (_ & _ & AP).
  all: destruct (rlt (triangle_area p) (epsilon ^ 2)) eqn:EA; cbn [bind].
  1,3: destruct (Hroot (map centroid (p :: t))) as (l & -> & Hl); cbn [bind]; rewrite map_length in Hl; rewrite Hl, Nat.eqb_refl; cbn [negb].
  1,2: destruct (_ && _)%bool; cbn [bind].
  - eexists. split; [reflexivity|]. split; [eauto|]. intros _ H. rewrite Nat.add_0_r in H. apply rlt_true in EA. lra.
  - eexists. split; [reflexivity|]. split; [eauto|]. intros _ H. rewrite Nat.add_0_r in H. apply rlt_true in EA. lra.
  - eexists. split; [reflexivity|]. split; [eauto|]. intros _ H. apply rlt_true in EA. rewrite AP in EA. exfalso.
    assert (area0 / 4 ^ (d + S left) <= area0 / 4 ^ d); [|lra].
    apply Rmult_le_compat_l; [left; apply area0_pos|]. apply Rinv_le_contravar; [apply pow4_pos|]. apply Rle_pow; [lra|lia].
  - destruct (IH false (p :: t) (Some (filter (fun e => rlt (norm2 (psub (raytrace e) s)) epsilon) l)) (S d)) as (r & -> & H1 & H2).
    + cbn [stage]. rewrite E0. reflexivity.
    + exists r. split; [reflexivity|]. split.
      * intros H. rewrite <- Nat.add_succ_comm in H. auto.
      * intros _ H. exfalso. apply rlt_true in EA. rewrite AP in EA.
        assert (area0 / 4 ^ (d + S left) <= area0 / 4 ^ d); [|lra].
        apply Rmult_le_compat_l; [left; apply area0_pos|]. apply Rinv_le_contravar; [apply pow4_pos|]. apply Rle_pow; [lra|lia].
  - eexists. split; [reflexivity|]. rewrite Nat.add_0_r. apply rlt_false in EA. split; [lra|auto].
  - destruct (IH false (p :: t) Emid (S d)) as (r & -> & H1 & H2).
    + cbn [stage]. rewrite E0. reflexivity.
    + exists r. split; [reflexivity|]. rewrite <- Nat.add_succ_comm. split; assumption.
Qed.
Lemma affine_returns max_depth : (forall g, exists l, rootfind s g = Ok l /\ length l = length g) ->
  (area0 / 4 ^ max_depth < epsilon ^ 2 -> exists l, forward_raytrace raytrace rootfind s epsilon x0 y0 fov n max_depth = Ok l) /\
  (epsilon ^ 2 <= area0 / 4 ^ max_depth -> forward_raytrace raytrace rootfind s epsilon x0 y0 fov n max_depth = Raise NameError).
Proof.
  intros Hroot. destruct (search_stage max_depth true (initial_triangles x0 y0 fov n) None 0 eq_refl Hroot) as (r & E & H1 & H2).
  unfold forward_raytrace. rewrite E. cbn [bind]. cbn [Nat.add] in H1, H2. split.
  - intros H. destruct (H1 H) as [l ->]. eexists. reflexivity.
  - intros H. rewrite (H2 eq_refl H). reflexivity.
Qed.
(** with a perfect root finder exactly the image is found *)
Lemma keep_repeat k : 0 < epsilon -> remove_duplicate_points (repeat xi (S k)) epsilon = [xi].
Proof.
  intros He. unfold remove_duplicate_points. induction k as [|k IH]; [reflexivity|].
  replace (repeat xi (S (S k))) with (repeat xi (S k) ++ [xi]) by (change [xi] with (repeat xi 1); rewrite <- repeat_app; f_equal; lia).
  rewrite keep_snoc, IH. unfold kstep. cbn [existsb].
  assert (Z : norm2 (psub xi xi) = 0) by (unfold norm2, psub; cbn [fst snd]; rewrite !Rminus_eq_0; match goal with |- sqrt ?e = 0 => replace e with 0 by ring end; apply sqrt_0).
  rewrite Z. unfold rlt. destruct (Rlt_dec 0 epsilon); [reflexivity|contradiction].
Qed.
Lemma search_exact left first E Emid d : st d = locate raytrace s (if first : bool then E else refine E) -> 0 < epsilon ->
  (forall g, rootfind s g = Ok (repeat xi (length g))) -> area0 / 4 ^ (d + left) < epsilon ^ 2 ->
  exists k, search raytrace rootfind s epsilon left first E Emid = Ok (Some (repeat xi (S k))).
Proof.
  intros Hd He Hroot. revert first E Emid d Hd. induction left as [|left IH]; intros first E Emid d Hd HA; cbn [search]; cbv zeta; rewrite <- Hd.
  all: destruct (stage_facts d) as [NE F]; destruct (st d) as [|p t] eqn:E0; [contradiction|].
  all: destruct (F p (or_introl eq_refl)) as (_ & _ & AP).
  all: assert (IN : forall l k, (forall q, In q l -> nondegenerate q /\ in_triangle q xi) -> all_inside l (repeat xi k) = true)
    by (intros l; unfold all_inside; induction l as [|q l IHl]; intros [|k] HH; try reflexivity; cbn;
        rewrite IHl by (intros; apply HH; right; assumption); rewrite Bool.andb_true_r; apply contains_iff; apply HH; left; reflexivity).
  all: assert (AC : forall k, allclose (map raytrace (repeat xi k)) s epsilon = true)
    by (intros k; unfold allclose; induction k as [|k IHk]; [reflexivity|]; cbn [repeat map forallb]; rewrite IHk, !Rminus_eq_0, Rabs_R0;
        assert (P1 := Rabs_pos (fst s)); assert (P2 := Rabs_pos (snd s));
        destruct (Rle_dec 0 (epsilon + 1 / 10 ^ 5 * Rabs (fst s))); [|lra]; destruct (Rle_dec 0 (epsilon + 1 / 10 ^ 5 * Rabs (snd s))); [reflexivity|lra]).
  all: destruct (rlt (triangle_area p) (epsilon ^ 2)) eqn:EA; cbn [bind].
  1,3: rewrite Hroot; cbn [bind]; rewrite repeat_length, map_length, Nat.eqb_refl; cbn [negb];
       rewrite IN, AC by (intros q Hq; destruct (F q Hq) as (Q1 & Q2 & _); auto); cbn [andb bind]; exists (length t); reflexivity.
  - exfalso. rewrite Nat.add_0_r in HA. apply rlt_false in EA. lra.
  - apply (IH false (p :: t) Emid (S d)).
    + cbn [stage]. rewrite E0. reflexivity.
    + rewrite Nat.add_succ_comm. exact HA.
Qed.
Lemma affine_exact max_depth : 0 < epsilon -> (forall g, rootfind s g = Ok (repeat xi (length g))) -> area0 / 4 ^ max_depth < epsilon ^ 2 ->
  forward_raytrace raytrace rootfind s epsilon x0 y0 fov n max_depth = Ok [xi].
Proof.
  intros He Hr HA. destruct (search_exact max_depth true (initial_triangles x0 y0 fov n) None 0 eq_refl He Hr HA) as (k & E).
  unfold forward_raytrace. rewrite E. cbn [bind]. rewrite keep_repeat by exact He. reflexivity.
Qed.
End Affine.

(** ** sources without an image in the field *)
Lemma outside_crash m11 m12 m21 m22 c1 c2 xi x0 y0 fov n : m11 * m22 - m12 * m21 <> 0 -> 0 < fov -> (2 <= n)%nat ->
  fov / 2 < Rabs (fst xi - x0) \/ fov / 2 < Rabs (snd xi - y0) -> forall rootfind epsilon max_depth,
  forward_raytrace (affine_map m11 m12 m21 m22 c1 c2) rootfind (affine_map m11 m12 m21 m22 c1 c2 xi) epsilon x0 y0 fov n max_depth = Raise IndexError.
Proof.
  intros Hdet Hf Hn Hout rootfind epsilon max_depth.
  assert (L : locate (affine_map m11 m12 m21 m22 c1 c2) (affine_map m11 m12 m21 m22 c1 c2 xi) (initial_triangles x0 y0 fov n) = []).
  { destruct (locate _ _ _) as [|p t] eqn:E; [reflexivity|exfalso].
    assert (I : In p (p :: t)) by (left; reflexivity). rewrite <- E in I. apply filter_In in I. destruct I as [I C].
    assert (O := initial_orient x0 y0 fov n Hn p I). assert (P := h_pos fov n Hf Hn).
    apply affine_located in C; try assumption.
    - destruct (initial_inside x0 y0 fov n Hf Hn p xi I C). lra.
    - intros Z. rewrite Z, Rabs_R0 in O. assert (Q := Rmult_lt_0_compat _ _ P P). cbn [pow] in O. lra. }
  unfold forward_raytrace. destruct max_depth; cbn [search]; cbv zeta; rewrite L; reflexivity.
Qed.
