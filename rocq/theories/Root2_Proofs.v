(** * The image search with its own root finder, for affine lenses *)
From Coq Require Import Reals List Arith Lia Lra Psatz.
From Verif Require Import Py Fsum LM_Model LM_Spec Gauss_Model Tri_Model Tri_Spec Tri_Proofs Tri2_Proofs Tri3_Proofs Root_Spec Root_Proofs.
Import ListNotations.
Local Open Scope R_scope.

(** ** the size of the triangles *)
Definition span (p q : pt) (w : R) : Prop := - w <= fst p - fst q <= w /\ - w <= snd p - snd q <= w.
Definition extent (p : tri) (w : R) : Prop := let '(p0, p1, p2) := p in span p0 p1 w /\ span p1 p2 w /\ span p2 p0 w.
Lemma extent_neighbors p q w : extent p w -> In q (triangle_neighbors p) -> extent q w.
Proof.
  destruct p as [[[a0 b0] [a1 b1]] [a2 b2]]. unfold extent, span. cbn [fst snd]. intros H I. cbn in I.
  repeat (destruct I as [<-|I]; [unfold padd, psub, pscale; cbn [fst snd]; repeat split; lra|]). destruct I.
Qed.
Lemma extent_upsample p q w : extent p w -> In q (triangle_upsample p) -> extent q (w / 2).
Proof.
  destruct p as [[[a0 b0] [a1 b1]] [a2 b2]]. unfold extent, span. cbn [fst snd]. intros H I. cbn in I.
  repeat (destruct I as [<-|I]; [unfold padd, psub, pscale; cbn [fst snd]; repeat split; lra|]). destruct I.
Qed.
Lemma extent_initial x0 y0 fov n p : 0 < fov -> (2 <= n)%nat -> In p (initial_triangles x0 y0 fov n) -> extent p (fov / INR (n - 1)).
Proof.
  intros Hf Hn H. assert (P := h_pos fov n Hf Hn). apply in_initial in H; [|exact Hn]. destruct H as (i & j & _ & _ & [->| ->]); unfold upper, lower, extent, span; cbn [fst snd]; unfold gx, gy; rewrite ?S_INR; fold (h fov n);
    change (fov / INR (n - 1)) with (h fov n); repeat split; lra.
Qed.
Lemma extent_inside p v w : extent p w -> in_triangle p v -> span (centroid p) v w.
Proof.
  destruct p as [[[a0 b0] [a1 b1]] [a2 b2]], v as [x y]. unfold extent, span, in_triangle, centroid, pscale, padd. cbn [fst snd].
  intros ((X1 & Y1) & (X2 & Y2) & X3 & Y3) (a & b & c & Ha & Hb & Hc & S & -> & ->).
  assert (G : forall u0 u1 u2, - w <= u0 - u1 <= w -> - w <= u1 - u2 <= w -> - w <= u2 - u0 <= w ->
    - w <= 1 / 3 * (u0 + u1 + u2) - (a * u0 + b * u1 + c * u2) <= w).
  { intros u0 u1 u2 U1 U2 U3. set (m := 1 / 3 * (u0 + u1 + u2)).
    assert (B0 : m - w <= u0 <= m + w) by (unfold m; lra). assert (B1 : m - w <= u1 <= m + w) by (unfold m; lra). assert (B2 : m - w <= u2 <= m + w) by (unfold m; lra).
    assert (C := convex_range (m - w) (m + w) a b c u0 u1 u2 Ha Hb Hc S B0 B1 B2). lra. }
  split; apply G; assumption.
Qed.
Lemma span_distance p q w : span p q w -> distance p q <= sqrt 2 * w.
Proof.
  intros [X Y]. assert (W : 0 <= w) by lra. assert (S2 := sqrt_pos 2). apply dist_le; [apply Rmult_le_pos; assumption|].
  rewrite Rpow_mult_distr, pow2_sqrt by lra. assert (A : (fst p - fst q) ^ 2 <= w ^ 2) by nra. assert (B : (snd p - snd q) ^ 2 <= w ^ 2) by nra. lra.
Qed.

Section Affine.
Variables m11 m12 m21 m22 c1 c2 : R.
Hypothesis Hdet : m11 * m22 - m12 * m21 <> 0.
Notation raytrace := (affine_map m11 m12 m21 m22 c1 c2).
Variable xi : pt.
Notation s := (raytrace xi).
Variables (x0 y0 fov : R) (n : nat).
Hypotheses (Hf : 0 < fov) (Hn : (2 <= n)%nat).
Hypotheses (Hx : Rabs (fst xi - x0) <= fov / 2) (Hy : Rabs (snd xi - y0) <= fov / 2).
Notation st := (stage raytrace s x0 y0 fov n).
Notation area0 := (area0 fov n).
Lemma stage_extent d : forall p, In p (st d) -> extent p (fov / INR (n - 1) / 2 ^ d).
Proof.
  induction d as [|d IH]; intros p Hp; cbn [stage] in Hp; apply filter_In in Hp; destruct Hp as [Hp _].
  - cbn [pow]. unfold Rdiv at 1. rewrite Rinv_1, Rmult_1_r. apply (extent_initial x0 y0); assumption.
  - apply in_refine in Hp. destruct Hp as (q & r & Hq & Hr & Hp). replace (fov / INR (n - 1) / 2 ^ S d) with (fov / INR (n - 1) / 2 ^ d / 2).
    + apply (extent_upsample r); [|exact Hp]. apply (extent_neighbors q); [apply IH, Hq|exact Hr].
    + cbn [pow]. assert (Q := n1_pos n Hn). assert (Q2 : 2 ^ d <> 0) by (apply pow_nonzero; lra). field. split; lra || assumption.
Qed.
Variables (rootfind : pt -> list pt -> result (list pt)) (epsilon delta bb : R).
Hypothesis He : 0 < epsilon.
Lemma stage_centres d p : area0 / 4 ^ d < epsilon ^ 2 -> In p (st d) -> distance (centroid p) xi <= 2 * epsilon.
Proof.
  intros HA Hp. assert (E := stage_extent d p Hp). destruct (stage_facts m11 m12 m21 m22 c1 c2 Hdet xi x0 y0 fov n Hf Hn Hx Hy d) as [_ F]. destruct (F p Hp) as (_ & V & _).
  set (w := fov / INR (n - 1) / 2 ^ d) in *. assert (D := span_distance _ _ _ (extent_inside _ _ _ E V)). eapply Rle_trans; [exact D|].
  assert (W : 0 < w). { unfold w. apply Rdiv_lt_0_compat; [apply (h_pos fov n Hf Hn)|apply pow_lt; lra]. }
  assert (A : w ^ 2 / 2 < epsilon ^ 2). { replace (w ^ 2 / 2) with (area0 / 4 ^ d); [exact HA|]. unfold w, Tri3_Proofs.area0. replace (4 ^ d) with ((2 ^ d) ^ 2) by (rewrite <- pow_mult, Nat.mul_comm, pow_mult; f_equal; lra).
    assert (Q := n1_pos n Hn). assert (Q2 : 2 ^ d <> 0) by (apply pow_nonzero; lra). field. split; lra || assumption. }
  assert (S2 := sqrt_pos 2). apply Rsqr_incr_0_var; [|lra]. unfold Rsqr. replace (sqrt 2 * w * (sqrt 2 * w)) with (sqrt 2 ^ 2 * w ^ 2) by ring. rewrite pow2_sqrt by lra. nra.
Qed.
Hypothesis Hroot : forall g, (forall e, In e g -> distance e xi <= 2 * epsilon) -> exists l, rootfind s g = Ok l /\ length l = length g /\ forall e, In e l -> distance e xi <= delta.
Hypothesis Hb : forall e, distance (raytrace e) s <= bb * distance e xi.
Hypotheses (Hbb : 0 <= bb) (Hd1 : bb * delta < epsilon) (Hd2 : 2 * delta < epsilon).
Lemma search_near left first E Emid d : st d = locate raytrace s (if first : bool then E else refine E) -> area0 / 4 ^ (d + left) < epsilon ^ 2 ->
  exists x t, search raytrace rootfind s epsilon left first E Emid = Ok (Some (x :: t)) /\ forall e, In e (x :: t) -> distance e xi <= delta.
Proof.
  revert first E Emid d.
  assert (KEEP : forall l, (forall e, In e l -> distance e xi <= delta) -> filter (fun e => rlt (norm2 (psub (raytrace e) s)) epsilon) l = l).
  { intros l. induction l as [|e l IHl]; intros HL; [reflexivity|]. cbn [filter]. rewrite IHl by (intros; apply HL; right; assumption).
    assert (Q : rlt (norm2 (psub (raytrace e) s)) epsilon = true); [|rewrite Q; reflexivity]. apply rlt_true. rewrite distance_norm.
    eapply Rle_lt_trans; [apply Hb|]. eapply Rle_lt_trans; [|exact Hd1]. apply Rmult_le_compat_l; [exact Hbb|]. apply HL. left. reflexivity. }
  assert (ROOT : forall d, area0 / 4 ^ d < epsilon ^ 2 -> exists l, rootfind s (map centroid (st d)) = Ok l /\ length l = length (st d) /\ forall e, In e l -> distance e xi <= delta).
  { intros d Hd. destruct (Hroot (map centroid (st d))) as (l & R1 & R2 & R3).
    - intros e I. apply in_map_iff in I. destruct I as (p & <- & I). apply (stage_centres d); assumption.
    - rewrite map_length in R2. eauto. }
  induction left as [|left IH]; intros first E Emid d Hd HA; cbn [search]; cbv zeta; rewrite <- Hd.
  all: destruct (stage_facts m11 m12 m21 m22 c1 c2 Hdet xi x0 y0 fov n Hf Hn Hx Hy d) as [NE F]; assert (RD := ROOT d); destruct (st d) as [|p t] eqn:E0; [contradiction|].
  all: destruct (F p (or_introl eq_refl)) as (_ & _ & AP).
  all: destruct (rlt (triangle_area p) (epsilon ^ 2)) eqn:EA; cbn [bind].
  1,3: rewrite rlt_true, AP in EA; destruct (RD EA) as (l & -> & Hl & HL); cbn [bind]; rewrite Hl, Nat.eqb_refl; cbn [negb]; rewrite (KEEP l HL); destruct l as [|x l]; [discriminate|].
  1,2: destruct (_ && _)%bool; cbn [bind].
  - exists x, l. split; [reflexivity|exact HL].
  - exists x, l. split; [reflexivity|exact HL].
  - exists x, l. split; [reflexivity|exact HL].
  - apply (IH false (p :: t) (Some (x :: l)) (S d)); [cbn [stage]; rewrite E0; reflexivity|]. rewrite Nat.add_succ_comm. exact HA.
  - exfalso. rewrite Nat.add_0_r in HA. apply rlt_false in EA. lra.
  - apply (IH false (p :: t) Emid (S d)); [cbn [stage]; rewrite E0; reflexivity|]. rewrite Nat.add_succ_comm. exact HA.
Qed.
Lemma one_kept x t : (forall e, In e (x :: t) -> distance e xi <= delta) -> remove_duplicate_points (x :: t) epsilon = [x].
Proof.
  intros H. unfold remove_duplicate_points. induction t as [|e t IH] using rev_ind; [reflexivity|].
  change (x :: t ++ [e]) with ((x :: t) ++ [e]). rewrite keep_snoc, IH.
  - unfold kstep. cbn [existsb]. assert (Q : rlt (norm2 (psub e x)) epsilon = true).
    { apply rlt_true. rewrite distance_norm. assert (T := dist_triangle e xi x). rewrite (dist_sym xi x) in T.
      assert (H1 := H x ltac:(left; reflexivity)). assert (H2 := H e ltac:(right; apply in_or_app; right; left; reflexivity)). lra. }
    rewrite Q. reflexivity.
  - intros e' [I|I]; apply H; [left; exact I|right; apply in_or_app; left; exact I].
Qed.
Lemma affine_near max_depth : area0 / 4 ^ max_depth < epsilon ^ 2 ->
  exists x, forward_raytrace raytrace rootfind s epsilon x0 y0 fov n max_depth = Ok [x] /\ distance x xi <= delta.
Proof.
  intros HA. destruct (search_near max_depth true (initial_triangles x0 y0 fov n) None 0 eq_refl HA) as (x & t & E & H).
  exists x. split; [|apply H; left; reflexivity]. unfold forward_raytrace. rewrite E. cbn [bind]. rewrite one_kept by exact H. reflexivity.
Qed.
End Affine.

Lemma reach_mono a r r' : r <= r' -> reach a r <= reach a r'.
Proof.
  intros H. unfold reach. assert (A := pow2_ge_0 a). apply Rmax_lub; [apply Rmax_l|]. eapply Rle_trans; [|apply Rmax_r].
  unfold Rdiv. apply Rmult_le_compat_r; [|exact H]. left. apply Rinv_0_lt_compat, pow_lt. assert (0 <= 10 ^ 9 * a ^ 2) by (apply Rmult_le_pos; [lra|exact A]). lra.
Qed.
(** the search as it is called: its own root finder *)
Lemma search_finds solve m11 m12 m21 m22 c1 c2 a b xi x0 y0 fov n epsilon max_depth : let raytrace := affine_map m11 m12 m21 m22 c1 c2 in
  solver_ok 2 solve -> 0 < a -> stretches raytrace a b -> 0 < fov -> (2 <= n)%nat -> Rabs (fst xi - x0) <= fov / 2 -> Rabs (snd xi - y0) <= fov / 2 ->
  0 < epsilon -> b * reach a (2 * epsilon) < epsilon -> 2 * reach a (2 * epsilon) < epsilon -> (fov / INR (n - 1)) ^ 2 / 2 / 4 ^ max_depth < epsilon ^ 2 ->
  exists x, forward_raytrace raytrace (forward_raytrace_rootfind solve raytrace) (raytrace xi) epsilon x0 y0 fov n max_depth = Ok [x] /\
    distance x xi <= reach a (2 * epsilon).
Proof.
  intros raytrace Hs Ha Hst Hf Hn Hx Hy He Hd1 Hd2 HA.
  assert (Hdet : m11 * m22 - m12 * m21 <> 0).
  { intros Z. assert (SF := stretch_form m11 m12 m21 m22 c1 c2 a b Ha Hst). assert (A2 : 0 < a ^ 2) by (apply pow_lt, Ha).
    assert (S1 := SF m22 (- m21)). assert (S2 := SF m12 (- m11)). assert (S3 := SF 1 0). assert (S4 := SF 0 1).
    replace (m11 * m22 + m12 * - m21) with 0 in S1 by lra. replace (m21 * m22 + m22 * - m21) with 0 in S1 by ring.
    replace (m11 * m12 + m12 * - m11) with 0 in S2 by ring. replace (m21 * m12 + m22 * - m11) with 0 in S2 by lra.
    assert (Q1 := pow2_ge_0 m22). assert (Q2 := pow2_ge_0 m21). assert (Q3 := pow2_ge_0 m12). assert (Q4 := pow2_ge_0 m11).
    assert (P1 : m22 ^ 2 + (- m21) ^ 2 <= 0). { apply Rmult_le_reg_l with (a ^ 2); [exact A2|]. lra. }
    assert (P2 : m12 ^ 2 + (- m11) ^ 2 <= 0). { apply Rmult_le_reg_l with (a ^ 2); [exact A2|]. lra. }
    ring_simplify in S3. replace ((- m21) ^ 2) with (m21 ^ 2) in P1 by ring. replace ((- m11) ^ 2) with (m11 ^ 2) in P2 by ring. lra. }
  assert (B0 : 0 <= b). { destruct (Hst (1, 0) (0, 0)) as [H1 H2]. assert (D : 0 < distance (1, 0) (0, 0)).
    { unfold distance. cbn [fst snd]. apply sqrt_lt_R0. lra. }
    apply Rmult_le_reg_r with (distance (1, 0) (0, 0)); [exact D|]. assert (0 < a * distance (1, 0) (0, 0)) by (apply Rmult_lt_0_compat; assumption). lra. }
  refine (affine_near m11 m12 m21 m22 c1 c2 Hdet xi x0 y0 fov n Hf Hn Hx Hy _ epsilon _ b He _ _ B0 Hd1 Hd2 max_depth HA).
  - intros g Hg. destruct (near_image m11 m12 m21 m22 c1 c2 solve xi a b Hs Ha Hst g) as (l & E & L & H). exists l. split; [exact E|]. split; [exact L|].
    intros e I. destruct (In_nth l e (0, 0) I) as (k & Hk & <-). rewrite L in Hk. eapply Rle_trans; [apply H, Hk|]. apply reach_mono, Hg, nth_In, Hk.
  - intros e. apply Hst.
Qed.
