(** * Proofs about triangles and duplicate removal *)
From Coq Require Import Reals List Arith Lia Lra ZArith Psatz FinFun.
From Verif Require Import Py Fsum LM_Model Gauss_Model Tri_Model Tri_Spec.
Import ListNotations.
Local Open Scope R_scope.

Lemma rlt_true a b : rlt a b = true <-> a < b.
Proof. unfold rlt. destruct (Rlt_dec a b); split; intros; auto; discriminate || contradiction. Qed.
Lemma rlt_false a b : rlt a b = false <-> b <= a.
Proof. unfold rlt. destruct (Rlt_dec a b); split; intros; try discriminate; try reflexivity; lra. Qed.

(** ** membership *)
Lemma contains_iff p v : nondegenerate p -> (triangle_contains p v = true <-> in_triangle p v).
Proof.
  destruct p as [[[x0 y0] [x1 y1]] [x2 y2]]. destruct v as [x y]. unfold nondegenerate, orient. cbn [fst snd]. intros ND.
  unfold triangle_contains, in_triangle, psub. cbn [fst snd].
  set (D := (x1 - x0) * (y2 - y0) - (y1 - y0) * (x2 - x0)) in *.
  destruct (Req_EM_T D 0) as [Z|_]; [contradiction|].
  set (a := (x * (y2 - y0) - y * (x2 - x0) - (x0 * (y2 - y0) - y0 * (x2 - x0))) / D).
  set (b := - (x * (y1 - y0) - y * (x1 - x0) - (x0 * (y1 - y0) - y0 * (x1 - x0))) / D).
  assert (Ex : x - x0 = a * (x1 - x0) + b * (x2 - x0)) by (unfold a, b, D; field; exact ND).
  assert (Ey : y - y0 = a * (y1 - y0) + b * (y2 - y0)) by (unfold a, b, D; field; exact ND).
  split.
  - intros H. apply andb_prop in H. destruct H as [H H3]. apply andb_prop in H. destruct H as [H1 H2].
    destruct (Rle_dec 0 a) as [Ha|]; [|discriminate]. destruct (Rle_dec 0 b) as [Hb|]; [|discriminate].
    destruct (Rle_dec (a + b) 1) as [Hab|]; [|discriminate].
    exists (1 - a - b), a, b. repeat split; try lra; nra.
  - intros (c & a' & b' & Hc & Ha & Hb & S & Hx & Hy).
    assert (Ea : a' = a).
    { assert (Q : a' * D = a * D).
      { assert (X1 : x - x0 = a' * (x1 - x0) + b' * (x2 - x0)) by (rewrite Hx; replace c with (1 - a' - b') by lra; ring).
        assert (Y1 : y - y0 = a' * (y1 - y0) + b' * (y2 - y0)) by (rewrite Hy; replace c with (1 - a' - b') by lra; ring).
        unfold D. transitivity ((x - x0) * (y2 - y0) - (y - y0) * (x2 - x0)); [rewrite X1, Y1; ring|rewrite Ex, Ey; ring]. }
      apply Rmult_eq_reg_r with D; assumption. }
    assert (Eb : b' = b).
    { assert (Q : b' * D = b * D).
      { assert (X1 : x - x0 = a' * (x1 - x0) + b' * (x2 - x0)) by (rewrite Hx; replace c with (1 - a' - b') by lra; ring).
        assert (Y1 : y - y0 = a' * (y1 - y0) + b' * (y2 - y0)) by (rewrite Hy; replace c with (1 - a' - b') by lra; ring).
        unfold D. transitivity ((y - y0) * (x1 - x0) - (x - x0) * (y1 - y0)); [rewrite X1, Y1; ring|rewrite Ex, Ey; ring]. }
      apply Rmult_eq_reg_r with D; assumption. }
    subst a' b'. destruct (Rle_dec 0 a); [|lra]. destruct (Rle_dec 0 b); [|lra]. destruct (Rle_dec (a + b) 1); [reflexivity|lra].
Qed.
Lemma contains_degenerate p v : ~ nondegenerate p -> triangle_contains p v = false.
Proof.
  destruct p as [[[x0 y0] [x1 y1]] [x2 y2]]. destruct v as [x y]. unfold nondegenerate, orient, triangle_contains, psub. cbn [fst snd]. intros ND.
  destruct (Req_EM_T _ 0) as [Z|NZ]; [reflexivity|contradiction].
Qed.

(** ** area and subdivision *)
Lemma area_orient p : triangle_area p = 1 / 2 * Rabs (orient p).
Proof. destruct p as [[[x0 y0] [x1 y1]] [x2 y2]]. unfold triangle_area, orient. cbn [fst snd]. do 2 f_equal. ring. Qed.
Lemma upsample_orient p q : In q (triangle_upsample p) -> orient q = orient p / 4.
Proof.
  destruct p as [[[x0 y0] [x1 y1]] [x2 y2]]. cbn. intros [<-|[<-|[<-|[<-|[]]]]]; cbn; field.
Qed.
Lemma quarter_area p q : orient q = orient p / 4 -> triangle_area q = triangle_area p / 4.
Proof. intros H. rewrite !area_orient, H. unfold Rdiv. rewrite Rabs_mult, (Rabs_right (/ 4)) by lra. ring. Qed.
Lemma upsample_area p q : In q (triangle_upsample p) -> triangle_area q = triangle_area p / 4.
Proof. intros H. apply quarter_area, upsample_orient, H. Qed.
Lemma upsample_union p v : in_triangle p v <-> exists q, In q (triangle_upsample p) /\ in_triangle q v.
Proof.
  destruct p as [[[x0 y0] [x1 y1]] [x2 y2]]. destruct v as [x y]. split.
  - unfold in_triangle at 1. cbn [fst snd]. intros (a & b & c & Ha & Hb & Hc & S & Hx & Hy). subst x y.
    cbn [triangle_upsample fst snd].
    destruct (Rle_dec (1 / 2) a) as [La|La]; [|destruct (Rle_dec (1 / 2) b) as [Lb|Lb]; [|destruct (Rle_dec (1 / 2) c) as [Lc|Lc]]].
    + eexists. split; [left; reflexivity|]. exists (2 * a - 1), (2 * b), (2 * c). cbn [fst snd]. repeat split; lra || nra.
    + eexists. split; [right; left; reflexivity|]. exists (2 * a), (2 * b - 1), (2 * c). cbn [fst snd]. repeat split; lra || nra.
    + eexists. split; [right; right; left; reflexivity|]. exists (2 * a), (2 * b), (2 * c - 1). cbn [fst snd]. repeat split; lra || nra.
    + eexists. split; [right; right; right; left; reflexivity|]. exists (1 - 2 * c), (1 - 2 * a), (1 - 2 * b). cbn [fst snd].
      replace a with (1 - b - c) by lra. repeat split; try lra; field.
  - intros (q & Hq & Hv). cbn [triangle_upsample fst snd] in Hq. unfold in_triangle. cbn [fst snd].
    destruct Hq as [<-|[<-|[<-|[<-|[]]]]]; destruct Hv as (a & b & c & Ha & Hb & Hc & S & Hx & Hy); cbn [fst snd] in Hx, Hy; subst x y.
    + exists (a + b / 2 + c / 2), (b / 2), (c / 2). repeat split; try lra; field.
    + exists (a / 2), (a / 2 + b + c / 2), (c / 2). repeat split; try lra; field.
    + exists (a / 2), (b / 2), (a / 2 + b / 2 + c). repeat split; try lra; field.
    + exists (a / 2 + c / 2), (a / 2 + b / 2), (b / 2 + c / 2). repeat split; try lra; field.
Qed.

(** ** neighbours *)
Lemma neighbors_orient p q : In q (triangle_neighbors p) -> orient q = orient p.
Proof.
  destruct p as [[[x0 y0] [x1 y1]] [x2 y2]]. unfold triangle_neighbors, tadd, tsub, tmap, padd, psub, pscale. cbn [fst snd].
  intros H. repeat destruct H as [<-|H]; [..|destruct H]; unfold orient; cbn [fst snd]; ring.
Qed.
Lemma neighbors_area p q : In q (triangle_neighbors p) -> triangle_area q = triangle_area p.
Proof. intros H. rewrite !area_orient, (neighbors_orient p q H). reflexivity. Qed.
(** coordinates of the thirteen triangles in the lattice *)
Definition ring13 : list (bool * Z * Z) :=
  [(true, 0, 0); (true, 1, 0); (true, -1, 0); (true, 0, 1); (true, 0, -1); (true, -1, 1); (true, 1, -1);
   (false, 0, 0); (false, 1, 0); (false, 2, 0); (false, 0, 1); (false, 0, 2); (false, 1, 1)]%Z.
Lemma tri_ext (a b c d e f a' b' c' d' e' f' : R) : a = a' -> b = b' -> c = c' -> d = d' -> e = e' -> f = f' ->
  ((a, b), (c, d), (e, f)) = ((a', b'), (c', d'), (e', f')) :> tri.
Proof. intros; subst; reflexivity. Qed.
Lemma neighbors_ring p : triangle_neighbors p = map (fun uij => let '(u, i, j) := uij in lattice_triangle p u i j) ring13.
Proof.
  destruct p as [[[x0 y0] [x1 y1]] [x2 y2]]. unfold triangle_neighbors, ring13, lattice_triangle, tadd, tsub, tmap, padd, psub, pscale.
  cbn [map fst snd]. repeat (apply (f_equal2 (@cons tri)); [apply tri_ext; ring|]). reflexivity.
Qed.
Section Lattice.
Variables x0 y0 x1 y1 x2 y2 : R.
Let ux := x1 - x0. Let uy := y1 - y0. Let vx := x2 - x0. Let vy := y2 - y0.
Hypothesis ND : ux * vy - uy * vx <> 0.
Lemma lattice_unique a b c d : x0 + a * ux + b * vx = x0 + c * ux + d * vx -> y0 + a * uy + b * vy = y0 + c * uy + d * vy -> a = c /\ b = d.
Proof.
  intros H1 H2. assert (A : (a - c) * (ux * vy - uy * vx) = 0).
  { transitivity ((a * ux + b * vx - c * ux - d * vx) * vy - (a * uy + b * vy - c * uy - d * vy) * vx); [ring|].
    replace (a * ux + b * vx - c * ux - d * vx) with 0 by lra. replace (a * uy + b * vy - c * uy - d * vy) with 0 by lra. ring. }
  assert (B : (b - d) * (ux * vy - uy * vx) = 0).
  { transitivity (ux * (a * uy + b * vy - c * uy - d * vy) - uy * (a * ux + b * vx - c * ux - d * vx)); [ring|].
    replace (a * ux + b * vx - c * ux - d * vx) with 0 by lra. replace (a * uy + b * vy - c * uy - d * vy) with 0 by lra. ring. }
  apply Rmult_integral in A. apply Rmult_integral in B. split; [destruct A; lra|destruct B; lra].
Qed.
Definition node (i j : Z) : pt := (x0 + IZR i * ux + IZR j * vx, y0 + IZR i * uy + IZR j * vy).
Lemma node_inj i j k l : node i j = node k l -> i = k /\ j = l.
Proof.
  unfold node. intros H. injection H as H1 H2. destruct (lattice_unique _ _ _ _ H1 H2) as [E1 E2]. split; apply eq_IZR; assumption.
Qed.
Lemma lattice_nodes u i j : lattice_triangle ((x0, y0), (x1, y1), (x2, y2)) u i j =
  if u then (node i j, node (i + 1) j, node i (j + 1)) else (node i j, node (i - 1) j, node i (j - 1)).
Proof.
  unfold lattice_triangle, node. cbn [fst snd]. fold ux uy vx vy. destruct u; rewrite ?plus_IZR, ?minus_IZR; apply tri_ext; ring.
Qed.
Lemma lattice_inj u i j u' i' j' :
  lattice_triangle ((x0, y0), (x1, y1), (x2, y2)) u i j = lattice_triangle ((x0, y0), (x1, y1), (x2, y2)) u' i' j' -> (u, i, j) = (u', i', j').
Proof.
  rewrite !lattice_nodes. intros H.
  assert (C : forall a b c d e f, (a, b, c) = (d, e, f) :> tri -> a = d /\ b = e /\ c = f) by (intros a b c d e f E; injection E; auto).
  destruct u, u'; destruct (C _ _ _ _ _ _ H) as (H1 & H2 & H3);
  apply node_inj in H1; apply node_inj in H2; apply node_inj in H3; destruct H1 as [-> ->]; try reflexivity; lia.
Qed.
End Lattice.

Lemma in_ring u i j : In (u, i, j) ring13 <->
  (if u then (i, j) = (0, 0) \/ (i, j) = (1, 0) \/ (i, j) = (-1, 0) \/ (i, j) = (0, 1) \/ (i, j) = (0, -1) \/ (i, j) = (-1, 1) \/ (i, j) = (1, -1)
   else (i, j) = (0, 0) \/ (i, j) = (1, 0) \/ (i, j) = (2, 0) \/ (i, j) = (0, 1) \/ (i, j) = (0, 2) \/ (i, j) = (1, 1))%Z.
Proof.
  unfold ring13. cbn [In]. destruct u; split; intros H;
  repeat match goal with H : _ \/ _ |- _ => destruct H as [H|H] end; try contradiction; try discriminate; injection H as <- <-; tauto.
Qed.
Lemma neighbors_lattice p : nondegenerate p ->
  NoDup (triangle_neighbors p) /\ length (triangle_neighbors p) = 13%nat /\
  (forall q, In q (triangle_neighbors p) <-> exists u i j, q = lattice_triangle p u i j /\ share_corner p q).
Proof.
  intros ND. assert (R := neighbors_ring p). destruct p as [[[x0 y0] [x1 y1]] [x2 y2]]. unfold nondegenerate, orient in ND. cbn [fst snd] in ND.
  split; [|split; [reflexivity|]].
  - rewrite R. apply FinFun.Injective_map_NoDup.
    + intros [[u i] j] [[u' i'] j'] E. exact (lattice_inj x0 y0 x1 y1 x2 y2 ND u i j u' i' j' E).
    + unfold ring13. repeat (constructor; [cbn [In]; intros H; repeat destruct H as [H|H]; discriminate || contradiction|]). constructor.
  - intros q. rewrite R, in_map_iff. set (nd := node x0 y0 x1 y1 x2 y2).
    assert (CP : forall v, corner ((x0, y0), (x1, y1), (x2, y2)) v <-> v = nd 0%Z 0%Z \/ v = nd 1%Z 0%Z \/ v = nd 0%Z 1%Z).
    { assert (N0 : nd 0%Z 0%Z = (x0, y0)) by (unfold nd, node; apply (f_equal2 pair); ring).
      assert (N1 : nd 1%Z 0%Z = (x1, y1)) by (unfold nd, node; apply (f_equal2 pair); ring).
      assert (N2 : nd 0%Z 1%Z = (x2, y2)) by (unfold nd, node; apply (f_equal2 pair); ring).
      rewrite N0, N1, N2. intros v. reflexivity. }
    split.
    + intros ([[u i] j] & <- & H). exists u, i, j. split; [reflexivity|].
      rewrite lattice_nodes. fold nd. unfold share_corner.
      apply in_ring in H. destruct u; repeat destruct H as [H|H]; injection H as -> ->; cbn [Z.add Z.sub Z.opp Z.pos_sub];
      first [exists (nd 0 0)%Z; split; [apply CP|unfold corner]; tauto | exists (nd 1 0)%Z; split; [apply CP|unfold corner]; tauto | exists (nd 0 1)%Z; split; [apply CP|unfold corner]; tauto].
    + intros (u & i & j & -> & v & Hp & Hq). exists (u, i, j). split; [reflexivity|]. apply in_ring.
      rewrite lattice_nodes in Hq. fold nd in Hq. apply CP in Hp. unfold corner in Hq.
      assert (J := node_inj x0 y0 x1 y1 x2 y2 ND). fold nd in J.
      destruct u; cbn beta iota in Hq; destruct Hp as [->|[->| ->]]; destruct Hq as [E|[E|E]]; apply J in E; destruct E as [E1 E2];
        first [ assert (i = 0 /\ j = 0)%Z as [-> ->] by lia; tauto | assert (i = 1 /\ j = 0)%Z as [-> ->] by lia; tauto
              | assert (i = -1 /\ j = 0)%Z as [-> ->] by lia; tauto | assert (i = 0 /\ j = 1)%Z as [-> ->] by lia; tauto
              | assert (i = 0 /\ j = -1)%Z as [-> ->] by lia; tauto | assert (i = -1 /\ j = 1)%Z as [-> ->] by lia; tauto
              | assert (i = 1 /\ j = -1)%Z as [-> ->] by lia; tauto | assert (i = 2 /\ j = 0)%Z as [-> ->] by lia; tauto
              | assert (i = 0 /\ j = 2)%Z as [-> ->] by lia; tauto | assert (i = 1 /\ j = 1)%Z as [-> ->] by lia; tauto ].
Qed.
