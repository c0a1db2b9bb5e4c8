(** * Proofs about interp_bicubic *)
From Coq Require Import Reals ZArith Bool List Lra Lia.
From Coquelicot Require Import Coquelicot.
From Verif Require Import Py Calc2 RealFun Interp2_Model Interp2_Spec Interp2_Proofs Bicubic_Model.
Import ListNotations.
Open Scope R_scope.

(** ** gluing finitely many pieces *)
Lemma locally_2d_all n (P : nat -> R -> R -> Prop) x y :
  (forall i, (i < n)%nat -> locally_2d (P i) x y) -> locally_2d (fun u v => forall i, (i < n)%nat -> P i u v) x y.
Proof.
  induction n as [|n IH]; intros H; [apply locally_2d_forall; intros; lia|].
  assert (G := locally_2d_and _ _ _ _ (IH (fun i Hi => H i (Nat.lt_lt_succ_r _ _ Hi))) (H n (Nat.lt_succ_diag_r n))).
  revert G. apply locally_2d_impl, locally_2d_forall. intros u v [A B] i Hi.
  destruct (Nat.eq_dec i n) as [->|]; [exact B|apply A; lia].
Qed.
Section Pieces.
Variables (n m : nat) (ok1 ok2 : nat -> Prop) (F : R -> R -> R) (G : nat -> nat -> R -> R -> R) (x y : R).
Hypothesis dec1 : forall i, ok1 i \/ ~ ok1 i.
Hypothesis dec2 : forall i, ok2 i \/ ~ ok2 i.
Hypothesis near : locally_2d (fun u v => exists i k, (i < n)%nat /\ (k < m)%nat /\ ok1 i /\ ok2 k /\ F u v = G i k u v) x y.
Hypothesis here : forall i k, ok1 i -> ok2 k -> F x y = G i k x y.
Lemma pieces (Q : R -> R -> R -> R -> Prop) : (forall i k, ok1 i -> ok2 k -> locally_2d (fun u v => Q u v (G i k u v) (G i k x y)) x y) ->
  locally_2d (fun u v => Q u v (F u v) (F x y)) x y.
Proof.
  intros H.
  assert (A : locally_2d (fun u v => forall i, (i < n)%nat -> forall k, (k < m)%nat -> ok1 i -> ok2 k -> Q u v (G i k u v) (G i k x y)) x y).
  { apply (locally_2d_all n (fun i u v => forall k, (k < m)%nat -> ok1 i -> ok2 k -> Q u v (G i k u v) (G i k x y))). intros i Hi.
    apply (locally_2d_all m (fun k u v => ok1 i -> ok2 k -> Q u v (G i k u v) (G i k x y))). intros k Hk.
    destruct (dec1 i) as [A|A]; [|apply locally_2d_forall; intros; contradiction].
    destruct (dec2 k) as [B|B]; [|apply locally_2d_forall; intros; contradiction].
    generalize (H i k A B). apply locally_2d_impl, locally_2d_forall. auto. }
  generalize (locally_2d_and _ _ _ _ A near). apply locally_2d_impl, locally_2d_forall.
  intros u v [C (i & k & Hi & Hk & A1 & A2 & E)]. rewrite E, (here i k A1 A2). apply C; assumption.
Qed.
Lemma pieces_D2 fx fy : (forall i k, ok1 i -> ok2 k -> D2 (G i k) x y fx fy) -> D2 F x y fx fy.
Proof.
  intros H eps. apply (pieces (fun u v a b => Rabs (a - b - (fx * (u - x) + fy * (v - y))) <= eps * Rmax (Rabs (u - x)) (Rabs (v - y)))).
  intros i k A B. apply (H i k A B eps).
Qed.
Lemma pieces_continuous : (forall i k, ok1 i -> ok2 k -> continuity_2d_pt (G i k) x y) -> continuity_2d_pt F x y.
Proof. intros H eps. apply (pieces (fun u v a b => Rabs (a - b) < eps)). intros i k A B. apply (H i k A B eps). Qed.
End Pieces.

(** ** the cubic Hermite basis and its derivatives *)
Definition hb (d k : nat) (t : R) : R :=
  match d, k with
  | 0%nat, 0%nat => 1 - 3 * t ^ 2 + 2 * t ^ 3
  | 0%nat, 1%nat => t - 2 * t ^ 2 + t ^ 3
  | 0%nat, 2%nat => 3 * t ^ 2 - 2 * t ^ 3
  | 0%nat, _ => - t ^ 2 + t ^ 3
  | 1%nat, 0%nat => - 6 * t + 6 * t ^ 2
  | 1%nat, 1%nat => 1 - 4 * t + 3 * t ^ 2
  | 1%nat, 2%nat => 6 * t - 6 * t ^ 2
  | 1%nat, _ => - 2 * t + 3 * t ^ 2
  | _, 0%nat => - 6 + 12 * t
  | _, 1%nat => - 4 + 6 * t
  | _, 2%nat => 6 - 12 * t
  | _, _ => - 2 + 6 * t
  end.
Lemma hb_derive d k t : (d <= 1)%nat -> is_derive (hb d k) t (hb (S d) k t).
Proof.
  intros Hd. destruct d as [|[|d]]; [| |lia]; destruct k as [|[|[|k]]]; unfold hb; auto_derive; auto; ring.
Qed.
(** one axis: cell i, local coordinate t *)
Definition hc (d : nat) (f df : nat -> R) (i : nat) (t : R) : R :=
  f i * hb d 0 t + df i * hb d 1 t + f (S i) * hb d 2 t + df (S i) * hb d 3 t.
Definition cell2 (Z dZ1 dZ2 dZ12 : nat -> nat -> R) (dx dy i k : nat) (x y : R) : R :=
  hc dx (fun j => hc dy (fun r => Z r j) (fun r => dZ2 r j) k (y - INR k))
        (fun j => hc dy (fun r => dZ1 r j) (fun r => dZ12 r j) k (y - INR k)) i (x - INR i).

Lemma bic_cell Z d1 d2 d12 k i t u :
  let v := [ Z k i; Z k (S i); Z (S k) (S i); Z (S k) i; d1 k i; d1 k (S i); d1 (S k) (S i); d1 (S k) i;
             d2 k i; d2 k (S i); d2 (S k) (S i); d2 (S k) i; d12 k i; d12 k (S i); d12 (S k) (S i); d12 (S k) i ] in
  let cell a b := cell2 Z d1 d2 d12 a b i k (INR i + t) (INR k + u) in
  bic_Y (bic_c v) t u = cell 0%nat 0%nat /\ bic_dY1 (bic_c v) t u = cell 1%nat 0%nat /\
  bic_dY2 (bic_c v) t u = cell 0%nat 1%nat /\ bic_dY12 (bic_c v) t u = cell 1%nat 1%nat /\
  bic_dY11 (bic_c v) t u = cell 2%nat 0%nat /\ bic_dY22 (bic_c v) t u = cell 0%nat 2%nat.
Proof.
  intros v cell. unfold cell, cell2.
  replace (INR i + t - INR i) with t by ring. replace (INR k + u - INR k) with u by ring.
  unfold v, hc; clear v cell.
  generalize (Z k i) (Z k (S i)) (Z (S k) (S i)) (Z (S k) i) (d1 k i) (d1 k (S i)) (d1 (S k) (S i)) (d1 (S k) i)
    (d2 k i) (d2 k (S i)) (d2 (S k) (S i)) (d2 (S k) i) (d12 k i) (d12 k (S i)) (d12 (S k) (S i)) (d12 (S k) i).
  intros. unfold hb, bic_Y, bic_dY1, bic_dY2, bic_dY12, bic_dY11, bic_dY22, sum_ij, range4, bic_c.
  cbn [fold_left Nat.ltb Nat.leb andb nth BC Nat.mul Nat.add dot Nat.sub INR].
  repeat split; ring.
Qed.

(** ** which cell *)
Definition cellof (n : nat) (x : R) : nat := Z.to_nat (clampZ (rfloor x) 0 (Z.of_nat n - 2)).
Lemma cellof_lt n x : (2 <= n)%nat -> (S (cellof n x) < n)%nat.
Proof. intros H. unfold cellof, clampZ. lia. Qed.
Lemma cell_low n x : (2 <= n)%nat -> ax n (clampZ (rfloor x) 0 (Z.of_nat n - 2)) = cellof n x.
Proof. intros H. unfold ax. rewrite (proj2 (Z.ltb_ge _ 0)) by (unfold clampZ; lia). reflexivity. Qed.
Lemma cell_high n x : (2 <= n)%nat -> ax n (clampZ (rfloor x + 1) 1 (Z.of_nat n - 1)) = S (cellof n x).
Proof. intros H. unfold ax. rewrite (proj2 (Z.ltb_ge _ 0)) by (unfold clampZ; lia). unfold cellof, clampZ. lia. Qed.
Lemma cellof_IZR n x : (2 <= n)%nat -> INR (cellof n x) = IZR (clampZ (rfloor x) 0 (Z.of_nat n - 2)).
Proof. intros H. unfold cellof. rewrite INR_IZR_INZ, Z2Nat.id by (unfold clampZ; lia). reflexivity. Qed.
Lemma bic_t_cell n x : (2 <= n)%nat -> - (1 / 2) <= x <= INR n - 1 / 2 -> bic_t n x = x - INR (cellof n x).
Proof.
  intros Hn Hx. assert (F := rfloor_spec x). unfold bic_t. rewrite cellof_IZR by exact Hn.
  destruct (Rlt_dec x 0) as [L|L].
  - assert (E : rfloor x = (-1)%Z) by (apply rfloor_unique; simpl; lra). rewrite E.
    replace (clampZ (-1) 0 (Z.of_nat n - 2)) with 0%Z by (unfold clampZ; lia). simpl; lra.
  - destruct (Rle_dec (INR n - 1) x) as [M|M].
    + assert (E : rfloor x = (Z.of_nat n - 1)%Z) by (apply rfloor_unique; rewrite minus_IZR, <- INR_IZR_INZ; lra). rewrite E.
      replace (clampZ (Z.of_nat n - 1) 0 (Z.of_nat n - 2)) with (Z.of_nat n - 2)%Z by (unfold clampZ; lia).
      rewrite !minus_IZR. simpl; lra.
    + assert (A : (0 <= rfloor x)%Z) by (rewrite <- (rfloor_IZR 0); apply rfloor_le; lra).
      assert (B : (rfloor x < Z.of_nat n - 1)%Z) by (apply lt_IZR; rewrite minus_IZR, <- INR_IZR_INZ; lra).
      replace (clampZ (rfloor x) 0 (Z.of_nat n - 2)) with (rfloor x) by (unfold clampZ; lia). reflexivity.
Qed.
(** x is in the closure of cell i (the first and last cell extend outwards) *)
Definition touch (n i : nat) (x : R) : Prop :=
  (S i < n)%nat /\ (i = 0%nat \/ INR i <= x) /\ (S (S i) = n \/ x <= INR i + 1).
Lemma touch_cellof n x : (2 <= n)%nat -> touch n (cellof n x) x.
Proof.
  intros Hn. split; [apply cellof_lt, Hn|]. assert (F := rfloor_spec x). rewrite cellof_IZR by exact Hn.
  unfold cellof, clampZ.
  destruct (Z_lt_le_dec (rfloor x) 0) as [L|L].
  - split; [left; lia|]. right. replace (Z.min (Z.max (rfloor x) 0) (Z.of_nat n - 2)) with 0%Z by lia.
    assert (IZR (rfloor x) <= -1) by (apply IZR_le; lia). simpl; lra.
  - destruct (Z_lt_le_dec (Z.of_nat n - 2) (rfloor x)) as [M|M].
    + split; [|left; lia]. right. replace (Z.min (Z.max (rfloor x) 0) (Z.of_nat n - 2)) with (Z.of_nat n - 2)%Z by lia.
      apply Rle_trans with (IZR (rfloor x)); [apply IZR_le; lia|lra].
    + replace (Z.min (Z.max (rfloor x) 0) (Z.of_nat n - 2)) with (rfloor x) by lia. split; right; lra.
Qed.
(** near x every point lies in a cell touching x *)
Lemma touch_near n x : (2 <= n)%nat -> exists d : posreal, forall u, Rabs (u - x) < d -> touch n (cellof n u) x.
Proof.
  intros Hn. assert (F := rfloor_spec x). set (m := rfloor x) in *.
  assert (C : exists d : posreal, forall u, Rabs (u - x) < d -> (x = IZR m /\ rfloor u = (m - 1)%Z) \/ rfloor u = m).
  { destruct (Req_dec x (IZR m)) as [E|E].
    - exists (mkposreal 1 Rlt_0_1). simpl. intros u Hu. apply Rabs_def2 in Hu.
      destruct (Rlt_dec u (IZR m)); [left; split; [exact E|]|right]; apply rfloor_unique; rewrite ?minus_IZR; lra.
    - assert (P : 0 < Rmin (x - IZR m) (IZR m + 1 - x)) by (apply Rmin_glb_lt; lra).
      exists (mkposreal _ P). simpl. intros u Hu. apply Rabs_def2 in Hu. right. apply rfloor_unique.
      assert (A := Rmin_l (x - IZR m) (IZR m + 1 - x)). assert (B := Rmin_r (x - IZR m) (IZR m + 1 - x)). lra. }
  destruct C as [d Hd]. exists d. intros u Hu. destruct (Hd u Hu) as [[E R]|R].
  - split; [apply cellof_lt, Hn|]. rewrite cellof_IZR by exact Hn. unfold cellof. rewrite R. unfold clampZ.
    destruct (Z_lt_le_dec (m - 1) 0) as [L|L].
    + split; [left; lia|]. right. replace (Z.min (Z.max (m - 1) 0) (Z.of_nat n - 2)) with 0%Z by lia.
      rewrite E. assert (IZR m <= 0) by (apply IZR_le; lia). simpl; lra.
    + destruct (Z_lt_le_dec (Z.of_nat n - 2) (m - 1)) as [M|M].
      * split; [|left; lia]. right. rewrite E. apply IZR_le. lia.
      * replace (Z.min (Z.max (m - 1) 0) (Z.of_nat n - 2)) with (m - 1)%Z by lia.
        rewrite minus_IZR. split; right; lra.
  - assert (Q : cellof n u = cellof n x) by (unfold cellof; rewrite R; reflexivity). rewrite Q. apply touch_cellof, Hn.
Qed.
(** values and first derivatives do not depend on which touching cell is used *)
Lemma hb_0 d k : (d <= 1)%nat -> (k <= 3)%nat -> hb d k 0 = if Nat.eqb d k then 1 else 0.
Proof. intros Hd Hk. destruct d as [|[|]]; [| |lia]; destruct k as [|[|[|[|]]]]; try lia; unfold hb; cbn [Nat.eqb]; ring. Qed.
Lemma hb_1 d k : (d <= 1)%nat -> (k <= 3)%nat -> hb d k 1 = if Nat.eqb (S (S d)) k then 1 else 0.
Proof. intros Hd Hk. destruct d as [|[|]]; [| |lia]; destruct k as [|[|[|[|]]]]; try lia; unfold hb; cbn [Nat.eqb]; ring. Qed.
Lemma hc_knot d f df i : (d <= 1)%nat -> hc d f df i 0 = (if Nat.eqb d 0 then f i else df i) /\
  hc d f df i 1 = (if Nat.eqb d 0 then f (S i) else df (S i)).
Proof.
  intros Hd. unfold hc. rewrite !hb_0, !hb_1 by lia.
  destruct d as [|[|]]; [| |lia]; cbn [Nat.eqb]; split; ring.
Qed.
Lemma hc_touch n d f df x i i' : (d <= 1)%nat -> touch n i x -> touch n i' x ->
  hc d f df i (x - INR i) = hc d f df i' (x - INR i').
Proof.
  assert (A : forall i i', (i < i')%nat -> (d <= 1)%nat -> touch n i x -> touch n i' x ->
    hc d f df i (x - INR i) = hc d f df i' (x - INR i')).
  { intros a b L Hd (A1 & A2 & A3) (B1 & B2 & B3).
    assert (LR := le_INR _ _ L). rewrite S_INR in LR.
    assert (X : x = INR a + 1 /\ INR b = INR a + 1) by (destruct B2; [lia|]; destruct A3; [lia|]; lra).
    destruct X as [X1 X2]. assert (b = S a) by (apply INR_eq; rewrite S_INR; exact X2). subst b.
    replace (x - INR a) with 1 by lra. replace (x - INR (S a)) with 0 by lra.
    destruct (hc_knot d f df a Hd) as [_ ->]. destruct (hc_knot d f df (S a) Hd) as [-> _]. reflexivity. }
  intros Hd T T'. destruct (lt_eq_lt_dec i i') as [[L| ->]|L]; [apply A; assumption|reflexivity|symmetry; apply A; assumption].
Qed.
Lemma hc_ext d f df f' df' i t : f i = f' i -> df i = df' i -> f (S i) = f' (S i) -> df (S i) = df' (S i) ->
  hc d f df i t = hc d f' df' i t.
Proof. unfold hc. intros -> -> -> ->. reflexivity. Qed.

(** ** one axis calculus *)
Lemma shift_derive d k i x : (d <= 1)%nat -> is_derive (fun x => hb d k (x - INR i)) x (hb (S d) k (x - INR i)).
Proof.
  intros Hd. evar_last.
  - apply (is_derive_comp (hb d k) (fun x => x - INR i)); [apply hb_derive, Hd|].
    apply (is_derive_minus (fun x => x) (fun _ => INR i)); [apply (is_derive_id (K:=R_AbsRing))|apply (is_derive_const (K:=R_AbsRing) (V:=R_NormedModule))].
  - unfold scal; simpl; unfold mult; simpl. unfold minus, plus, opp, one, zero; simpl. ring.
Qed.
Lemma hc_derive_f d f df i x : (d <= 1)%nat -> is_derive (fun x => hc d f df i (x - INR i)) x (hc (S d) f df i (x - INR i)).
Proof.
  intros Hd. unfold hc.
  assert (G : forall c k, is_derive (fun x => c * hb d k (x - INR i)) x (c * hb (S d) k (x - INR i)))
    by (intros c k; apply (is_derive_scal (fun x => hb d k (x - INR i)) x c), shift_derive, Hd).
  apply (is_derive_plus (fun x => _ + _ + _) (fun x => _ * _)); [|apply G].
  apply (is_derive_plus (fun x => _ + _) (fun x => _ * _)); [|apply G].
  apply (is_derive_plus (fun x => _ * _) (fun x => _ * _)); apply G.
Qed.
Section Cell.
Variables (Z dZ1 dZ2 dZ12 : nat -> nat -> R).
Notation cell := (cell2 Z dZ1 dZ2 dZ12).
(** D2 of a cell polynomial, all orders we need *)
Lemma D2_prod (p : R -> R) (g : R -> R) x y lp lg : is_derive p x lp -> is_derive g y lg ->
  D2 (fun u v => g v * p u) x y (g y * lp) (lg * p x).
Proof.
  intros Hp Hg. eapply D2_eq; [apply (D2_mult (fun u v => g v) (fun u v => p u)); [apply D2_proj2, Hg|apply D2_proj1, Hp]|ring|ring].
Qed.
Lemma cell_D2 dx dy i k x y : (dx <= 1)%nat -> (dy <= 1)%nat ->
  D2 (cell dx dy i k) x y (cell (S dx) dy i k x y) (cell dx (S dy) i k x y).
Proof.
  intros Hx Hy. unfold cell2 at 1.
  set (G := fun dy j y => hc dy (fun r => Z r j) (fun r => dZ2 r j) k (y - INR k)).
  set (G' := fun dy j y => hc dy (fun r => dZ1 r j) (fun r => dZ12 r j) k (y - INR k)).
  assert (HG : forall j, is_derive (G dy j) y (G (S dy) j y)) by (intros j; apply hc_derive_f, Hy).
  assert (HG' : forall j, is_derive (G' dy j) y (G' (S dy) j y)) by (intros j; apply hc_derive_f, Hy).
  assert (HP : forall m, is_derive (fun x => hb dx m (x - INR i)) x (hb (S dx) m (x - INR i))) by (intros m; apply shift_derive, Hx).
  eapply D2_eq.
  - apply (D2_ext (fun u v => G dy i v * hb dx 0 (u - INR i) + G' dy i v * hb dx 1 (u - INR i) +
       G dy (S i) v * hb dx 2 (u - INR i) + G' dy (S i) v * hb dx 3 (u - INR i))); [reflexivity|].
    apply (D2_plus (fun u v => _ + _ + _) (fun u v => _ * _)).
    + apply (D2_plus (fun u v => _ + _) (fun u v => _ * _)).
      * apply (D2_plus (fun u v => _ * _) (fun u v => _ * _)).
        -- apply (D2_prod (fun u => hb dx 0 (u - INR i)) (G dy i)); [apply HP|apply HG].
        -- apply (D2_prod (fun u => hb dx 1 (u - INR i)) (G' dy i)); [apply HP|apply HG'].
      * apply (D2_prod (fun u => hb dx 2 (u - INR i)) (G dy (S i))); [apply HP|apply HG].
    + apply (D2_prod (fun u => hb dx 3 (u - INR i)) (G' dy (S i))); [apply HP|apply HG'].
  - unfold cell2, G, G', hc. reflexivity.
  - unfold cell2, G, G', hc. reflexivity.
Qed.
Lemma cell_continuous dx dy i k x y : (dx <= 1)%nat -> (dy <= 1)%nat -> continuity_2d_pt (cell dx dy i k) x y.
Proof. intros Hx Hy. apply differentiable_continuity_pt. eexists _, _. apply (cell_D2 dx dy i k x y Hx Hy). Qed.
Lemma cell_derive_x dx dy i k x y : (dx <= 1)%nat -> is_derive (fun u => cell dx dy i k u y) x (cell (S dx) dy i k x y).
Proof. intros Hx. unfold cell2. apply hc_derive_f, Hx. Qed.

Lemma cell_touch h w dx dy x y i k i' k' : (dx <= 1)%nat -> (dy <= 1)%nat -> touch w i x -> touch w i' x -> touch h k y -> touch h k' y ->
  cell dx dy i k x y = cell dx dy i' k' x y.
Proof.
  intros Hx Hy A A' B B'. unfold cell2.
  rewrite (hc_touch w dx _ _ x i i' Hx A A').
  apply hc_ext; apply (hc_touch h); assumption.
Qed.

(** ** the interpolant *)
Variables (h w : nat) (Hh : (2 <= h)%nat) (Hw : (2 <= w)%nat).
Definition B (dx dy : nat) (x y : R) : R := cell dx dy (cellof w x) (cellof h y) x y.
Lemma touch_dec n i x : touch n i x \/ ~ touch n i x.
Proof.
  unfold touch. destruct (lt_dec (S i) n); [|right; tauto].
  destruct (Nat.eq_dec i 0), (Rle_dec (INR i) x), (Nat.eq_dec (S (S i)) n), (Rle_dec x (INR i + 1)); tauto.
Qed.
Lemma B_near dx dy x y : locally_2d (fun u v => exists i k, (i < w)%nat /\ (k < h)%nat /\ touch w i x /\ touch h k y /\
  B dx dy u v = cell dx dy i k u v) x y.
Proof.
  destruct (touch_near w x Hw) as [d1 H1]. destruct (touch_near h y Hh) as [d2 H2].
  assert (P : 0 < Rmin d1 d2) by (apply Rmin_glb_lt; apply cond_pos). exists (mkposreal _ P). simpl.
  intros u v Hu Hv. exists (cellof w u), (cellof h v).
  assert (A := cellof_lt w u Hw). assert (A' := cellof_lt h v Hh).
  split; [lia|]. split; [lia|]. split; [|split; [|reflexivity]].
  - apply H1. eapply Rlt_le_trans; [exact Hu|apply Rmin_l].
  - apply H2. eapply Rlt_le_trans; [exact Hv|apply Rmin_r].
Qed.
Lemma B_here dx dy x y i k : (dx <= 1)%nat -> (dy <= 1)%nat -> touch w i x -> touch h k y -> B dx dy x y = cell dx dy i k x y.
Proof. intros Hx Hy A C. unfold B. apply (cell_touch h w); auto using touch_cellof. Qed.
(** differentiable everywhere, across the cell boundaries too *)
Lemma B_D2 x y : D2 (B 0 0) x y (B 1 0 x y) (B 0 1 x y).
Proof.
  apply (pieces_D2 w h (fun i => touch w i x) (fun k => touch h k y) (B 0 0) (cell 0 0) x y);
   [intros; apply touch_dec|intros; apply touch_dec|apply B_near|intros; apply B_here; auto|].
  intros i k A C. rewrite (B_here 1 0 x y i k), (B_here 0 1 x y i k) by (auto; lia). apply cell_D2; lia.
Qed.
Lemma B_continuous dx dy x y : (dx <= 1)%nat -> (dy <= 1)%nat -> continuity_2d_pt (B dx dy) x y.
Proof.
  intros Hx Hy.
  apply (pieces_continuous w h (fun i => touch w i x) (fun k => touch h k y) (B dx dy) (cell dx dy) x y);
   [intros; apply touch_dec|intros; apply touch_dec|apply B_near|intros; apply B_here; auto|].
  intros i k A C. apply cell_continuous; assumption.
Qed.
(** inside a cell the interpolant is one polynomial *)
Definition inner (n i : nat) (x : R) : Prop := (S i < n)%nat /\ (i = 0%nat \/ INR i < x) /\ (S (S i) = n \/ x < INR i + 1).
Lemma inner_cellof n i x : inner n i x -> cellof n x = i.
Proof.
  intros (A & C & D). assert (F := rfloor_spec x). unfold cellof.
  assert (I : INR i = IZR (Z.of_nat i)) by apply INR_IZR_INZ.
  assert (L : i = 0%nat \/ (Z.of_nat i <= rfloor x)%Z).
  { destruct C as [C|C]; [left; exact C|right]. assert ((Z.of_nat i - 1 < rfloor x)%Z); [|lia].
    apply lt_IZR. rewrite minus_IZR. rewrite <- I. lra. }
  assert (M : S (S i) = n \/ (rfloor x <= Z.of_nat i)%Z).
  { destruct D as [D|D]; [left; exact D|right]. assert ((rfloor x < Z.of_nat i + 1)%Z); [|lia].
    apply lt_IZR. rewrite plus_IZR. rewrite <- I. lra. }
  unfold clampZ. lia.
Qed.
Lemma inner_near n i x : inner n i x -> exists d : posreal, forall u, Rabs (u - x) < d -> inner n i u.
Proof.
  intros (A & C & D).
  assert (E1 : exists d : posreal, forall u, Rabs (u - x) < d -> i = 0%nat \/ INR i < u).
  { destruct C as [C|C]; [exists (mkposreal 1 Rlt_0_1); auto|].
    assert (P : 0 < x - INR i) by lra. exists (mkposreal _ P). simpl. intros u Hu. apply Rabs_def2 in Hu. right; lra. }
  assert (E2 : exists d : posreal, forall u, Rabs (u - x) < d -> S (S i) = n \/ u < INR i + 1).
  { destruct D as [D|D]; [exists (mkposreal 1 Rlt_0_1); auto|].
    assert (P : 0 < INR i + 1 - x) by lra. exists (mkposreal _ P). simpl. intros u Hu. apply Rabs_def2 in Hu. right; lra. }
  destruct E1 as [d1 H1], E2 as [d2 H2].
  assert (P : 0 < Rmin d1 d2) by (apply Rmin_glb_lt; apply cond_pos). exists (mkposreal _ P). simpl. intros u Hu.
  split; [exact A|]. split; [apply H1|apply H2]; (eapply Rlt_le_trans; [exact Hu|apply Rmin_l || apply Rmin_r]).
Qed.
Lemma B_inner_D2 dx dy i k x y : (dx <= 1)%nat -> (dy <= 1)%nat -> inner w i x -> inner h k y ->
  D2 (B dx dy) x y (B (S dx) dy x y) (B dx (S dy) x y).
Proof.
  intros Hx Hy A C. destruct (inner_near w i x A) as [d1 H1]. destruct (inner_near h k y C) as [d2 H2].
  assert (P : 0 < Rmin d1 d2) by (apply Rmin_glb_lt; apply cond_pos).
  assert (E : forall a b u v, inner w i u -> inner h k v -> B a b u v = cell a b i k u v).
  { intros a b u v I J. unfold B. rewrite (inner_cellof w i u I), (inner_cellof h k v J). reflexivity. }
  rewrite !E by assumption. apply (D2_ext_loc (cell dx dy i k)); [|apply cell_D2; assumption].
  exists (mkposreal _ P). simpl. intros u v Hu Hv. symmetry. apply E.
  - apply H1. eapply Rlt_le_trans; [exact Hu|apply Rmin_l].
  - apply H2. eapply Rlt_le_trans; [exact Hv|apply Rmin_r].
Qed.
(** the cross derivative is the derivative of either first derivative, everywhere *)
Lemma B_cross x y : is_derive (fun v => B 1 0 x v) y (B 1 1 x y) /\ is_derive (fun u => B 0 1 u y) x (B 1 1 x y).
Proof.
  split.
  - apply (D2_is_derive_y (fun _ v => B 1 0 x v) 0 y 0 (B 1 1 x y)).
    apply (pieces_D2 1 h (fun i => i = 0%nat) (fun k => touch h k y) (fun _ v => B 1 0 x v)
      (fun _ k _ v => cell 1 0 (cellof w x) k x v) 0 y).
    + intros i; destruct (Nat.eq_dec i 0); tauto.
    + intros; apply touch_dec.
    + destruct (touch_near h y Hh) as [d H]. exists d. intros _ v _ Hv. exists 0%nat, (cellof h v).
      assert (A := cellof_lt h v Hh). repeat split; try lia; auto; try apply H, Hv.
    + intros i k _ T. apply B_here; auto using touch_cellof.
    + intros i k _ T. apply D2_proj2. rewrite (B_here 1 1 x y (cellof w x) k) by auto using touch_cellof.
      apply (D2_is_derive_y (cell 1 0 (cellof w x) k) x y (cell 2 0 (cellof w x) k x y)), cell_D2; lia.
  - apply (D2_is_derive_x (fun u _ => B 0 1 u y) x 0 (B 1 1 x y) 0).
    apply (pieces_D2 w 1 (fun i => touch w i x) (fun k => k = 0%nat) (fun u _ => B 0 1 u y)
      (fun i _ u _ => cell 0 1 i (cellof h y) u y) x 0).
    + intros; apply touch_dec.
    + intros i; destruct (Nat.eq_dec i 0); tauto.
    + destruct (touch_near w x Hw) as [d H]. exists d. intros u _ Hu _. exists (cellof w u), 0%nat.
      assert (A := cellof_lt w u Hw). repeat split; try lia; auto; try apply H, Hu.
    + intros i k T _. apply B_here; auto using touch_cellof.
    + intros i k T _. apply D2_proj1. rewrite (B_here 1 1 x y i (cellof h y)) by auto using touch_cellof.
      apply (D2_is_derive_x (cell 0 1 i (cellof h y)) x y _ (cell 0 2 i (cellof h y) x y)), cell_D2; lia.
Qed.
(** the supplied data *)
Lemma B_knot i j : (i < h)%nat -> (j < w)%nat ->
  B 0 0 (INR j) (INR i) = Z i j /\ B 1 0 (INR j) (INR i) = dZ1 i j /\ B 0 1 (INR j) (INR i) = dZ2 i j /\
  B 1 1 (INR j) (INR i) = dZ12 i j.
Proof.
  intros Hi Hj.
  assert (K : forall n a, (2 <= n)%nat -> (a < n)%nat -> exists b c, touch n b (INR a) /\ INR a - INR b = INR c /\ (c = 0 /\ b = a \/ c = 1 /\ S b = a)%nat).
  { intros n a Hn Ha. destruct (Nat.eq_dec a (n - 1)) as [E|E].
    - exists (a - 1)%nat, 1%nat. rewrite minus_INR by lia. split; [|split; [simpl; ring|right; lia]].
      split; [lia|]. split; [right; rewrite minus_INR by lia; simpl; lra|left; lia].
    - exists a, 0%nat. split; [|split; [simpl; ring|left; lia]]. split; [lia|]. split; right; lra. }
  destruct (K w j Hw Hj) as (b & c & T & E & O). destruct (K h i Hh Hi) as (b' & c' & T' & E' & O').
  rewrite !(B_here _ _ (INR j) (INR i) b b') by (assumption || lia). unfold cell2. rewrite E, E'.
  assert (S0 : forall d f df m, (d <= 1)%nat -> hc d f df m (INR 0) = if Nat.eqb d 0 then f m else df m) by (intros; apply hc_knot; lia).
  assert (S1 : forall d f df m, (d <= 1)%nat -> hc d f df m (INR 1) = if Nat.eqb d 0 then f (S m) else df (S m)) by (intros; apply hc_knot; lia).
  destruct O as [[-> ->]|[-> <-]], O' as [[-> ->]|[-> <-]]; rewrite !S0 || rewrite !S1; try lia; cbn [Nat.eqb];
    rewrite ?S0, ?S1 by lia; repeat split; reflexivity.
Qed.
End Cell.
