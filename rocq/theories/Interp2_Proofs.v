(** * Proofs about interp2d and interp3d *)
From Coq Require Import Reals ZArith Bool String List Lra Lia.
From Verif Require Import Py RealFun Interp2_Model Interp2_Spec.
Import ListNotations.
Open Scope R_scope.

(** one axis *)
Definition lin1 (n : nat) (f : nat -> R) (x : R) : R :=
  let x0 := clampZ (rfloor x) 0 (Z.of_nat n - 2) in
  f (ax n x0) * (1 - (x - IZR x0)) + f (ax n (x0 + 1)) * (x - IZR x0).
Definition near1 (n : nat) (x : R) : nat := ax n (clampZ (rround x) 0 (Z.of_nat n - 1)).

Lemma linear2_lin1 h w im x y : linear2 h w im x y = lin1 h (fun i => lin1 w (fun j => im i j) x) y.
Proof. unfold linear2, lin1. rewrite !plus_IZR. ring. Qed.
Lemma linear3_lin1 d h w cu x y t :
  linear3 d h w cu x y t = lin1 d (fun k => lin1 h (fun i => lin1 w (fun j => cu k i j) x) y) t.
Proof. unfold linear3, lin1. ring. Qed.
Lemma nearest2_near1 h w im x y : nearest2 h w im x y = im (near1 h y) (near1 w x).
Proof. reflexivity. Qed.

(** which pixels are read and with which weights, for any position between the first and the last pixel *)
Lemma lin1_cases n f x : (1 <= n)%nat -> 0 <= x <= INR n - 1 ->
  exists i t, 0 <= t < 1 /\ x = INR i + t /\ (i < n)%nat /\
   ((t = 0 /\ lin1 n f x = f i) \/ ((S i < n)%nat /\ lin1 n f x = f i * (1 - t) + f (S i) * t)).
Proof.
  intros Hn Hx. assert (F := rfloor_spec x).
  assert (F0 : (0 <= rfloor x)%Z). { rewrite <- (rfloor_IZR 0). apply rfloor_le. lra. }
  assert (F1 : (rfloor x <= Z.of_nat n - 1)%Z).
  { rewrite <- (rfloor_IZR (Z.of_nat n - 1)). apply rfloor_le. rewrite minus_IZR, <- INR_IZR_INZ. lra. }
  exists (Z.to_nat (rfloor x)), (x - IZR (rfloor x)).
  assert (E : INR (Z.to_nat (rfloor x)) = IZR (rfloor x)) by (rewrite INR_IZR_INZ, Z2Nat.id; [reflexivity|lia]).
  rewrite E. split; [lra|]. split; [lra|]. split; [lia|].
  destruct (Z.eq_dec (rfloor x) (Z.of_nat n - 1)) as [e|ne].
  - left. assert (X : x = IZR (Z.of_nat n - 1)).
    { rewrite e, minus_IZR, <- INR_IZR_INZ in F. rewrite minus_IZR, <- INR_IZR_INZ. lra. }
    split; [rewrite e; lra|]. unfold lin1.
    replace (clampZ (rfloor x) 0 (Z.of_nat n - 2)) with (rfloor x - 1)%Z by (unfold clampZ; lia).
    replace (x - IZR (rfloor x - 1)) with 1 by (rewrite minus_IZR, e; lra).
    replace (rfloor x - 1 + 1)%Z with (rfloor x) by lia.
    unfold ax. rewrite (proj2 (Z.ltb_ge (rfloor x) 0)) by lia. ring.
  - right. split; [lia|]. unfold lin1.
    replace (clampZ (rfloor x) 0 (Z.of_nat n - 2)) with (rfloor x) by (unfold clampZ; lia).
    unfold ax. rewrite (proj2 (Z.ltb_ge (rfloor x) 0)), (proj2 (Z.ltb_ge (rfloor x + 1) 0)) by lia.
    replace (Z.to_nat (rfloor x + 1)) with (S (Z.to_nat (rfloor x))) by lia. reflexivity.
Qed.
Lemma INR_pos_lt n : (1 <= n)%nat -> 1 <= INR n.
Proof. intros H. apply le_INR in H. exact H. Qed.
Lemma INR_le_pred i n : (i < n)%nat -> INR i <= INR n - 1.
Proof. intros H. apply le_INR in H. rewrite S_INR in H. lra. Qed.

Lemma lin1_at n f i : (i < n)%nat -> lin1 n f (INR i) = f i.
Proof.
  intros Hi. destruct (lin1_cases n f (INR i)) as (k & t & Ht & E & Hk & C);
    [lia|split; [apply pos_INR|apply INR_le_pred, Hi]|].
  assert (k = i).
  { destruct (lt_eq_lt_dec k i) as [[L| ->]|L]; [| reflexivity |]; apply le_INR in L; rewrite S_INR in L; lra. }
  subst k. assert (t = 0) by lra. subst t. destruct C as [[_ C]|[_ C]]; rewrite C; ring.
Qed.
(** only pixels closer than one pixel matter, and the value does not leave their range *)
Lemma lin1_bounds n f x lo hi : (1 <= n)%nat -> 0 <= x <= INR n - 1 ->
  (forall i, (i < n)%nat -> Rabs (INR i - x) < 1 -> lo <= f i <= hi) -> lo <= lin1 n f x <= hi.
Proof.
  intros Hn Hx H. destruct (lin1_cases n f x Hn Hx) as (i & t & Ht & E & Hi & C).
  assert (A := H i Hi ltac:(apply Rabs_def1; lra)).
  destruct C as [[_ C]|[Hs C]]; rewrite C; [exact A|].
  destruct (Req_dec t 0) as [->|T]; [lra|].
  assert (B := H (S i) Hs ltac:(rewrite S_INR; apply Rabs_def1; lra)). nra.
Qed.
Lemma lin1_affine n f a b x : (1 <= n)%nat -> 0 <= x <= INR n - 1 ->
  (forall i, (i < n)%nat -> f i = a * INR i + b) -> lin1 n f x = a * x + b.
Proof.
  intros Hn Hx H. destruct (lin1_cases n f x Hn Hx) as (i & t & Ht & E & Hi & C).
  destruct C as [[T C]|[Hs C]]; rewrite C, ?(H i Hi), ?(H (S i) Hs), ?S_INR, E; [subst t|]; ring.
Qed.
Lemma lin1_ext n f g x : (1 <= n)%nat -> 0 <= x <= INR n - 1 -> (forall i, (i < n)%nat -> f i = g i) -> lin1 n f x = lin1 n g x.
Proof.
  intros Hn Hx H. destruct (lin1_cases n f x Hn Hx) as (i & t & Ht & E & Hi & C).
  destruct (lin1_cases n g x Hn Hx) as (i' & t' & Ht' & E' & Hi' & C').
  assert (i' = i).
  { destruct (lt_eq_lt_dec i' i) as [[L| ->]|L]; [| reflexivity |]; apply le_INR in L; rewrite S_INR in L; lra. }
  subst i'. assert (t' = t) by lra. subst t'.
  destruct C as [[T C]|[Hs C]], C' as [[T' C']|[Hs' C']]; rewrite C, C'; try subst t;
   rewrite <- ?(H i Hi), <- ?(H (S i)) by lia; try ring.
Qed.

Lemma near1_at n i : (i < n)%nat -> near1 n (INR i) = i.
Proof.
  intros Hi. unfold near1. rewrite INR_IZR_INZ, rround_IZR.
  replace (clampZ (Z.of_nat i) 0 (Z.of_nat n - 1)) with (Z.of_nat i) by (unfold clampZ; lia).
  unfold ax. rewrite (proj2 (Z.ltb_ge (Z.of_nat i) 0)) by lia. apply Nat2Z.id.
Qed.
Lemma near1_lt n x : (1 <= n)%nat -> (near1 n x < n)%nat.
Proof.
  intros Hn. unfold near1, ax, clampZ.
  destruct (_ <? 0)%Z eqn:E; [apply Z.ltb_lt in E|apply Z.ltb_ge in E]; lia.
Qed.
(** the nearest method picks a pixel at least as near as any other *)
Lemma near1_nearest n x i : (i < n)%nat -> Rabs (INR (near1 n x) - x) <= Rabs (INR i - x).
Proof.
  intros Hi. assert (N := rround_near x). set (r := rround x) in *.
  assert (E : near1 n x = Z.to_nat (clampZ r 0 (Z.of_nat n - 1))).
  { unfold near1, ax. rewrite (proj2 (Z.ltb_ge _ 0)); [reflexivity|]. unfold clampZ; lia. }
  rewrite E. rewrite (INR_IZR_INZ (Z.to_nat _)), Z2Nat.id by (unfold clampZ; lia).
  rewrite (INR_IZR_INZ i). set (k := Z.of_nat i). assert (K : (0 <= k <= Z.of_nat n - 1)%Z) by lia.
  unfold clampZ. apply Rabs_def2b in N || idtac.
  assert (N' : - (1 / 2) <= x - IZR r <= 1 / 2) by (split; [|eapply Rle_trans; [apply Rle_abs|exact N]];
     assert (Q := Rle_abs (- (x - IZR r))); rewrite Rabs_Ropp in Q; lra).
  assert (M : forall a b : Z, (a < b)%Z -> IZR a + 1 <= IZR b).
  { intros a b L. rewrite <- plus_IZR. apply IZR_le. lia. }
  destruct (Z_lt_le_dec r 0) as [L|L].
  - replace (Z.min (Z.max r 0) (Z.of_nat n - 1)) with 0%Z by lia. apply M in L.
    assert (0 <= IZR k) by (apply IZR_le; lia). rewrite !Rabs_right by (simpl; lra). simpl; lra.
  - destruct (Z_lt_le_dec (Z.of_nat n - 1) r) as [L'|L'].
    + replace (Z.min (Z.max r 0) (Z.of_nat n - 1)) with (Z.of_nat n - 1)%Z by lia. apply M in L'.
      assert (IZR k <= IZR (Z.of_nat n - 1)) by (apply IZR_le; lia).
      rewrite !Rabs_left1 by lra. lra.
    + replace (Z.min (Z.max r 0) (Z.of_nat n - 1)) with r by lia.
      rewrite <- (Rabs_Ropp (IZR r - x)), Ropp_minus_distr.
      destruct (Z.eq_dec k r) as [->|ne]; [rewrite <- (Rabs_Ropp (IZR r - x)), Ropp_minus_distr; lra|].
      apply Rle_trans with (1 / 2); [exact N|].
      destruct (Z_lt_le_dec k r) as [Q|Q]; [apply M in Q; rewrite Rabs_left1; lra|].
      assert (Q' : (r < k)%Z) by lia. apply M in Q'. rewrite Rabs_right; lra.
Qed.

(** ** coordinates *)
Lemma to_pixel_centre n i : (i < n)%nat -> to_pixel n ((2 * INR i + 1) / INR n - 1) = INR i.
Proof. intros H. unfold to_pixel. field. apply not_0_INR. lia. Qed.
Lemma centre_inside n i : (i < n)%nat -> -1 < (2 * INR i + 1) / INR n - 1 < 1.
Proof.
  intros H. assert (A := INR_le_pred i n H). assert (P := pos_INR i).
  assert (N : 0 < INR n) by lra.
  split; [assert (0 < (2 * INR i + 1) / INR n) by (apply Rdiv_lt_0_compat; lra); lra|].
  assert ((2 * INR i + 1) / INR n < 2); [|lra].
  apply Rmult_lt_reg_r with (INR n); [exact N|]. unfold Rdiv. rewrite Rmult_assoc, Rinv_l by lra. lra.
Qed.
Lemma outside_false x : -1 <= x <= 1 -> outside x = false.
Proof. intros H. unfold outside. destruct (Rlt_dec x (-1)); [lra|]. destruct (Rlt_dec 1 x); [lra|reflexivity]. Qed.
Lemma outside_true x : x < -1 \/ 1 < x -> outside x = true.
Proof. intros H. unfold outside. destruct (Rlt_dec x (-1)); [reflexivity|]. destruct (Rlt_dec 1 x); [reflexivity|lra]. Qed.
Lemma clamp_inside x : -1 <= x <= 1 -> clampR x (-1) 1 = x.
Proof. intros H. unfold clampR. rewrite Rmax_left, Rmin_left; lra. Qed.
Lemma clamp_range x : -1 <= clampR x (-1) 1 <= 1.
Proof. unfold clampR. split; [apply Rmin_glb; [apply Rmax_r|lra]|apply Rmin_r]. Qed.
(** the hull of pixel centres lies inside [-1,1] *)
Lemma hull_inside n x : (1 <= n)%nat -> 0 <= to_pixel n x <= INR n - 1 -> -1 <= x <= 1.
Proof. intros Hn H. unfold to_pixel in H. assert (N := INR_pos_lt n Hn). nra. Qed.

(** ** the whole function on [-1,1]: every padding mode agrees *)
Definition valid_padding (p : string) := p = "extrapolate"%string \/ p = "clamp"%string \/ p = "zeros"%string.
Lemma interp2d_linear dx dy h w im x y p : (dx <= 1)%nat -> (dy <= 1)%nat -> valid_padding p -> -1 <= x <= 1 -> -1 <= y <= 1 ->
  interp2d (2%nat, dx, dy) h w im x y "linear" p = Ok (linear2 h w im (to_pixel w x) (to_pixel h y)).
Proof.
  intros Hdx Hdy V Hx Hy. unfold interp2d. rewrite (proj2 (Nat.ltb_ge 1 dx)), (proj2 (Nat.ltb_ge 1 dy)) by lia.
  rewrite !outside_false, !clamp_inside by assumption. destruct V as [->|[->| ->]]; reflexivity.
Qed.
Lemma interp2d_nearest dx dy h w im x y p : (dx <= 1)%nat -> (dy <= 1)%nat -> valid_padding p -> -1 <= x <= 1 -> -1 <= y <= 1 ->
  interp2d (2%nat, dx, dy) h w im x y "nearest" p = Ok (nearest2 h w im (to_pixel w x) (to_pixel h y)).
Proof.
  intros Hdx Hdy V Hx Hy. unfold interp2d. rewrite (proj2 (Nat.ltb_ge 1 dx)), (proj2 (Nat.ltb_ge 1 dy)) by lia.
  rewrite !outside_false, !clamp_inside by assumption. destruct V as [->|[->| ->]]; reflexivity.
Qed.
Definition valid_method (m : string) := m = "linear"%string \/ m = "nearest"%string.

Lemma centre2 dx dy h w im i j m p : (dx <= 1)%nat -> (dy <= 1)%nat -> valid_method m -> valid_padding p ->
  (i < h)%nat -> (j < w)%nat ->
  interp2d (2%nat, dx, dy) h w im ((2 * INR j + 1) / INR w - 1) ((2 * INR i + 1) / INR h - 1) m p = Ok (im i j).
Proof.
  intros Hdx Hdy M V Hi Hj. assert (Cx := centre_inside w j Hj). assert (Cy := centre_inside h i Hi).
  destruct M as [->| ->].
  - rewrite interp2d_linear by (assumption || lra). rewrite !to_pixel_centre by assumption.
    rewrite linear2_lin1, lin1_at by exact Hi. rewrite lin1_at by exact Hj. reflexivity.
  - rewrite interp2d_nearest by (assumption || lra). rewrite !to_pixel_centre by assumption.
    rewrite nearest2_near1, !near1_at by assumption. reflexivity.
Qed.
Lemma bounds2 dx dy h w im x y p lo hi : (dx <= 1)%nat -> (dy <= 1)%nat -> valid_padding p -> (1 <= h)%nat -> (1 <= w)%nat ->
  0 <= to_pixel w x <= INR w - 1 -> 0 <= to_pixel h y <= INR h - 1 ->
  (forall i j, (i < h)%nat -> (j < w)%nat -> Rabs (INR i - to_pixel h y) < 1 -> Rabs (INR j - to_pixel w x) < 1 -> lo <= im i j <= hi) ->
  exists v, interp2d (2%nat, dx, dy) h w im x y "linear" p = Ok v /\ lo <= v <= hi.
Proof.
  intros Hdx Hdy V Hh Hw Hx Hy H. eexists. split.
  - apply interp2d_linear; try assumption; [apply (hull_inside w)|apply (hull_inside h)]; assumption.
  - rewrite linear2_lin1. apply lin1_bounds; [exact Hh|exact Hy|]. intros i Hi Ai.
    apply lin1_bounds; [exact Hw|exact Hx|]. intros j Hj Aj. apply H; assumption.
Qed.
Lemma affine2 dx dy h w im x y p a b c : (dx <= 1)%nat -> (dy <= 1)%nat -> valid_padding p -> (1 <= h)%nat -> (1 <= w)%nat ->
  0 <= to_pixel w x <= INR w - 1 -> 0 <= to_pixel h y <= INR h - 1 ->
  (forall i j, (i < h)%nat -> (j < w)%nat -> im i j = a + b * ((2 * INR j + 1) / INR w - 1) + c * ((2 * INR i + 1) / INR h - 1)) ->
  interp2d (2%nat, dx, dy) h w im x y "linear" p = Ok (a + b * x + c * y).
Proof.
  intros Hdx Hdy V Hh Hw Hx Hy H. rewrite interp2d_linear; try assumption;
    [|apply (hull_inside w); assumption|apply (hull_inside h); assumption].
  apply (f_equal Ok). rewrite linear2_lin1.
  assert (Nh := INR_pos_lt h Hh). assert (Nw := INR_pos_lt w Hw).
  rewrite (lin1_affine h _ (c * 2 / INR h) (a + b * x + c * (/ INR h - 1))); [unfold to_pixel; field; lra|assumption|assumption|].
  intros i Hi. rewrite (lin1_affine w _ (b * 2 / INR w) (a + b * (/ INR w - 1) + c * ((2 * INR i + 1) / INR h - 1)));
    [unfold to_pixel; field; lra|assumption|assumption|].
  intros j Hj. rewrite H by assumption. field. lra.
Qed.
Lemma zeros2 dx dy h w im x y m : (dx <= 1)%nat -> (dy <= 1)%nat -> valid_method m ->
  (x < -1 \/ 1 < x \/ y < -1 \/ 1 < y) -> interp2d (2%nat, dx, dy) h w im x y m "zeros" = Ok 0.
Proof.
  intros Hdx Hdy M H. unfold interp2d. rewrite (proj2 (Nat.ltb_ge 1 dx)), (proj2 (Nat.ltb_ge 1 dy)) by lia.
  assert (E : outside y || outside x = true).
  { apply orb_true_iff. destruct H as [H|[H|H]]; [right|right|left]; apply outside_true; auto. }
  rewrite E. destruct M as [->| ->]; reflexivity.
Qed.
Lemma clamp2 dx dy h w im x y m p : (dx <= 1)%nat -> (dy <= 1)%nat -> valid_method m -> valid_padding p ->
  interp2d (2%nat, dx, dy) h w im x y m "clamp" =
  interp2d (2%nat, dx, dy) h w im (Rmax (-1) (Rmin 1 x)) (Rmax (-1) (Rmin 1 y)) m p.
Proof.
  intros Hdx Hdy M V.
  assert (E : forall v, Rmax (-1) (Rmin 1 v) = clampR v (-1) 1).
  { intros v. unfold clampR, Rmax, Rmin. repeat destruct (Rle_dec _ _); lra. }
  rewrite !E. assert (Cx := clamp_range x). assert (Cy := clamp_range y).
  transitivity (interp2d (2%nat, dx, dy) h w im (clampR x (-1) 1) (clampR y (-1) 1) m "clamp").
  - unfold interp2d. rewrite (proj2 (Nat.ltb_ge 1 dx)), (proj2 (Nat.ltb_ge 1 dy)) by lia.
    cbn [String.eqb negb mem_str existsb Nat.eqb orb]. rewrite !(clamp_inside (clampR _ _ _)) by assumption. reflexivity.
  - destruct M as [->| ->]; [rewrite !interp2d_linear|rewrite !interp2d_nearest]; unfold valid_padding; auto.
Qed.
(** the nearest method *)
Lemma nearest2_spec dx dy h w im x y p : (dx <= 1)%nat -> (dy <= 1)%nat -> valid_padding p -> (1 <= h)%nat -> (1 <= w)%nat ->
  -1 <= x <= 1 -> -1 <= y <= 1 -> exists i j, (i < h)%nat /\ (j < w)%nat /\
  interp2d (2%nat, dx, dy) h w im x y "nearest" p = Ok (im i j) /\
  (forall i', (i' < h)%nat -> Rabs (INR i - to_pixel h y) <= Rabs (INR i' - to_pixel h y)) /\
  (forall j', (j' < w)%nat -> Rabs (INR j - to_pixel w x) <= Rabs (INR j' - to_pixel w x)).
Proof.
  intros Hdx Hdy V Hh Hw Hx Hy. exists (near1 h (to_pixel h y)), (near1 w (to_pixel w x)).
  split; [apply near1_lt, Hh|]. split; [apply near1_lt, Hw|]. split; [|split; intros; apply near1_nearest; assumption].
  rewrite interp2d_nearest by assumption. reflexivity.
Qed.
Lemma error2 di dx dy h w im x y m p : di <> 2%nat \/ (1 < dx)%nat \/ (1 < dy)%nat \/ ~ valid_method m \/ ~ valid_padding p ->
  interp2d (di, dx, dy) h w im x y m p = Raise ValueError.
Proof.
  intros H. unfold interp2d.
  destruct (Nat.eqb_spec di 2) as [|]; [|reflexivity]. cbn [negb].
  destruct (Nat.ltb_spec 1 dx); [reflexivity|]. destruct (Nat.ltb_spec 1 dy); [reflexivity|].
  unfold mem_str, existsb. destruct (String.eqb_spec p "extrapolate") as [E1|N1], (String.eqb_spec p "clamp") as [E2|N2],
   (String.eqb_spec p "zeros") as [E3|N3]; cbn [orb negb]; try reflexivity;
   destruct (String.eqb_spec m "nearest") as [M1|M1]; try (destruct (String.eqb_spec m "linear") as [M2|M2]); try reflexivity;
   exfalso; unfold valid_method, valid_padding in H; intuition lia.
Qed.

(** ** three dimensions *)
Definition valid_padding3 (p : string) := p = "extrapolate"%string \/ p = "zeros"%string.
Lemma interp3d_linear dt d h w cu x y t p : (dt <= 1)%nat -> valid_padding3 p -> -1 <= x <= 1 -> -1 <= y <= 1 -> -1 <= t <= 1 ->
  interp3d (3%nat, dt) d h w cu x y t "linear" p = Ok (linear3 d h w cu (to_pixel w x) (to_pixel h y) (to_pixel d t)).
Proof.
  intros Hd V Hx Hy Ht. unfold interp3d. rewrite (proj2 (Nat.ltb_ge 1 dt)) by lia.
  rewrite !outside_false by assumption. destruct V as [->| ->]; reflexivity.
Qed.
Lemma interp3d_nearest dt d h w cu x y t p : (dt <= 1)%nat -> valid_padding3 p -> -1 <= x <= 1 -> -1 <= y <= 1 -> -1 <= t <= 1 ->
  interp3d (3%nat, dt) d h w cu x y t "nearest" p =
  Ok (cu (near1 d (to_pixel d t)) (near1 h (to_pixel h y)) (near1 w (to_pixel w x))).
Proof.
  intros Hd V Hx Hy Ht. unfold interp3d. rewrite (proj2 (Nat.ltb_ge 1 dt)) by lia.
  rewrite !outside_false by assumption. destruct V as [->| ->]; reflexivity.
Qed.
Lemma centre3 dt d h w cu k i j m p : (dt <= 1)%nat -> valid_method m -> valid_padding3 p ->
  (k < d)%nat -> (i < h)%nat -> (j < w)%nat ->
  interp3d (3%nat, dt) d h w cu ((2 * INR j + 1) / INR w - 1) ((2 * INR i + 1) / INR h - 1) ((2 * INR k + 1) / INR d - 1) m p =
  Ok (cu k i j).
Proof.
  intros Hd M V Hk Hi Hj. assert (Cx := centre_inside w j Hj). assert (Cy := centre_inside h i Hi). assert (Ct := centre_inside d k Hk).
  destruct M as [->| ->].
  - rewrite interp3d_linear by (assumption || lra). rewrite !to_pixel_centre by assumption.
    rewrite linear3_lin1, lin1_at by exact Hk. rewrite lin1_at by exact Hi. rewrite lin1_at by exact Hj. reflexivity.
  - rewrite interp3d_nearest by (assumption || lra). rewrite !to_pixel_centre, !near1_at by assumption. reflexivity.
Qed.
Lemma bounds3 dt d h w cu x y t p lo hi : (dt <= 1)%nat -> valid_padding3 p -> (1 <= d)%nat -> (1 <= h)%nat -> (1 <= w)%nat ->
  0 <= to_pixel w x <= INR w - 1 -> 0 <= to_pixel h y <= INR h - 1 -> 0 <= to_pixel d t <= INR d - 1 ->
  (forall k i j, (k < d)%nat -> (i < h)%nat -> (j < w)%nat -> Rabs (INR k - to_pixel d t) < 1 ->
    Rabs (INR i - to_pixel h y) < 1 -> Rabs (INR j - to_pixel w x) < 1 -> lo <= cu k i j <= hi) ->
  exists v, interp3d (3%nat, dt) d h w cu x y t "linear" p = Ok v /\ lo <= v <= hi.
Proof.
  intros Hdt V Hd Hh Hw Hx Hy Ht H. eexists. split.
  - apply interp3d_linear; try assumption; [apply (hull_inside w)|apply (hull_inside h)|apply (hull_inside d)]; assumption.
  - rewrite linear3_lin1. apply lin1_bounds; [exact Hd|exact Ht|]. intros k Hk Ak.
    apply lin1_bounds; [exact Hh|exact Hy|]. intros i Hi Ai.
    apply lin1_bounds; [exact Hw|exact Hx|]. intros j Hj Aj. apply H; assumption.
Qed.
Lemma affine3 dt d h w cu x y t p a b c e : (dt <= 1)%nat -> valid_padding3 p -> (1 <= d)%nat -> (1 <= h)%nat -> (1 <= w)%nat ->
  0 <= to_pixel w x <= INR w - 1 -> 0 <= to_pixel h y <= INR h - 1 -> 0 <= to_pixel d t <= INR d - 1 ->
  (forall k i j, (k < d)%nat -> (i < h)%nat -> (j < w)%nat -> cu k i j =
     a + b * ((2 * INR j + 1) / INR w - 1) + c * ((2 * INR i + 1) / INR h - 1) + e * ((2 * INR k + 1) / INR d - 1)) ->
  interp3d (3%nat, dt) d h w cu x y t "linear" p = Ok (a + b * x + c * y + e * t).
Proof.
  intros Hdt V Hd Hh Hw Hx Hy Ht H. rewrite interp3d_linear; try assumption;
    [|apply (hull_inside w); assumption|apply (hull_inside h); assumption|apply (hull_inside d); assumption].
  apply (f_equal Ok). rewrite linear3_lin1.
  assert (Nh := INR_pos_lt h Hh). assert (Nw := INR_pos_lt w Hw). assert (Nd := INR_pos_lt d Hd).
  rewrite (lin1_affine d _ (e * 2 / INR d) (a + b * x + c * y + e * (/ INR d - 1))); [unfold to_pixel; field; lra|assumption|assumption|].
  intros k Hk.
  rewrite (lin1_affine h _ (c * 2 / INR h) (a + b * x + c * (/ INR h - 1) + e * ((2 * INR k + 1) / INR d - 1)));
    [unfold to_pixel; field; lra|assumption|assumption|].
  intros i Hi. rewrite (lin1_affine w _ (b * 2 / INR w)
     (a + b * (/ INR w - 1) + c * ((2 * INR i + 1) / INR h - 1) + e * ((2 * INR k + 1) / INR d - 1)));
    [unfold to_pixel; field; lra|assumption|assumption|].
  intros j Hj. rewrite H by assumption. field. lra.
Qed.
Lemma zeros3 dt d h w cu x y t m : (dt <= 1)%nat -> valid_method m ->
  (x < -1 \/ 1 < x \/ y < -1 \/ 1 < y \/ t < -1 \/ 1 < t) -> interp3d (3%nat, dt) d h w cu x y t m "zeros" = Ok 0.
Proof.
  intros Hd M H. unfold interp3d. rewrite (proj2 (Nat.ltb_ge 1 dt)) by lia.
  assert (E : outside y || outside x || outside t = true).
  { rewrite !orb_true_iff. destruct H as [H|[H|[H|[H|H]]]];
     [left; right|left; right|left; left|left; left|right]; apply outside_true; auto. }
  rewrite E. destruct M as [->| ->]; reflexivity.
Qed.
Lemma nearest3_spec dt d h w cu x y t p : (dt <= 1)%nat -> valid_padding3 p -> (1 <= d)%nat -> (1 <= h)%nat -> (1 <= w)%nat ->
  -1 <= x <= 1 -> -1 <= y <= 1 -> -1 <= t <= 1 -> exists k i j, (k < d)%nat /\ (i < h)%nat /\ (j < w)%nat /\
  interp3d (3%nat, dt) d h w cu x y t "nearest" p = Ok (cu k i j) /\
  (forall k', (k' < d)%nat -> Rabs (INR k - to_pixel d t) <= Rabs (INR k' - to_pixel d t)) /\
  (forall i', (i' < h)%nat -> Rabs (INR i - to_pixel h y) <= Rabs (INR i' - to_pixel h y)) /\
  (forall j', (j' < w)%nat -> Rabs (INR j - to_pixel w x) <= Rabs (INR j' - to_pixel w x)).
Proof.
  intros Hdt V Hd Hh Hw Hx Hy Ht. exists (near1 d (to_pixel d t)), (near1 h (to_pixel h y)), (near1 w (to_pixel w x)).
  split; [apply near1_lt, Hd|]. split; [apply near1_lt, Hh|]. split; [apply near1_lt, Hw|].
  split; [apply interp3d_nearest; assumption|]. repeat split; intros; apply near1_nearest; assumption.
Qed.
Lemma error3 di dt d h w cu x y t m p : di <> 3%nat \/ (1 < dt)%nat \/ ~ valid_method m \/ ~ valid_padding3 p ->
  interp3d (di, dt) d h w cu x y t m p = Raise ValueError.
Proof.
  intros H. unfold interp3d.
  destruct (Nat.eqb_spec di 3) as [|]; [|reflexivity]. cbn [negb].
  destruct (Nat.ltb_spec 1 dt); [reflexivity|].
  unfold mem_str, existsb. destruct (String.eqb_spec p "extrapolate") as [E1|N1], (String.eqb_spec p "zeros") as [E3|N3];
   cbn [orb negb]; try reflexivity;
   destruct (String.eqb_spec m "nearest") as [M1|M1]; try (destruct (String.eqb_spec m "linear") as [M2|M2]); try reflexivity;
   exfalso; unfold valid_method, valid_padding3 in H; intuition lia.
Qed.

(** ** in terms of pixel centres *)
Lemma to_pixel_dist n x i : (1 <= n)%nat -> Rabs (INR i - to_pixel n x) = INR n / 2 * Rabs (centre n i - x).
Proof.
  intros Hn. assert (N := INR_pos_lt n Hn). rewrite <- (Rabs_right (INR n / 2)) at 1 by lra. rewrite <- Rabs_mult.
  f_equal. unfold to_pixel, centre. field. lra.
Qed.
Lemma hull_pixel n x : (1 <= n)%nat -> in_hull n x -> 0 <= to_pixel n x <= INR n - 1.
Proof.
  intros Hn [H1 H2]. assert (N := INR_pos_lt n Hn). unfold to_pixel, centre in *.
  rewrite minus_INR in H2 by lia. simpl INR in *.
  assert (A : (2 * 0 + 1) <= (x + 1) * INR n).
  { apply Rmult_le_reg_r with (/ INR n); [apply Rinv_0_lt_compat; lra|]. rewrite Rmult_assoc, Rinv_r by lra. unfold Rdiv in *; lra. }
  assert (B : (x + 1) * INR n <= 2 * (INR n - 1) + 1).
  { apply Rmult_le_reg_r with (/ INR n); [apply Rinv_0_lt_compat; lra|]. rewrite Rmult_assoc, Rinv_r by lra. unfold Rdiv in *; lra. }
  lra.
Qed.
Lemma pixel_near n x i : (1 <= n)%nat -> Rabs (INR i - to_pixel n x) < 1 -> Rabs (centre n i - x) < 2 / INR n.
Proof.
  intros Hn H. rewrite to_pixel_dist in H by exact Hn. assert (N := INR_pos_lt n Hn).
  apply Rmult_lt_reg_l with (INR n / 2); [lra|]. replace (INR n / 2 * (2 / INR n)) with 1 by (field; lra). exact H.
Qed.
Lemma pixel_closest n x i : (i < n)%nat ->
  (forall i', (i' < n)%nat -> Rabs (INR i - to_pixel n x) <= Rabs (INR i' - to_pixel n x)) -> closest n x i.
Proof.
  intros Hi H. split; [exact Hi|]. intros i' Hi'. specialize (H i' Hi'). rewrite !to_pixel_dist in H by lia.
  assert (N : 1 <= INR n) by (apply INR_pos_lt; lia). apply Rmult_le_reg_l with (INR n / 2); [lra|exact H].
Qed.
Section Final.
Variables (dx dy dt : nat) (Hdx : (dx <= 1)%nat) (Hdy : (dy <= 1)%nat) (Hdt : (dt <= 1)%nat).
Lemma final_bounds2 h w im x y p lo hi : is_padding2 p -> (1 <= h)%nat -> (1 <= w)%nat -> in_hull w x -> in_hull h y ->
  (forall i j, surrounds h y i -> surrounds w x j -> lo <= im i j <= hi) ->
  exists v, interp2d (2%nat, dx, dy) h w im x y "linear" p = Ok v /\ lo <= v <= hi.
Proof.
  intros V Hh Hw Hx Hy H. apply bounds2; try assumption; try (apply hull_pixel; assumption).
  intros i j Hi Hj Ai Aj. apply H; (split; [assumption|apply pixel_near; assumption]).
Qed.
Lemma final_affine2 h w im x y p a b c : is_padding2 p -> (1 <= h)%nat -> (1 <= w)%nat -> in_hull w x -> in_hull h y ->
  (forall i j, (i < h)%nat -> (j < w)%nat -> im i j = a + b * centre w j + c * centre h i) ->
  interp2d (2%nat, dx, dy) h w im x y "linear" p = Ok (a + b * x + c * y).
Proof. intros V Hh Hw Hx Hy H. apply affine2; try assumption; apply hull_pixel; assumption. Qed.
Lemma final_nearest2 h w im x y p : is_padding2 p -> (1 <= h)%nat -> (1 <= w)%nat -> -1 <= x <= 1 -> -1 <= y <= 1 ->
  exists i j, closest h y i /\ closest w x j /\ interp2d (2%nat, dx, dy) h w im x y "nearest" p = Ok (im i j).
Proof.
  intros V Hh Hw Hx Hy. destruct (nearest2_spec dx dy h w im x y p) as (i & j & Hi & Hj & E & A & B); try assumption.
  exists i, j. split; [apply pixel_closest; assumption|]. split; [apply pixel_closest; assumption|exact E].
Qed.
Lemma final_bounds3 d h w cu x y t p lo hi : is_padding3 p -> (1 <= d)%nat -> (1 <= h)%nat -> (1 <= w)%nat ->
  in_hull w x -> in_hull h y -> in_hull d t ->
  (forall k i j, surrounds d t k -> surrounds h y i -> surrounds w x j -> lo <= cu k i j <= hi) ->
  exists v, interp3d (3%nat, dt) d h w cu x y t "linear" p = Ok v /\ lo <= v <= hi.
Proof.
  intros V Hd Hh Hw Hx Hy Ht H. apply bounds3; try assumption; try (apply hull_pixel; assumption).
  intros k i j Hk Hi Hj Ak Ai Aj. apply H; (split; [assumption|apply pixel_near; assumption]).
Qed.
Lemma final_affine3 d h w cu x y t p a b c e : is_padding3 p -> (1 <= d)%nat -> (1 <= h)%nat -> (1 <= w)%nat ->
  in_hull w x -> in_hull h y -> in_hull d t ->
  (forall k i j, (k < d)%nat -> (i < h)%nat -> (j < w)%nat -> cu k i j = a + b * centre w j + c * centre h i + e * centre d k) ->
  interp3d (3%nat, dt) d h w cu x y t "linear" p = Ok (a + b * x + c * y + e * t).
Proof. intros V Hd Hh Hw Hx Hy Ht H. apply affine3; try assumption; apply hull_pixel; assumption. Qed.
Lemma final_nearest3 d h w cu x y t p : is_padding3 p -> (1 <= d)%nat -> (1 <= h)%nat -> (1 <= w)%nat ->
  -1 <= x <= 1 -> -1 <= y <= 1 -> -1 <= t <= 1 -> exists k i j, closest d t k /\ closest h y i /\ closest w x j /\
  interp3d (3%nat, dt) d h w cu x y t "nearest" p = Ok (cu k i j).
Proof.
  intros V Hd Hh Hw Hx Hy Ht.
  destruct (nearest3_spec dt d h w cu x y t p) as (k & i & j & Hk & Hi & Hj & E & A & B & C); try assumption.
  exists k, i, j. split; [apply pixel_closest; assumption|]. split; [apply pixel_closest; assumption|].
  split; [apply pixel_closest; assumption|exact E].
Qed.
End Final.
