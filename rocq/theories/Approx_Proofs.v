(** * Pixelated maps approximate what they sample *)
From Coq Require Import Reals ZArith Lra Lia Psatz String.
From Coquelicot Require Import Coquelicot.
From Verif Require Import Py RealFun Interp2_Model Interp2_Spec Interp2_Proofs PixMap_Model PixMap_Spec PixConv_Model Approx_Spec.
Local Open Scope R_scope.

(** ** linear interpolation of one smooth function *)
Lemma rises (f df : R -> R) a b : a <= b -> (forall s, a <= s <= b -> is_derive f s (df s)) -> (forall s, a <= s <= b -> 0 <= df s) -> f a <= f b.
Proof.
  intros Hab Hd Hp. destruct (MVT_gen f a b df) as (w & Hw & E).
  - rewrite Rmin_left, Rmax_right by lra. intros u Hu. apply Hd; lra.
  - rewrite Rmin_left, Rmax_right by lra. intros u Hu. apply continuity_pt_filterlim. apply (ex_derive_continuous f). exists (df u). apply Hd; lra.
  - rewrite Rmin_left, Rmax_right in Hw by lra. specialize (Hp w Hw). assert (0 <= df w * (b - a)) by (apply Rmult_le_pos; lra). lra.
Qed.
Lemma convex3 (g g1 g2 : R -> R) p q r : p <= q <= r -> (forall s, p <= s <= r -> is_derive g s (g1 s) /\ is_derive g1 s (g2 s) /\ 0 <= g2 s) ->
  (r - p) * g q <= (r - q) * g p + (q - p) * g r.
Proof.
  intros H D.
  assert (L : forall a b s, p <= a -> b <= r -> a <= s <= b -> g1 a <= g1 s <= g1 b).
  { intros a b s Ha Hb Hs. split; apply (rises g1 g2); try lra; intros v Hv; apply D; lra. }
  assert (A : g q - g p <= g1 q * (q - p)).
  { assert (Q := rises (fun s => g1 q * s - g s) (fun s => g1 q - g1 s) p q (proj1 H)). cbv beta in Q. lapply Q; [clear Q; intros Q; lapply Q; [lra|]|].
    - intros s Hs. assert (W := L s q s ltac:(lra) ltac:(lra) ltac:(lra)). lra.
    - intros s Hs. apply (is_derive_minus (fun s => g1 q * s) g); [auto_derive; [exact I|ring]|apply D; lra]. }
  assert (B : g1 q * (r - q) <= g r - g q).
  { assert (Q := rises (fun s => g s - g1 q * s) (fun s => g1 s - g1 q) q r (proj2 H)). cbv beta in Q. lapply Q; [clear Q; intros Q; lapply Q; [lra|]|].
    - intros s Hs. assert (W := L q r s ltac:(lra) ltac:(lra) ltac:(lra)). lra.
    - intros s Hs. apply (is_derive_minus g (fun s => g1 q * s)); [apply D; lra|auto_derive; [exact I|ring]]. }
  assert (A' := Rmult_le_compat_l (r - q) _ _ ltac:(lra) A). assert (B' := Rmult_le_compat_l (q - p) _ _ ltac:(lra) B). nra.
Qed.
(** three points of a function of bounded second derivative *)
Lemma bend3 f lo hi M p q r : bends f lo hi M -> lo <= p -> p <= q <= r -> r <= hi ->
  Rabs ((r - q) * f p + (q - p) * f r - (r - p) * f q) <= M / 2 * ((r - q) * (q - p) * (r - p)).
Proof.
  intros (f1 & f2 & D) Hp H Hr.
  assert (A := convex3 (fun s => M / 2 * s ^ 2 + f s) (fun s => M * s + f1 s) (fun s => M + f2 s) p q r H).
  assert (B := convex3 (fun s => M / 2 * s ^ 2 - f s) (fun s => M * s - f1 s) (fun s => M - f2 s) p q r H).
  cbv beta in A, B. lapply A; [clear A; intros A; lapply B; [clear B; intros B|]|].
  - apply Rabs_le. split; nra.
  - intros s Hs. destruct (D s ltac:(lra)) as (D1 & D2 & D3). apply Rabs_le_between in D3. split; [|split; [|lra]].
    + apply (is_derive_minus (fun s => M / 2 * s ^ 2) f); [auto_derive; [exact I|field]|exact D1].
    + apply (is_derive_minus (fun s => M * s) f1); [auto_derive; [exact I|ring]|exact D2].
  - intros s Hs. destruct (D s ltac:(lra)) as (D1 & D2 & D3). apply Rabs_le_between in D3. split; [|split; [|lra]].
    + apply (is_derive_plus (fun s => M / 2 * s ^ 2) f); [auto_derive; [exact I|field]|exact D1].
    + apply (is_derive_plus (fun s => M * s) f1); [auto_derive; [exact I|ring]|exact D2].
Qed.
Lemma bends_nonneg f lo hi M : lo <= hi -> bends f lo hi M -> 0 <= M.
Proof. intros H (f1 & f2 & D). destruct (D lo ltac:(lra)) as (_ & _ & A). assert (B := Rabs_pos (f2 lo)). lra. Qed.
(** two samples a distance ps apart, a query t pixels from the first; t may lie outside [0,1] *)
Lemma approx_cell f lo hi M a ps t : bends f lo hi M -> 0 < ps -> lo <= a -> a + ps <= hi -> lo <= a + t * ps <= hi ->
  Rabs (f a * (1 - t) + f (a + ps) * t - f (a + t * ps)) <= M / 2 * Rabs (t * (1 - t)) * ps ^ 2.
Proof.
  intros B P H1 H2 H3. assert (M0 := bends_nonneg f lo hi M ltac:(lra) B).
  destruct (Rle_dec 0 t) as [T0|T0]; [destruct (Rle_dec t 1) as [T1|T1]|].
  - rewrite (Rabs_pos_eq (t * (1 - t))) by nra.
    assert (Q := bend3 f lo hi M a (a + t * ps) (a + ps) B H1 ltac:(split; nra) H2).
    match type of Q with Rabs ?e <= ?b => replace e with (ps * (f a * (1 - t) + f (a + ps) * t - f (a + t * ps))) in Q by ring;
      replace b with (ps * (M / 2 * (t * (1 - t)) * ps ^ 2)) in Q by ring end.
    rewrite Rabs_mult, (Rabs_pos_eq ps) in Q by lra. apply Rmult_le_reg_l in Q; assumption.
  - rewrite (Rabs_left (t * (1 - t))) by nra.
    assert (Q := bend3 f lo hi M a (a + ps) (a + t * ps) B H1 ltac:(split; nra) ltac:(lra)).
    match type of Q with Rabs ?e <= ?b => replace e with (- (ps * (f a * (1 - t) + f (a + ps) * t - f (a + t * ps)))) in Q by ring;
      replace b with (ps * (M / 2 * - (t * (1 - t)) * ps ^ 2)) in Q by ring end.
    rewrite Rabs_Ropp, Rabs_mult, (Rabs_pos_eq ps) in Q by lra. apply Rmult_le_reg_l in Q; assumption.
  - rewrite (Rabs_left (t * (1 - t))) by nra.
    assert (Q := bend3 f lo hi M (a + t * ps) a (a + ps) B ltac:(lra) ltac:(split; nra) H2).
    match type of Q with Rabs ?e <= ?b => replace e with (- (ps * (f a * (1 - t) + f (a + ps) * t - f (a + t * ps)))) in Q by ring;
      replace b with (ps * (M / 2 * - (t * (1 - t)) * ps ^ 2)) in Q by ring end.
    rewrite Rabs_Ropp, Rabs_mult, (Rabs_pos_eq ps) in Q by lra. apply Rmult_le_reg_l in Q; assumption.
Qed.

(** ** the weights *)
Definition covers (n : nat) (X c k : R) : Prop := exists i t, (S i < n)%nat /\ X = INR i + t /\ (forall f, lin1 n f X = f i * (1 - t) + f (S i) * t) /\
  Rabs (t * (1 - t)) <= 2 * c /\ Rabs (1 - t) + Rabs t <= k.
Lemma lin1_weights n X : (2 <= n)%nat -> - (1 / 2) <= X <= INR n - 1 / 2 -> exists i t, (S i < n)%nat /\ X = INR i + t /\ (forall f, lin1 n f X = f i * (1 - t) + f (S i) * t) /\
  - (1 / 2) <= t <= 3 / 2 /\ (0 <= X <= INR n - 1 -> 0 <= t <= 1).
Proof.
  intros Hn HX. set (x0 := clampZ (rfloor X) 0 (Z.of_nat n - 2)). assert (B : (0 <= x0 <= Z.of_nat n - 2)%Z) by (unfold x0, clampZ; lia).
  assert (E : INR (Z.to_nat x0) = IZR x0) by (rewrite INR_IZR_INZ, Z2Nat.id by lia; reflexivity). assert (F := rfloor_spec X).
  assert (N : IZR (Z.of_nat n) = INR n) by (rewrite INR_IZR_INZ; reflexivity).
  exists (Z.to_nat x0), (X - IZR x0). split; [lia|]. split; [rewrite E; ring|]. split.
  { intros f. unfold lin1. fold x0. unfold ax. rewrite (proj2 (Z.ltb_ge x0 0)), (proj2 (Z.ltb_ge (x0 + 1) 0)) by lia.
    replace (Z.to_nat (x0 + 1)) with (S (Z.to_nat x0)) by lia. reflexivity. }
  destruct (Z.lt_ge_cases (rfloor X) 0) as [L|L].
  - assert (x0 = 0)%Z as -> by (unfold x0, clampZ; lia). assert (L' : IZR (rfloor X) <= -1) by (apply IZR_le; lia). split; [lra|]. lra.
  - destruct (Z.le_gt_cases (rfloor X) (Z.of_nat n - 2)) as [U|U].
    + assert (x0 = rfloor X) as -> by (unfold x0, clampZ; lia). split; [lra|]. lra.
    + assert (Ex : x0 = (Z.of_nat n - 2)%Z) by (unfold x0, clampZ; lia). rewrite Ex, minus_IZR, N. assert (U' : IZR (Z.of_nat n - 1) <= IZR (rfloor X)) by (apply IZR_le; lia).
      rewrite minus_IZR, N in U'. split; [lra|]. lra.
Qed.
Lemma covers_inner n X : (2 <= n)%nat -> 0 <= X <= INR n - 1 -> covers n X (1 / 8) 1.
Proof.
  intros Hn HX. destruct (lin1_weights n X Hn ltac:(lra)) as (i & t & H1 & H2 & H3 & H4 & H5). specialize (H5 HX). exists i, t. repeat split; try assumption.
  - rewrite Rabs_pos_eq by nra. assert (0 <= (t - 1 / 2) ^ 2) by apply pow2_ge_0. nra.
  - rewrite !Rabs_pos_eq by lra. lra.
Qed.
Lemma covers_rim n X : (2 <= n)%nat -> - (1 / 2) <= X <= INR n - 1 / 2 -> covers n X (3 / 8) 2.
Proof.
  intros Hn HX. destruct (lin1_weights n X Hn HX) as (i & t & H1 & H2 & H3 & H4 & _). exists i, t. repeat split; try assumption.
  - apply Rabs_le. split; nra.
  - destruct (Rle_dec 0 t); [destruct (Rle_dec t 1)|].
    + rewrite !Rabs_pos_eq by lra. lra.
    + rewrite (Rabs_left (1 - t)), (Rabs_pos_eq t) by lra. lra.
    + rewrite (Rabs_pos_eq (1 - t)), (Rabs_left t) by lra. lra.
Qed.
(** a query of pixel position X is at this place on the sky *)
Definition place (x0 ps : R) (n : nat) (X : R) : R := x0 + (X - (INR n - 1) / 2) * ps.
Lemma approx1 n (f : R -> R) x0 ps M lo hi X c k : covers n X c k -> 0 < ps -> bends f lo hi M -> lo <= pixel_centre x0 ps n 0 -> pixel_centre x0 ps n (n - 1) <= hi ->
  lo <= place x0 ps n X <= hi -> Rabs (lin1 n (fun i => f (pixel_centre x0 ps n i)) X - f (place x0 ps n X)) <= ps ^ 2 * (c * M).
Proof.
  intros (i & t & Hi & HX & E & C & _) P B L U HP. rewrite E. assert (M0 := bends_nonneg f lo hi M ltac:(lra) B).
  set (a := pixel_centre x0 ps n i). assert (Ea : pixel_centre x0 ps n (S i) = a + ps) by (unfold a, pixel_centre; rewrite S_INR; ring).
  assert (Ep : place x0 ps n X = a + t * ps) by (unfold place, a, pixel_centre; rewrite HX; ring). rewrite Ea, Ep in *.
  assert (I0 := pos_INR i). assert (I1 : INR (S i) <= INR (n - 1)) by (apply le_INR; lia). rewrite S_INR in I1.
  assert (Q := approx_cell f lo hi M a ps t B P). lapply Q; [clear Q; intros Q; lapply Q; [clear Q; intros Q|]|].
  - specialize (Q HP). eapply Rle_trans; [exact Q|]. replace (ps ^ 2 * (c * M)) with (M / 2 * (2 * c) * ps ^ 2) by field.
    apply Rmult_le_compat_r; [apply pow2_ge_0|]. apply Rmult_le_compat_l; lra.
  - eapply Rle_trans; [|exact U]. unfold a, pixel_centre. nra.
  - eapply Rle_trans; [exact L|]. unfold a, pixel_centre. cbn [INR]. nra.
Qed.
Lemma lin1_stable n e E X c k : covers n X c k -> (forall i, (i < n)%nat -> Rabs (e i) <= E) -> Rabs (lin1 n e X) <= k * E.
Proof.
  intros (i & t & Hi & _ & HE & _ & K) B. rewrite HE. assert (B0 := B i ltac:(lia)). assert (B1 := B (S i) Hi).
  eapply Rle_trans; [apply Rabs_triang|]. rewrite !Rabs_mult. assert (P0 := Rabs_pos (1 - t)). assert (P1 := Rabs_pos t).
  assert (E0 : 0 <= E) by (assert (Q := Rabs_pos (e i)); lra).
  assert (A := Rmult_le_compat_r _ _ _ P0 B0). assert (A1 := Rmult_le_compat_r _ _ _ P1 B1). assert (A2 := Rmult_le_compat_r _ _ _ E0 K). lra.
Qed.
Lemma lin1_minus n f g X c k : covers n X c k -> lin1 n f X - lin1 n g X = lin1 n (fun i => f i - g i) X.
Proof. intros (i & t & _ & _ & HE & _). rewrite !HE. ring. Qed.

Lemma covers_k n X c k : covers n X c k -> 0 <= k.
Proof. intros (i & t & _ & _ & _ & _ & K). assert (P0 := Rabs_pos (1 - t)). assert (P1 := Rabs_pos t). lra. Qed.

(** ** images and cubes *)
Lemma centre_mono x0 ps n i j : 0 < ps -> (i <= j)%nat -> pixel_centre x0 ps n i <= pixel_centre x0 ps n j.
Proof. intros P H. apply le_INR in H. unfold pixel_centre. nra. Qed.
Section Two.
Variables (f : R -> R -> R) (x0 y0 ps lx hx ly hy Mx My : R) (h w : nat).
Hypothesis (P : 0 < ps) (Hf : scene f lx hx ly hy Mx My).
Hypothesis (Lx : lx <= pixel_centre x0 ps w 0) (Ux : pixel_centre x0 ps w (w - 1) <= hx).
Hypothesis (Ly : ly <= pixel_centre y0 ps h 0) (Uy : pixel_centre y0 ps h (h - 1) <= hy).
Lemma approx2 X Y cx kx cy ky : covers w X cx kx -> covers h Y cy ky -> lx <= place x0 ps w X <= hx -> ly <= place y0 ps h Y <= hy ->
  Rabs (linear2 h w (sampled f x0 y0 ps h w) X Y - f (place x0 ps w X) (place y0 ps h Y)) <= ps ^ 2 * (ky * (cx * Mx) + cy * My).
Proof.
  intros CX CY HX HY. rewrite linear2_lin1. set (x := place x0 ps w X) in *. set (y := place y0 ps h Y) in *.
  assert (A : Rabs (lin1 h (fun i => f x (pixel_centre y0 ps h i)) Y - f x y) <= ps ^ 2 * (cy * My)).
  { apply (approx1 h (f x) y0 ps My ly hy Y cy ky CY P); try assumption. apply (proj2 Hf). exact HX. }
  assert (B : Rabs (lin1 h (fun i => lin1 w (fun j => sampled f x0 y0 ps h w i j) X - f x (pixel_centre y0 ps h i)) Y) <= ky * (ps ^ 2 * (cx * Mx))).
  { apply (lin1_stable h _ _ Y cy ky CY). intros i Hi. apply (approx1 w (fun s => f s (pixel_centre y0 ps h i)) x0 ps Mx lx hx X cx kx CX P); try assumption.
    apply (proj1 Hf). assert (Q := centre_mono y0 ps h 0 i P ltac:(lia)). assert (Q' := centre_mono y0 ps h i (h - 1) P ltac:(lia)). lra. }
  rewrite <- (lin1_minus h _ _ Y cy ky CY) in B.
  match goal with |- Rabs (?a - ?b) <= _ => replace (a - b) with ((a - lin1 h (fun i => f x (pixel_centre y0 ps h i)) Y) + (lin1 h (fun i => f x (pixel_centre y0 ps h i)) Y - b)) by ring end.
  eapply Rle_trans; [apply Rabs_triang|]. lra.
Qed.
End Two.
Section Three.
Variables (f : R -> R -> R -> R) (x0 y0 ps t0 ts lx hx ly hy lt ht Mx My Mt : R) (d h w : nat).
Hypothesis (P : 0 < ps) (T : 0 < ts) (Hf : scene3 f lx hx ly hy lt ht Mx My Mt).
Hypothesis (Lx : lx <= pixel_centre x0 ps w 0) (Ux : pixel_centre x0 ps w (w - 1) <= hx).
Hypothesis (Ly : ly <= pixel_centre y0 ps h 0) (Uy : pixel_centre y0 ps h (h - 1) <= hy).
Hypothesis (Lt : lt <= pixel_centre t0 ts d 0) (Ut : pixel_centre t0 ts d (d - 1) <= ht).
Lemma approx3 X Y V cx kx cy ky ct kt : covers w X cx kx -> covers h Y cy ky -> covers d V ct kt ->
  lx <= place x0 ps w X <= hx -> ly <= place y0 ps h Y <= hy -> lt <= place t0 ts d V <= ht ->
  Rabs (linear3 d h w (fun k => sampled (fun x y => f x y (pixel_centre t0 ts d k)) x0 y0 ps h w) X Y V - f (place x0 ps w X) (place y0 ps h Y) (place t0 ts d V))
    <= kt * (ps ^ 2 * (ky * (cx * Mx) + cy * My)) + ts ^ 2 * (ct * Mt).
Proof.
  intros CX CY CV HX HY HV. rewrite linear3_lin1. set (x := place x0 ps w X) in *. set (y := place y0 ps h Y) in *. set (t := place t0 ts d V) in *.
  assert (A : Rabs (lin1 d (fun k => f x y (pixel_centre t0 ts d k)) V - f x y t) <= ts ^ 2 * (ct * Mt)).
  { apply (approx1 d (f x y) t0 ts Mt lt ht V ct kt CV T); try assumption. apply (proj2 Hf); assumption. }
  assert (B : Rabs (lin1 d (fun k => linear2 h w (sampled (fun x y => f x y (pixel_centre t0 ts d k)) x0 y0 ps h w) X Y - f x y (pixel_centre t0 ts d k)) V)
      <= kt * (ps ^ 2 * (ky * (cx * Mx) + cy * My))).
  { apply (lin1_stable d _ _ V ct kt CV). intros k Hk.
    apply (approx2 (fun x y => f x y (pixel_centre t0 ts d k)) x0 y0 ps lx hx ly hy Mx My h w P) with (kx := kx); try assumption.
    apply (proj1 Hf). assert (Q := centre_mono t0 ts d 0 k T ltac:(lia)). assert (Q' := centre_mono t0 ts d k (d - 1) T ltac:(lia)). lra. }
  rewrite <- (lin1_minus d _ _ V ct kt CV) in B.
  change (lin1 d (fun k => lin1 h (fun i => lin1 w (fun j => sampled (fun x1 y1 => f x1 y1 (pixel_centre t0 ts d k)) x0 y0 ps h w i j) X) Y) V)
    with (lin1 d (fun k => (fun k => lin1 h (fun i => lin1 w (fun j => sampled (fun x1 y1 => f x1 y1 (pixel_centre t0 ts d k)) x0 y0 ps h w i j) X) Y) k) V).
  assert (E : forall k, lin1 h (fun i => lin1 w (fun j => sampled (fun x1 y1 => f x1 y1 (pixel_centre t0 ts d k)) x0 y0 ps h w i j) X) Y
     = linear2 h w (sampled (fun x y => f x y (pixel_centre t0 ts d k)) x0 y0 ps h w) X Y) by (intros; rewrite linear2_lin1; reflexivity).
  assert (E2 : lin1 d (fun k => lin1 h (fun i => lin1 w (fun j => sampled (fun x1 y1 => f x1 y1 (pixel_centre t0 ts d k)) x0 y0 ps h w i j) X) Y) V
     = lin1 d (fun k => linear2 h w (sampled (fun x y => f x y (pixel_centre t0 ts d k)) x0 y0 ps h w) X Y) V) by (unfold lin1 at 1 4; rewrite !E; reflexivity).
  cbv beta. rewrite E2.
  match goal with |- Rabs (?a - ?b) <= _ => replace (a - b) with ((a - lin1 d (fun k => f x y (pixel_centre t0 ts d k)) V) + (lin1 d (fun k => f x y (pixel_centre t0 ts d k)) V - b)) by ring end.
  eapply Rle_trans; [apply Rabs_triang|]. lra.
Qed.
End Three.

(** ** the calls *)
Definition pos (x0 ps : R) (n : nat) (x : R) : R := to_pixel n ((x - x0) / (INR n * ps) * 2).
Section Axis.
Variables (x0 ps : R) (n : nat).
Hypothesis (P : 0 < ps) (N : (2 <= n)%nat).
Local Lemma n2 : 2 <= INR n. Proof. apply le_INR in N. exact N. Qed.
Lemma place_pos x : place x0 ps n (pos x0 ps n x) = x.
Proof. assert (Q := n2). unfold place, pos, to_pixel. field. lra. Qed.
Lemma pos_eq x : pos x0 ps n x = (x - x0) / ps + (INR n - 1) / 2.
Proof. assert (Q := n2). unfold pos, to_pixel. field. lra. Qed.
Lemma pos_field x : in_field x0 ps n x -> - (1 / 2) <= pos x0 ps n x <= INR n - 1 / 2.
Proof.
  intros [A B]. unfold field_lo, field_hi in *. assert (E := place_pos x). unfold place in E. set (X := pos x0 ps n x) in *. clearbody X. split.
  - apply Rmult_le_reg_r with ps; [exact P|]. nra.
  - apply Rmult_le_reg_r with ps; [exact P|]. nra.
Qed.
Lemma n_pred : INR (n - 1) = INR n - 1. Proof. rewrite minus_INR by lia. reflexivity. Qed.
Lemma pos_inner x : in_inner x0 ps n x -> 0 <= pos x0 ps n x <= INR n - 1.
Proof.
  intros [A B]. unfold inner_lo, inner_hi, pixel_centre in *. rewrite n_pred in B. cbn [INR] in A. assert (E := place_pos x). unfold place in E. set (X := pos x0 ps n x) in *. clearbody X. split.
  - apply Rmult_le_reg_r with ps; [exact P|]. nra.
  - apply Rmult_le_reg_r with ps; [exact P|]. nra.
Qed.
Lemma scaled_field x : in_field x0 ps n x -> -1 <= (x - x0) / (INR n * ps) * 2 <= 1.
Proof.
  intros [A B]. unfold field_lo, field_hi in *. assert (Q := n2). assert (F : 0 < INR n * ps) by nra. set (t := (x - x0) / (INR n * ps) * 2).
  assert (E : x - x0 = t * (INR n * ps) / 2) by (unfold t; field; lra). split; nra.
Qed.
Lemma inner_field x : in_inner x0 ps n x -> in_field x0 ps n x.
Proof. intros [A B]. unfold in_field, field_lo, field_hi, inner_lo, inner_hi, pixel_centre in *. rewrite n_pred in B. cbn [INR] in A. assert (Q := n2). split; nra. Qed.
Lemma field_centres : field_lo x0 ps n <= pixel_centre x0 ps n 0 /\ pixel_centre x0 ps n (n - 1) <= field_hi x0 ps n.
Proof. unfold field_lo, field_hi, pixel_centre. rewrite n_pred. cbn [INR]. assert (Q := n2). split; nra. Qed.
End Axis.

Section Calls.
Variables (f : R -> R -> R) (x0 y0 ps Mx My : R) (h w : nat).
Hypothesis (P : 0 < ps) (Hh : (2 <= h)%nat) (Hw : (2 <= w)%nat).
Lemma linear2_field x y : smooth_field f x0 y0 ps h w Mx My -> in_field x0 ps w x -> in_field y0 ps h y ->
  Rabs (linear2 h w (sampled f x0 y0 ps h w) (pos x0 ps w x) (pos y0 ps h y) - f x y) <= 3 / 8 * ps ^ 2 * (2 * Mx + My).
Proof.
  intros S Hx Hy. destruct (field_centres x0 ps w P Hw) as [A B]. destruct (field_centres y0 ps h P Hh) as [C D].
  assert (Q := approx2 f x0 y0 ps _ _ _ _ Mx My h w P S A B C D (pos x0 ps w x) (pos y0 ps h y) (3 / 8) 2 (3 / 8) 2
    (covers_rim w _ Hw (pos_field x0 ps w P Hw x Hx)) (covers_rim h _ Hh (pos_field y0 ps h P Hh y Hy))).
  rewrite !place_pos in Q by assumption. specialize (Q Hx Hy). lra.
Qed.
Lemma linear2_inner x y : smooth_inner f x0 y0 ps h w Mx My -> in_inner x0 ps w x -> in_inner y0 ps h y ->
  Rabs (linear2 h w (sampled f x0 y0 ps h w) (pos x0 ps w x) (pos y0 ps h y) - f x y) <= / 8 * ps ^ 2 * (Mx + My).
Proof.
  intros S Hx Hy.
  assert (Q := approx2 f x0 y0 ps _ _ _ _ Mx My h w P S (Rle_refl _) (Rle_refl _) (Rle_refl _) (Rle_refl _) (pos x0 ps w x) (pos y0 ps h y) (1 / 8) 1 (1 / 8) 1
    (covers_inner w _ Hw (pos_inner x0 ps w P Hw x Hx)) (covers_inner h _ Hh (pos_inner y0 ps h P Hh y Hy))).
  rewrite !place_pos in Q by assumption. specialize (Q Hx Hy). lra.
Qed.
End Calls.

Lemma pd_value h w (m : nat -> nat -> nat -> R) x0 y0 ps x y : 0 < ps -> (2 <= h)%nat -> (2 <= w)%nat -> in_field x0 ps w x -> in_field y0 ps h y ->
  pd_reduced_deflection_angle h w m x0 y0 ps x y =
  Ok (linear2 h w (m 0%nat) (pos x0 ps w x) (pos y0 ps h y), linear2 h w (m 1%nat) (pos x0 ps w x) (pos y0 ps h y)).
Proof.
  intros P Hh Hw Hx Hy. unfold pd_reduced_deflection_angle.
  rewrite !interp2d_linear by (lia || (right; right; reflexivity) || (apply scaled_field; assumption)). reflexivity.
Qed.
Lemma linear2_scale h w im s X Y : linear2 h w (fun i j => im i j * s) X Y = s * linear2 h w im X Y.
Proof. unfold linear2. ring. Qed.
Lemma px_value h w im x0 y0 ps s p x y : 0 < ps -> (2 <= h)%nat -> (2 <= w)%nat -> is_padding2 p -> in_field x0 ps w x -> in_field y0 ps h y ->
  px_brightness 2 h w im x0 y0 ps s p x y = Ok (s * linear2 h w im (pos x0 ps w x) (pos y0 ps h y)).
Proof.
  intros P Hh Hw V Hx Hy. unfold px_brightness. rewrite (Rmult_comm ps (INR w)), (Rmult_comm ps (INR h)).
  rewrite interp2d_linear by (lia || exact V || (apply scaled_field; assumption)). rewrite linear2_scale. reflexivity.
Qed.
Lemma pc_value L x0 y0 im s x y : 0 < pc_pixelscale L -> (2 <= pc_n L)%nat -> in_field x0 (pc_pixelscale L) (pc_n L) x -> in_field y0 (pc_pixelscale L) (pc_n L) y ->
  pc_convergence L x0 y0 im s x y = Ok (s * linear2 (pc_n L) (pc_n L) im (pos x0 (pc_pixelscale L) (pc_n L) x) (pos y0 (pc_pixelscale L) (pc_n L) y)).
Proof.
  intros P Hn Hx Hy. unfold pc_convergence. rewrite interp2d_linear by (lia || (right; right; reflexivity) || (apply scaled_field; assumption)). rewrite linear2_scale. reflexivity.
Qed.
Lemma linear3_scale d h w cu s X Y V : linear3 d h w (fun k i j => cu k i j * s) X Y V = s * linear3 d h w cu X Y V.
Proof. unfold linear3. ring. Qed.
Lemma pt_value d h w cu x0 y0 ps te s x y t : 0 < ps -> 0 < te -> (2 <= d)%nat -> (2 <= h)%nat -> (2 <= w)%nat -> in_field x0 ps w x -> in_field y0 ps h y -> 0 <= t <= te ->
  pt_brightness 3 d h w cu x0 y0 ps te s x y t = Ok (s * linear3 d h w cu (pos x0 ps w x) (pos y0 ps h y) (pos (te / 2) (te / INR d) d t)).
Proof.
  intros P T Hd Hh Hw Hx Hy Ht. unfold pt_brightness. rewrite (Rmult_comm ps (INR w)), (Rmult_comm ps (INR h)).
  assert (D : 2 <= INR d) by (apply le_INR in Hd; exact Hd).
  assert (Et : te = INR d * (te / INR d)) by (field; lra).
  rewrite interp3d_linear; [rewrite linear3_scale; unfold pos at 3; rewrite <- Et; reflexivity|lia|right; reflexivity|apply scaled_field; assumption|apply scaled_field; assumption|].
  set (v := (t - te / 2) / te * 2). assert (E : t - te / 2 = v * te / 2) by (unfold v; field; lra). split; nra.
Qed.
Lemma scaled_close s a v e : Rabs (a - v) <= e -> Rabs (s * a - s * v) <= Rabs s * e.
Proof. intros H. replace (s * a - s * v) with (s * (a - v)) by ring. rewrite Rabs_mult. apply Rmult_le_compat_l; [apply Rabs_pos|exact H]. Qed.
Lemma time_field te d t : 0 < te -> (2 <= d)%nat -> 0 <= t <= te -> in_field (te / 2) (te / INR d) d t.
Proof. intros T Hd Ht. assert (D : 2 <= INR d) by (apply le_INR in Hd; exact Hd). unfold in_field, field_lo, field_hi. replace (INR d * (te / INR d)) with te by (field; lra). lra. Qed.
Lemma pt_close d h w f x0 y0 ps te s Mx My Mt x y t : 0 < ps -> 0 < te -> (2 <= d)%nat -> (2 <= h)%nat -> (2 <= w)%nat ->
  scene3 f (inner_lo x0 ps w) (inner_hi x0 ps w) (inner_lo y0 ps h) (inner_hi y0 ps h) (inner_lo (te / 2) (te / INR d) d) (inner_hi (te / 2) (te / INR d) d) Mx My Mt ->
  in_inner x0 ps w x -> in_inner y0 ps h y -> in_inner (te / 2) (te / INR d) d t ->
  close_to (pt_brightness 3 d h w (fun k i j => f (pixel_centre x0 ps w j) (pixel_centre y0 ps h i) (pixel_centre (te / 2) (te / INR d) d k)) x0 y0 ps te s x y t)
    (s * f x y t) (Rabs s * (/ 8 * (ps ^ 2 * (Mx + My) + (te / INR d) ^ 2 * Mt))) Ok.
Proof.
  intros P T Hd Hh Hw S Hx Hy Ht. assert (D : 2 <= INR d) by (apply le_INR in Hd; exact Hd). assert (TD : 0 < te / INR d) by (apply Rdiv_lt_0_compat; lra).
  assert (Tf := inner_field _ _ _ TD Hd _ Ht). unfold in_field, field_lo, field_hi in Tf. replace (INR d * (te / INR d)) with te in Tf by (field; lra).
  eexists. split; [apply pt_value; try assumption; try (apply inner_field; assumption); lra|]. apply scaled_close.
  assert (Q := approx3 f x0 y0 ps (te / 2) (te / INR d) _ _ _ _ _ _ Mx My Mt d h w P TD S (Rle_refl _) (Rle_refl _) (Rle_refl _) (Rle_refl _) (Rle_refl _) (Rle_refl _)
    (pos x0 ps w x) (pos y0 ps h y) (pos (te / 2) (te / INR d) d t) (1 / 8) 1 (1 / 8) 1 (1 / 8) 1
    (covers_inner w _ Hw (pos_inner x0 ps w P Hw x Hx)) (covers_inner h _ Hh (pos_inner y0 ps h P Hh y Hy)) (covers_inner d _ Hd (pos_inner _ _ d TD Hd t Ht))).
  rewrite !place_pos in Q by assumption. specialize (Q Hx Hy Ht). unfold sampled in Q. lra.
Qed.

(** ** derivatives *)
Lemma lin1_cell n f i X : (S i < n)%nat -> INR i < X < INR i + 1 -> lin1 n f X = f i * (1 - (X - INR i)) + f (S i) * (X - INR i).
Proof.
  intros Hi HX. unfold lin1. assert (E : rfloor X = Z.of_nat i) by (apply rfloor_unique; rewrite <- INR_IZR_INZ; lra). rewrite E.
  replace (clampZ (Z.of_nat i) 0 (Z.of_nat n - 2)) with (Z.of_nat i) by (unfold clampZ; lia).
  unfold ax. rewrite (proj2 (Z.ltb_ge (Z.of_nat i) 0)), (proj2 (Z.ltb_ge (Z.of_nat i + 1) 0)) by lia.
  rewrite Nat2Z.id. replace (Z.to_nat (Z.of_nat i + 1)) with (S i) by lia. rewrite <- INR_IZR_INZ. reflexivity.
Qed.
Lemma linear2_swap h w im X Y : linear2 h w im X Y = linear2 w h (fun i j => im j i) Y X.
Proof. unfold linear2. ring. Qed.
(** the slope of a chord against the derivative at a point below it *)
Lemma chord f g lo hi K a b x : lo <= a -> a <= x <= b -> b <= hi -> a < b -> 0 <= K -> (forall s, lo <= s <= hi -> is_derive f s (g s)) ->
  (forall s, lo <= s <= hi -> Rabs (g s - g x) <= K * Rabs (s - x)) -> Rabs ((f b - f a) / (b - a) - g x) <= K * (b - a) / 2.
Proof.
  intros Ha Hx Hb Hab HK D B.
  assert (S0 : forall c s, is_derive (fun s => c * (s - x) ^ 2 / 2) s (c * (s - x))) by (intros; auto_derive; [exact I|field]).
  assert (R1 : forall e, e = 1 \/ e = -1 -> e * (f b - f x - g x * (b - x)) <= K * (b - x) ^ 2 / 2).
  { intros e He. assert (Q := rises (fun s => K * (s - x) ^ 2 / 2 - e * (f s - g x * s)) (fun s => K * (s - x) - e * (g s - g x)) x b ltac:(lra)).
    cbv beta in Q. lapply Q; [clear Q; intros Q; lapply Q; [clear Q; intros Q; nra|]|].
    - intros s Hs. assert (W := B s ltac:(lra)). rewrite (Rabs_pos_eq (s - x)) in W by lra. apply Rabs_le_between in W. destruct He as [-> | ->]; lra.
    - intros s Hs. apply (is_derive_minus (fun s => K * (s - x) ^ 2 / 2) (fun s => e * (f s - g x * s))); [apply S0|].
      apply (is_derive_scal (fun s => f s - g x * s) s e (g s - g x)). apply (is_derive_minus f (fun s => g x * s)); [apply D; lra|auto_derive; [exact I|ring]]. }
  assert (R2 : forall e, e = 1 \/ e = -1 -> e * (f x - f a - g x * (x - a)) <= K * (x - a) ^ 2 / 2).
  { intros e He. assert (Q := rises (fun s => - K * (s - x) ^ 2 / 2 - e * (f s - g x * s)) (fun s => - K * (s - x) - e * (g s - g x)) a x ltac:(lra)).
    cbv beta in Q. lapply Q; [clear Q; intros Q; lapply Q; [clear Q; intros Q; nra|]|].
    - intros s Hs. assert (W := B s ltac:(lra)). rewrite (Rabs_left1 (s - x)) in W by lra. apply Rabs_le_between in W. destruct He as [-> | ->]; lra.
    - intros s Hs. apply (is_derive_minus (fun s => - K * (s - x) ^ 2 / 2) (fun s => e * (f s - g x * s))); [apply S0|].
      apply (is_derive_scal (fun s => f s - g x * s) s e (g s - g x)). apply (is_derive_minus f (fun s => g x * s)); [apply D; lra|auto_derive; [exact I|ring]]. }
  assert (A := R1 1 ltac:(left; reflexivity)). assert (A' := R1 (-1) ltac:(right; reflexivity)).
  assert (C := R2 1 ltac:(left; reflexivity)). assert (C' := R2 (-1) ltac:(right; reflexivity)).
  assert (KK : K * (b - x) ^ 2 / 2 + K * (x - a) ^ 2 / 2 <= K * (b - a) / 2 * (b - a)).
  { assert (0 <= K * ((b - x) * (x - a))) by (apply Rmult_le_pos; [exact HK|apply Rmult_le_pos; lra]). nra. }
  replace ((f b - f a) / (b - a) - g x) with ((f b - f a - g x * (b - a)) / (b - a)) by (field; lra).
  unfold Rdiv at 1. rewrite Rabs_mult, (Rabs_pos_eq (/ (b - a))) by (apply Rlt_le, Rinv_0_lt_compat; lra).
  assert (BA : 0 < b - a) by lra. apply (proj2 (Rle_div_l _ _ _ BA)). apply Rabs_le. lra.
Qed.
Lemma inner_cell x0 ps n x : 0 < ps -> (2 <= n)%nat -> in_inner x0 ps n x -> off_grid x0 ps n x -> exists i, (S i < n)%nat /\ INR i < pos x0 ps n x < INR i + 1.
Proof.
  intros P N Hx O. destruct (lin1_weights n (pos x0 ps n x) N) as (i & t & Hi & E & _ & _ & T).
  { assert (Q := pos_inner x0 ps n P N x Hx). lra. }
  specialize (T (pos_inner x0 ps n P N x Hx)). exists i. split; [exact Hi|].
  assert (W := place_pos x0 ps n P N x). rewrite E in W. unfold place in W.
  assert (t <> 0). { intros ->. apply (O i ltac:(lia)). unfold pixel_centre. lra. }
  assert (t <> 1). { intros ->. apply (O (S i) Hi). unfold pixel_centre. rewrite S_INR. lra. }
  rewrite E. lra.
Qed.
Lemma pos_derive x0 ps n x : 0 < ps -> (2 <= n)%nat -> is_derive (pos x0 ps n) x (/ ps).
Proof.
  intros P N. apply (is_derive_ext (fun x => (x - x0) / ps + (INR n - 1) / 2)); [intros t; symmetry; apply pos_eq; assumption|].
  auto_derive; [lra|field; lra].
Qed.
Lemma pos_locally x0 ps n x a b : 0 < ps -> (2 <= n)%nat -> a < pos x0 ps n x < b -> locally x (fun x' => a < pos x0 ps n x' < b).
Proof.
  intros P N H. assert (C : continuous (pos x0 ps n) x) by (apply (ex_derive_continuous (pos x0 ps n)); eexists; apply pos_derive; assumption).
  apply (C (fun y => a < y < b)). apply (open_and (fun y => a < y) (fun y => y < b)); [apply open_gt|apply open_lt|exact H].
Qed.
Lemma linear2_derive h w im x0 ps x Y i : 0 < ps -> (2 <= w)%nat -> (S i < w)%nat -> INR i < pos x0 ps w x < INR i + 1 ->
  is_derive (fun x => linear2 h w im (pos x0 ps w x) Y) x (lin1 h (fun k => (im k (S i) - im k i) / ps) Y).
Proof.
  intros P W Hi HX.
  apply (is_derive_ext_loc (fun x => lin1 h (fun k => im k i * (1 - (pos x0 ps w x - INR i)) + im k (S i) * (pos x0 ps w x - INR i)) Y)).
  - apply (filter_imp (fun x' => INR i < pos x0 ps w x' < INR i + 1)); [|apply pos_locally; assumption].
    intros x' H'. rewrite linear2_lin1. unfold lin1 at 1 2. rewrite !(lin1_cell w _ i) by assumption. reflexivity.
  - assert (D := pos_derive x0 ps w x P W). unfold lin1.
    set (p := fun x => pos x0 ps w x) in *. change (pos x0 ps w) with p in D.
    assert (DD : forall A B : R, is_derive (fun x => A * (1 - (p x - INR i)) + B * (p x - INR i)) x ((B - A) / ps)).
    { intros A B. apply (is_derive_ext (fun x => (B - A) * p x + (A * (1 + INR i) - B * INR i))); [intros t; cbv beta; lra|].
      replace ((B - A) / ps) with ((B - A) * / ps + 0) by (field; lra).
      apply (is_derive_plus (fun x => (B - A) * p x) (fun _ => A * (1 + INR i) - B * INR i)); [apply (is_derive_scal p x (B - A) (/ ps) D)|auto_derive; [exact I|reflexivity]]. }
    assert (DS : forall (u : R -> R) d k, is_derive u x d -> is_derive (fun x => u x * k) x (d * k)).
    { intros u d k Hd. apply (is_derive_ext (fun x => k * u x)); [intros t; apply Rmult_comm|]. rewrite (Rmult_comm d k). apply (is_derive_scal u x k d Hd). }
    set (y1 := clampZ (rfloor Y) 0 (Z.of_nat h - 2)).
    match goal with |- is_derive _ _ (?a + ?b) => apply (is_derive_plus (fun x => (im (ax h y1) i * (1 - (p x - INR i)) + im (ax h y1) (S i) * (p x - INR i)) * (1 - (Y - IZR y1)))
      (fun x => (im (ax h (y1 + 1)) i * (1 - (p x - INR i)) + im (ax h (y1 + 1)) (S i) * (p x - INR i)) * (Y - IZR y1))) end; apply (DS (fun x => _)); apply DD.
Qed.
Lemma lin1_lipschitz n (f : R -> R) x0 ps K lo hi X : (2 <= n)%nat -> 0 < ps -> 0 <= K -> 0 <= X <= INR n - 1 ->
  lo <= pixel_centre x0 ps n 0 -> pixel_centre x0 ps n (n - 1) <= hi -> lo <= place x0 ps n X <= hi ->
  (forall s s', lo <= s <= hi -> lo <= s' <= hi -> Rabs (f s - f s') <= K * Rabs (s - s')) ->
  Rabs (lin1 n (fun i => f (pixel_centre x0 ps n i)) X - f (place x0 ps n X)) <= K * ps / 2.
Proof.
  intros N P HK HX L U HP B. destruct (lin1_weights n X N ltac:(lra)) as (i & t & Hi & E & W & _ & T). specialize (T HX). rewrite W.
  set (a := pixel_centre x0 ps n i). assert (Ea : pixel_centre x0 ps n (S i) = a + ps) by (unfold a, pixel_centre; rewrite S_INR; ring).
  assert (Ep : place x0 ps n X = a + t * ps) by (unfold place, a, pixel_centre; rewrite E; ring). rewrite Ea, Ep in *.
  assert (A0 := centre_mono x0 ps n 0 i P ltac:(lia)). assert (A1 := centre_mono x0 ps n (S i) (n - 1) P ltac:(lia)). rewrite Ea in A1. fold a in A0.
  assert (B0 := B a (a + t * ps) ltac:(lra) HP). assert (B1 := B (a + ps) (a + t * ps) ltac:(lra) HP).
  replace (a - (a + t * ps)) with (- (t * ps)) in B0 by ring. replace (a + ps - (a + t * ps)) with ((1 - t) * ps) in B1 by ring.
  rewrite Rabs_Ropp, (Rabs_pos_eq (t * ps)) in B0 by nra. rewrite (Rabs_pos_eq ((1 - t) * ps)) in B1 by nra.
  replace (f a * (1 - t) + f (a + ps) * t - f (a + t * ps)) with ((1 - t) * (f a - f (a + t * ps)) + t * (f (a + ps) - f (a + t * ps))) by ring.
  eapply Rle_trans; [apply Rabs_triang|]. rewrite !Rabs_mult, (Rabs_pos_eq (1 - t)), (Rabs_pos_eq t) by lra.
  assert (C0 := Rmult_le_compat_l (1 - t) _ _ ltac:(lra) B0). assert (C1 := Rmult_le_compat_l t _ _ ltac:(lra) B1).
  assert (KP : 0 <= K * ps) by (apply Rmult_le_pos; lra). assert (0 <= (t - 1 / 2) ^ 2) by apply pow2_ge_0. nra.
Qed.
Lemma linear2_slope f g x0 y0 ps K h w x y : 0 < ps -> 0 <= K -> (2 <= h)%nat -> (2 <= w)%nat ->
  slope_x f g (inner_lo x0 ps w) (inner_hi x0 ps w) (inner_lo y0 ps h) (inner_hi y0 ps h) K ->
  in_inner x0 ps w x -> in_inner y0 ps h y -> off_grid x0 ps w x ->
  exists d, is_derive (fun x => linear2 h w (sampled f x0 y0 ps h w) (pos x0 ps w x) (pos y0 ps h y)) x d /\ Rabs (d - g x y) <= K * ps.
Proof.
  intros P HK Hh Hw [D B] Hx Hy O. destruct (inner_cell x0 ps w x P Hw Hx O) as (i & Hi & HX).
  eexists. split; [apply (linear2_derive h w _ x0 ps x _ i P Hw Hi HX)|].
  set (Y := pos y0 ps h y). assert (HY := pos_inner y0 ps h P Hh y Hy). fold Y in HY.
  assert (Py : place y0 ps h Y = y) by (apply place_pos; assumption).
  assert (Px : place x0 ps w (pos x0 ps w x) = x) by (apply place_pos; assumption).
  set (a := pixel_centre x0 ps w i). assert (Ea : pixel_centre x0 ps w (S i) = a + ps) by (unfold a, pixel_centre; rewrite S_INR; ring).
  assert (Ep : x = a + (pos x0 ps w x - INR i) * ps) by (rewrite <- Px at 1; unfold place, a, pixel_centre; ring).
  assert (A0 := centre_mono x0 ps w 0 i P ltac:(lia)). assert (A1 := centre_mono x0 ps w (S i) (w - 1) P ltac:(lia)). rewrite Ea in A1. fold a in A0.
  assert (Xa : a <= x <= a + ps) by (rewrite Ep; nra).
  assert (C := covers_inner h Y Hh HY).
  assert (E1 : Rabs (lin1 h (fun k => (sampled f x0 y0 ps h w k (S i) - sampled f x0 y0 ps h w k i) / ps - g x (pixel_centre y0 ps h k)) Y) <= 1 * (K * ps / 2)).
  { apply (lin1_stable h _ _ Y (1 / 8) 1 C). intros k Hk. unfold sampled. rewrite Ea. fold a. set (yk := pixel_centre y0 ps h k).
    assert (Hyk : inner_lo y0 ps h <= yk <= inner_hi y0 ps h) by (split; apply centre_mono; (exact P || lia)).
    assert (Q := chord (fun s => f s yk) (fun s => g s yk) (inner_lo x0 ps w) (inner_hi x0 ps w) K a (a + ps) x A0 Xa A1 ltac:(lra) HK).
    cbv beta in Q. replace (a + ps - a) with ps in Q by ring. apply Q.
    - intros s Hs. apply D; assumption.
    - intros s Hs. assert (Z := B s yk x yk Hs Hyk Hx Hyk). rewrite Rminus_eq_0, Rabs_R0, Rplus_0_r in Z. exact Z. }
  rewrite <- (lin1_minus h _ _ Y _ _ C) in E1.
  assert (E2 := lin1_lipschitz h (g x) y0 ps K (inner_lo y0 ps h) (inner_hi y0 ps h) Y Hh P HK HY (Rle_refl _) (Rle_refl _)). rewrite Py in E2.
  assert (E3 : Rabs (lin1 h (fun k => g x (pixel_centre y0 ps h k)) Y - g x y) <= K * ps / 2).
  { apply E2; [exact Hy|]. intros s s' Hs Hs'. assert (Z := B x s x s' Hx Hs Hx Hs'). rewrite Rminus_eq_0, Rabs_R0, Rplus_0_l in Z. exact Z. }
  match goal with |- Rabs (?u - ?v) <= _ => replace (u - v) with ((u - lin1 h (fun k => g x (pixel_centre y0 ps h k)) Y) + (lin1 h (fun k => g x (pixel_centre y0 ps h k)) Y - v)) by ring end.
  eapply Rle_trans; [apply Rabs_triang|]. lra.
Qed.
Lemma linear2_slope_y f g x0 y0 ps K h w x y : 0 < ps -> 0 <= K -> (2 <= h)%nat -> (2 <= w)%nat ->
  slope_y f g (inner_lo x0 ps w) (inner_hi x0 ps w) (inner_lo y0 ps h) (inner_hi y0 ps h) K ->
  in_inner x0 ps w x -> in_inner y0 ps h y -> off_grid y0 ps h y ->
  exists d, is_derive (fun y => linear2 h w (sampled f x0 y0 ps h w) (pos x0 ps w x) (pos y0 ps h y)) y d /\ Rabs (d - g x y) <= K * ps.
Proof.
  intros P HK Hh Hw S Hx Hy O.
  destruct (linear2_slope (fun y x => f x y) (fun y x => g x y) y0 x0 ps K w h y x P HK Hw Hh S Hy Hx O) as (d & Hd & B).
  exists d. split; [|exact B]. revert Hd. apply is_derive_ext. intros t. rewrite linear2_swap. reflexivity.
Qed.

(** ** the deflection map *)
Definition fstv (r : result (R * R)) : R := match r with Ok (a, _) => a | Raise _ => 0 end.
Definition sndv (r : result (R * R)) : R := match r with Ok (_, b) => b | Raise _ => 0 end.
Lemma inner_of_pos x0 ps n x : 0 < ps -> (2 <= n)%nat -> 0 <= pos x0 ps n x <= INR n - 1 -> in_inner x0 ps n x.
Proof.
  intros P N H. assert (E := place_pos x0 ps n P N x). unfold place in E. unfold in_inner, inner_lo, inner_hi, pixel_centre. rewrite n_pred by assumption. cbn [INR].
  set (X := pos x0 ps n x) in *. clearbody X. split; nra.
Qed.
Lemma inner_locally x0 ps n x : 0 < ps -> (2 <= n)%nat -> in_inner x0 ps n x -> off_grid x0 ps n x -> locally x (fun x' => in_inner x0 ps n x').
Proof.
  intros P N H O. destruct (inner_cell x0 ps n x P N H O) as (i & Hi & HX).
  apply (filter_imp (fun x' => INR i < pos x0 ps n x' < INR i + 1)); [|apply pos_locally; assumption].
  intros x' H'. apply inner_of_pos; [exact P|exact N|]. assert (I0 := pos_INR i). assert (I1 : INR (S i) <= INR (n - 1)) by (apply le_INR; lia).
  rewrite S_INR, n_pred in I1 by assumption. lra.
Qed.
Section Deflection.
Variables (h w : nat) (a1 a2 : R -> R -> R) (x0 y0 ps : R).
Hypothesis (P : 0 < ps) (Hh : (2 <= h)%nat) (Hw : (2 <= w)%nat).
Let dmap (k i j : nat) : R := if Nat.eqb k 0 then sampled a1 x0 y0 ps h w i j else sampled a2 x0 y0 ps h w i j.
Lemma pd_field Mx My x y : smooth_field a1 x0 y0 ps h w Mx My -> smooth_field a2 x0 y0 ps h w Mx My -> in_field x0 ps w x -> in_field y0 ps h y ->
  exists ax ay, pd_reduced_deflection_angle h w dmap x0 y0 ps x y = Ok (ax, ay) /\
    Rabs (ax - a1 x y) <= 3 / 8 * ps ^ 2 * (2 * Mx + My) /\ Rabs (ay - a2 x y) <= 3 / 8 * ps ^ 2 * (2 * Mx + My).
Proof.
  intros S1 S2 Hx Hy. rewrite pd_value by assumption. do 2 eexists. split; [reflexivity|]. split; apply linear2_field; assumption.
Qed.
Lemma pd_inner Mx My x y : smooth_inner a1 x0 y0 ps h w Mx My -> smooth_inner a2 x0 y0 ps h w Mx My -> in_inner x0 ps w x -> in_inner y0 ps h y ->
  exists ax ay, pd_reduced_deflection_angle h w dmap x0 y0 ps x y = Ok (ax, ay) /\
    Rabs (ax - a1 x y) <= / 8 * ps ^ 2 * (Mx + My) /\ Rabs (ay - a2 x y) <= / 8 * ps ^ 2 * (Mx + My).
Proof.
  intros S1 S2 Hx Hy. rewrite pd_value by (assumption || (apply inner_field; assumption)). do 2 eexists. split; [reflexivity|]. split; apply linear2_inner; assumption.
Qed.
Lemma pd_jacobian g11 g12 g21 g22 K x y : 0 <= K ->
  let rect (R : (R -> R -> R) -> (R -> R -> R) -> R -> R -> R -> R -> R -> Prop) f g := R f g (inner_lo x0 ps w) (inner_hi x0 ps w) (inner_lo y0 ps h) (inner_hi y0 ps h) K in
  rect slope_x a1 g11 -> rect slope_y a1 g12 -> rect slope_x a2 g21 -> rect slope_y a2 g22 ->
  in_inner x0 ps w x -> in_inner y0 ps h y -> off_grid x0 ps w x -> off_grid y0 ps h y ->
  let alpha x y := pd_reduced_deflection_angle h w dmap x0 y0 ps x y in
  exists d11 d12 d21 d22,
    is_derive (fun x => fstv (alpha x y)) x d11 /\ is_derive (fun y => fstv (alpha x y)) y d12 /\
    is_derive (fun x => sndv (alpha x y)) x d21 /\ is_derive (fun y => sndv (alpha x y)) y d22 /\
    Rabs (d11 - g11 x y) <= K * ps /\ Rabs (d12 - g12 x y) <= K * ps /\ Rabs (d21 - g21 x y) <= K * ps /\ Rabs (d22 - g22 x y) <= K * ps.
Proof.
  intros HK rect S11 S12 S21 S22 Hx Hy Ox Oy alpha.
  destruct (linear2_slope a1 g11 x0 y0 ps K h w x y P HK Hh Hw S11 Hx Hy Ox) as (d11 & D11 & B11).
  destruct (linear2_slope_y a1 g12 x0 y0 ps K h w x y P HK Hh Hw S12 Hx Hy Oy) as (d12 & D12 & B12).
  destruct (linear2_slope a2 g21 x0 y0 ps K h w x y P HK Hh Hw S21 Hx Hy Ox) as (d21 & D21 & B21).
  destruct (linear2_slope_y a2 g22 x0 y0 ps K h w x y P HK Hh Hw S22 Hx Hy Oy) as (d22 & D22 & B22).
  assert (LX := inner_locally x0 ps w x P Hw Hx Ox). assert (LY := inner_locally y0 ps h y P Hh Hy Oy).
  exists d11, d12, d21, d22. split; [|split; [|split; [|split; [|auto]]]].
  - revert D11. apply is_derive_ext_loc. revert LX. apply filter_imp. intros x' H'. unfold alpha. rewrite pd_value by (assumption || (apply inner_field; assumption)). reflexivity.
  - revert D12. apply is_derive_ext_loc. revert LY. apply filter_imp. intros x' H'. unfold alpha. rewrite pd_value by (assumption || (apply inner_field; assumption)). reflexivity.
  - revert D21. apply is_derive_ext_loc. revert LX. apply filter_imp. intros x' H'. unfold alpha. rewrite pd_value by (assumption || (apply inner_field; assumption)). reflexivity.
  - revert D22. apply is_derive_ext_loc. revert LY. apply filter_imp. intros x' H'. unfold alpha. rewrite pd_value by (assumption || (apply inner_field; assumption)). reflexivity.
Qed.
End Deflection.
(** refining a map of fixed size *)
Lemma fov_field x0 L n x : (1 <= n)%nat -> in_field x0 (L / INR n) n x <-> x0 - L / 2 <= x <= x0 + L / 2.
Proof. intros N. assert (Q : 0 < INR n) by (apply lt_0_INR; lia). unfold in_field, field_lo, field_hi. replace (INR n * (L / INR n)) with L by (field; lra). reflexivity. Qed.
Lemma refine L c e : 0 < L -> 0 < e -> exists N, (2 <= N)%nat /\ forall n, (N <= n)%nat -> (L / INR n) ^ 2 * c <= e.
Proof.
  intros HL He. set (b := Rmax 1 (L ^ 2 * c / e)). assert (B1 : 1 <= b) by apply Rmax_l. destruct (archimed b) as [HU _].
  assert (UP : (0 < up b)%Z) by (apply lt_IZR; lra). set (N0 := Z.to_nat (up b)). assert (HN : b < INR N0) by (unfold N0; rewrite INR_IZR_INZ, Z2Nat.id by lia; lra). exists (N0 + 2)%nat. split; [lia|]. intros n Hn.
  assert (A : b < INR n) by (eapply Rlt_le_trans; [exact HN|apply le_INR; lia]). assert (B2 : L ^ 2 * c / e <= b) by apply Rmax_r.
  assert (Q : L ^ 2 * c <= e * INR n).
  { apply (proj1 (Rle_div_l _ _ _ He)) in B2. nra. }
  replace ((L / INR n) ^ 2 * c) with (L ^ 2 * c / INR n ^ 2) by (field; lra).
  assert (N2 : 0 < INR n ^ 2) by (apply pow_lt; lra). apply (proj2 (Rle_div_l _ _ _ N2)). assert (0 <= e * INR n * (INR n - 1)) by (apply Rmult_le_pos; [apply Rmult_le_pos|]; lra). lra.
Qed.
Lemma pd_converges a1 a2 x0 y0 L Mx My e : 0 < L -> 0 < e ->
  scene a1 (x0 - L / 2) (x0 + L / 2) (y0 - L / 2) (y0 + L / 2) Mx My -> scene a2 (x0 - L / 2) (x0 + L / 2) (y0 - L / 2) (y0 + L / 2) Mx My ->
  exists N, forall n, (N <= n)%nat -> forall x y, x0 - L / 2 <= x <= x0 + L / 2 -> y0 - L / 2 <= y <= y0 + L / 2 ->
  exists ax ay, pd_reduced_deflection_angle n n (fun k i j => if Nat.eqb k 0 then sampled a1 x0 y0 (L / INR n) n n i j else sampled a2 x0 y0 (L / INR n) n n i j) x0 y0 (L / INR n) x y = Ok (ax, ay) /\
    Rabs (ax - a1 x y) <= e /\ Rabs (ay - a2 x y) <= e.
Proof.
  intros HL He S1 S2. destruct (refine L (3 / 8 * (2 * Mx + My)) e HL He) as (N & N2 & HN). exists N. intros n Hn x y Hx Hy.
  assert (Q : 0 < INR n) by (apply lt_0_INR; lia). assert (PS : 0 < L / INR n) by (apply Rdiv_lt_0_compat; assumption).
  assert (S : forall f, scene f (x0 - L / 2) (x0 + L / 2) (y0 - L / 2) (y0 + L / 2) Mx My -> smooth_field f x0 y0 (L / INR n) n n Mx My).
  { intros f. unfold smooth_field, field_lo, field_hi. replace (INR n * (L / INR n)) with L by (field; lra). exact (fun z => z). }
  destruct (pd_field n n a1 a2 x0 y0 (L / INR n) PS ltac:(lia) ltac:(lia) Mx My x y (S _ S1) (S _ S2)) as (ax & ay & E & A & B); [apply fov_field; [lia|exact Hx]|apply fov_field; [lia|exact Hy]|].
  exists ax, ay. split; [exact E|]. specialize (HN n Hn). lra.
Qed.
Lemma parabola_bends lo hi : bends (fun x => x ^ 2) lo hi 2.
Proof. exists (fun x => 2 * x), (fun _ => 2). intros s _. split; [auto_derive; [exact I|ring]|]. split; [auto_derive; [exact I|ring]|]. rewrite Rabs_pos_eq; lra. Qed.
Lemma const_bends c lo hi : bends (fun _ => c) lo hi 0.
Proof. exists (fun _ => 0), (fun _ => 0). intros s _. split; [auto_derive; [exact I|ring]|]. split; [auto_derive; [exact I|ring]|]. rewrite Rabs_R0; lra. Qed.
Lemma parabola_scene lx hx ly hy : scene (fun x _ => x ^ 2) lx hx ly hy 2 0.
Proof. split; intros; [apply parabola_bends|apply const_bends]. Qed.
Lemma sharp h w x0 y0 ps : 0 < ps -> (2 <= h)%nat -> (2 <= w)%nat ->
  let x := pixel_centre x0 ps w 0 + ps / 2 in let y := pixel_centre y0 ps h 0 in
  in_inner x0 ps w x /\ in_inner y0 ps h y /\
  exists v, px_brightness 2 h w (sampled (fun x _ => x ^ 2) x0 y0 ps h w) x0 y0 ps 1 "zeros" x y = Ok v /\ v - x ^ 2 = / 8 * ps ^ 2 * (2 + 0).
Proof.
  intros P Hh Hw x y. assert (W2 : 2 <= INR w) by (apply le_INR in Hw; exact Hw). assert (H2 : 2 <= INR h) by (apply le_INR in Hh; exact Hh).
  assert (X : pos x0 ps w x = 1 / 2) by (rewrite pos_eq by assumption; unfold x, pixel_centre; cbn [INR]; field; lra).
  assert (Y : pos y0 ps h y = INR 0) by (rewrite pos_eq by assumption; unfold y, pixel_centre; cbn [INR]; field; lra).
  assert (IX : in_inner x0 ps w x) by (apply inner_of_pos; try assumption; rewrite X; lra).
  assert (IY : in_inner y0 ps h y) by (apply inner_of_pos; try assumption; rewrite Y; cbn [INR]; lra).
  split; [exact IX|]. split; [exact IY|].
  rewrite px_value by (assumption || (right; right; reflexivity) || (apply inner_field; assumption)). eexists. split; [reflexivity|].
  rewrite linear2_lin1, Y, lin1_at by lia. rewrite X, (lin1_cell w _ 0) by (lia || (cbn [INR]; lra)). unfold sampled, x, pixel_centre. cbn [INR]. field.
Qed.
