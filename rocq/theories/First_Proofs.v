(** * Minima in the plane and the light that arrives first *)
From Coq Require Import Reals Lra Lia Psatz List.
From Coquelicot Require Import Coquelicot.
From Verif Require Import Calc2 Lens_Spec LensBase_Model LensBase_Proofs.
Import ListNotations.
Local Open Scope R_scope.

(** ** A continuous function of two variables has a least value on a rectangle *)
Section Rect.
Variable f : R -> R -> R.
Hypothesis C : forall x y, continuity_2d_pt f x y.
Lemma cont_y x y : continuity_pt (fun v => f x v) y.
Proof.
  apply continuity_pt_locally. intros eps. destruct (C x y eps) as [d D]. exists d. intros v V. apply D; [|exact V].
  rewrite Rminus_eq_0, Rabs_R0. apply cond_pos.
Qed.
Variables a b c d : R.
Hypothesis ab : a <= b.
Hypothesis cd : c <= d.
Definition values (x : R) : R -> Prop := fun v => exists y, c <= y <= d /\ v = f x y.
Definition lowest (x : R) : R := real (Glb_Rbar (values x)).
Lemma lowest_spec x : exists y, c <= y <= d /\ lowest x = f x y /\ (forall v, c <= v <= d -> lowest x <= f x v).
Proof.
  destruct (continuity_ab_min (fun v => f x v) c d cd (fun v _ => cont_y x v)) as [y [Hy Iy]]. exists y.
  assert (E : lowest x = f x y).
  { unfold lowest. rewrite (is_glb_Rbar_unique (values x) (Finite (f x y))); [reflexivity|]. split.
    - intros v [w [Iw ->]]. cbn. apply Hy, Iw.
    - intros l H. apply H. exists y. split; [exact Iy|reflexivity]. }
  split; [exact Iy|]. split; [exact E|]. intros v V. rewrite E. apply Hy, V.
Qed.
Lemma lowest_cont x : a <= x <= b -> continuity_pt lowest x.
Proof.
  intros Hx. apply continuity_pt_locally. intros eps. assert (P : 0 < eps / 2) by (assert (Q := cond_pos eps); lra).
  destruct (uniform_continuity_2d f (a - 1) (b + 1) c d (fun x y _ _ => C x y) (mkposreal _ P)) as [del D]. cbn [pos] in D.
  assert (M : 0 < Rmin del 1) by (apply Rmin_pos; [apply cond_pos|lra]). exists (mkposreal _ M). intros u U. cbn in U.
  change (Rabs (u - x) < Rmin del 1) in U. assert (U1 := Rmin_l del 1). assert (U2 := Rmin_r del 1).
  assert (Iu : a - 1 <= u <= b + 1) by (apply Rabs_def2 in U; lra).
  assert (K : forall v, c <= v <= d -> Rabs (f u v - f x v) < eps / 2).
  { intros v V. apply D; try lra. rewrite Rminus_eq_0, Rabs_R0. apply cond_pos. }
  destruct (lowest_spec u) as (yu & Iyu & Eu & Lu). destruct (lowest_spec x) as (yx & Iyx & Ex & Lx).
  specialize (Lu yx Iyx). specialize (Lx yu Iyu). assert (K1 := K yu Iyu). assert (K2 := K yx Iyx). apply Rabs_def2 in K1, K2.
  apply Rabs_def1; lra.
Qed.
Lemma min_rect : exists x0 y0, a <= x0 <= b /\ c <= y0 <= d /\ (forall x y, a <= x <= b -> c <= y <= d -> f x0 y0 <= f x y).
Proof.
  destruct (continuity_ab_min lowest a b ab lowest_cont) as [x0 [H I]]. destruct (lowest_spec x0) as (y0 & Iy & E & _). exists x0, y0.
  split; [exact I|]. split; [exact Iy|]. intros x y Hx Hy. rewrite <- E. apply (Rle_trans _ (lowest x)); [apply H, Hx|].
  destruct (lowest_spec x) as (_ & _ & _ & L). apply L, Hy.
Qed.
End Rect.
(** ... and on the whole plane when it is large far away. *)
Lemma min_plane f M x1 y1 : (forall x y, continuity_2d_pt f x y) -> (forall x y, M < Rabs x \/ M < Rabs y -> f x1 y1 <= f x y) ->
  exists x0 y0, forall x y, f x0 y0 <= f x y.
Proof.
  intros C G. set (N := Rmax M (Rmax (Rabs x1) (Rabs y1))). assert (N1 : M <= N) by apply Rmax_l. assert (N2 : Rmax (Rabs x1) (Rabs y1) <= N) by apply Rmax_r.
  assert (N3 := Rmax_l (Rabs x1) (Rabs y1)). assert (N4 := Rmax_r (Rabs x1) (Rabs y1)). assert (N5 := Rabs_pos x1).
  destruct (min_rect f C (- N) N (- N) N) as (x0 & y0 & _ & _ & L); try lra. exists x0, y0. intros x y.
  assert (Z : f x0 y0 <= f x1 y1) by (apply L; apply Rabs_le_between; lra).
  destruct (Rle_dec (Rabs x) N) as [X|X]; [destruct (Rle_dec (Rabs y) N) as [Y|Y]|].
  - apply L; apply Rabs_le_between; assumption.
  - apply (Rle_trans _ (f x1 y1)); [exact Z|]. apply G. right. lra.
  - apply (Rle_trans _ (f x1 y1)); [exact Z|]. apply G. left. lra.
Qed.
Lemma D2_continuous f x y fx fy : D2 f x y fx fy -> continuity_2d_pt f x y.
Proof. intros H. apply differentiable_continuity_pt. exists fx, fy. exact H. Qed.

(** ** At a minimum the first derivative vanishes and the second is not negative *)
Lemma min_1d_first (g : R -> R) l : is_derive g 0 l -> locally 0 (fun t => g 0 <= g t) -> l = 0.
Proof.
  intros D [e H]. destruct (Req_dec l 0) as [E|E]; [exact E|exfalso]. apply is_derive_Reals in D.
  assert (P : 0 < Rabs l / 2) by (assert (Q := Rabs_pos_lt l E); lra). destruct (D _ P) as [d Hd].
  assert (Hdp := cond_pos d). assert (Hep := cond_pos e). set (r := Rmin (d / 2) (e / 2)). assert (r1 := Rmin_l (d / 2) (e / 2)). assert (r2 := Rmin_r (d / 2) (e / 2)).
  fold r in r1, r2. assert (rp : 0 < r) by (apply Rmin_pos; lra).
  assert (A := Hd r ltac:(lra) ltac:(rewrite Rabs_right; lra)). assert (B := Hd (- r) ltac:(lra) ltac:(rewrite Rabs_left; lra)).
  rewrite Rplus_0_l in A, B. assert (H1 := H r ltac:(change (Rabs (r - 0) < e); rewrite Rabs_right; lra)). assert (H2 := H (- r) ltac:(change (Rabs (- r - 0) < e); rewrite Rabs_left; lra)).
  assert (0 <= (g r - g 0) / r) by (apply Rdiv_le_0_compat; lra).
  assert ((g (- r) - g 0) / (- r) <= 0).
  { replace ((g (- r) - g 0) / - r) with (- ((g (- r) - g 0) / r)) by (field; lra).
    assert (0 <= (g (- r) - g 0) / r) by (apply Rdiv_le_0_compat; lra). lra. }
  apply Rabs_def2 in A, B. unfold Rabs in *. destruct (Rcase_abs l); lra.
Qed.
Lemma min_1d_second (g g' : R -> R) l : locally 0 (fun t => is_derive g t (g' t)) -> is_derive g' 0 l -> locally 0 (fun t => g 0 <= g t) -> 0 <= l.
Proof.
  intros L D H. destruct (Rle_dec 0 l) as [E|E]; [exact E|exfalso].
  assert (Z : g' 0 = 0) by (apply (min_1d_first g); [exact (locally_singleton _ _ L)|exact H]).
  apply is_derive_Reals in D. assert (P : 0 < - l / 2) by lra. destruct (D _ P) as [d Hd]. destruct (filter_and _ _ L H) as [e He].
  assert (Hdp := cond_pos d). assert (Hep := cond_pos e). set (r := Rmin (d / 2) (e / 2)). assert (r1 := Rmin_l (d / 2) (e / 2)). assert (r2 := Rmin_r (d / 2) (e / 2)).
  fold r in r1, r2. assert (rp : 0 < r) by (apply Rmin_pos; lra).
  assert (N : forall t, 0 < t <= r -> g' t < 0).
  { intros t T. assert (A := Hd t ltac:(lra) ltac:(rewrite Rabs_right; lra)). rewrite Rplus_0_l, Z, Rminus_0_r in A. apply Rabs_def2 in A.
    destruct (Rle_dec 0 (g' t)) as [Q|Q]; [|lra]. assert (0 <= g' t / t) by (apply Rdiv_le_0_compat; lra). lra. }
  assert (K : forall t, 0 <= t <= r -> is_derive g t (g' t)) by (intros t T; apply He; change (Rabs (t - 0) < e); rewrite Rabs_right; lra).
  assert (K' : forall t, 0 <= t <= r -> continuity_pt g t).
  { intros t T. apply continuity_pt_filterlim. apply (ex_derive_continuous g). exists (g' t). apply K, T. }
  destruct (MVT_gen g 0 (r / 2) g') as [w [W1 W2]]; [intros t T; rewrite Rmin_left, Rmax_right in T by lra; apply K; lra|intros t T; rewrite Rmin_left, Rmax_right in T by lra; apply K'; lra|].
  destruct (MVT_gen g (r / 2) r g') as [s [S1 S2]]; [intros t T; rewrite Rmin_left, Rmax_right in T by lra; apply K; lra|intros t T; rewrite Rmin_left, Rmax_right in T by lra; apply K'; lra|].
  rewrite Rmin_left, Rmax_right in W1, S1 by lra. assert (Hr : g 0 <= g r) by (apply He; change (Rabs (r - 0) < e); rewrite Rabs_right; lra).
  assert (Q := N s ltac:(lra)). assert (g' s * (r - r / 2) < 0) by nra.
  assert (g' w * (r / 2 - 0) <= 0) by (destruct (Req_dec w 0) as [->|W0]; [rewrite Z; lra|assert (V := N w ltac:(lra)); nra]). lra.
Qed.

(** ** Lenses whose arrival time has a least value *)
(** differentiable around, with a convergence that is not negative *)
Definition smooth_at (L : thin_lens) (x y : R) : Prop :=
  locally_2d (fun u v => deflection_is_gradient (potential L) (reduced_deflection_angle L) u v) x y /\
  convergence_is_half_divergence (reduced_deflection_angle L) (convergence L) x y /\ 0 <= convergence L x y.
(** what the potential rises to both sides of a point *)
Definition rise (psi : R -> R -> R) (x y u v t : R) : R := psi (x + t * u) (y + t * v) + psi (x - t * u) (y - t * v) - 2 * psi x y.
Definition no_cap (psi : R -> R -> R) (x y : R) : Prop := forall u v e, 0 < e -> exists d, 0 < d /\ forall t, 0 < t < d -> - e * t <= rise psi x y u v t.
Definition cusp (psi : R -> R -> R) (x y : R) : Prop := exists u v m d, 0 < m /\ 0 < d /\ forall t, 0 < t < d -> m * t <= rise psi x y u v t.
Definition grows (k : R) (psi : R -> R -> R) : Prop := forall e, 0 < e -> exists B, forall x y, psi x y <= B + (k + e) / 2 * (x ^ 2 + y ^ 2).
(** the exponential of the potential, continuous and zero at the point masses *)
Definition weighed (L : thin_lens) (E : R -> R -> R) : Prop :=
  (forall x y, continuity_2d_pt E x y) /\
  (forall x y, E x y = 0 \/ E x y = exp (potential L x y) /\ (smooth_at L x y \/ no_cap (potential L) x y /\ cusp (potential L) x y)).

Lemma smooth_no_cap L x y : smooth_at L x y -> no_cap (potential L) x y.
Proof.
  intros [G _] u v e He. assert (D := locally_2d_singleton _ _ _ G). cbv beta in D. unfold deflection_is_gradient in D.
  set (gx := fst (reduced_deflection_angle L x y)) in *. set (gy := snd (reduced_deflection_angle L x y)) in *.
  set (n := Rabs u + Rabs v + 1). assert (Hu := Rabs_pos u). assert (Hv := Rabs_pos v). assert (Hn : 0 < n) by (unfold n; lra).
  assert (P : 0 < e / (2 * n)) by (apply Rdiv_lt_0_compat; lra).
  destruct (proj1 (D2_unfold _ _ _ _ _) D (mkposreal _ P)) as [d Hd]. cbn [pos] in Hd. assert (Hdp := cond_pos d).
  exists (d / n). split; [apply Rdiv_lt_0_compat; lra|]. intros t [T0 T1].
  assert (T : t * n < d) by (apply (Rmult_lt_compat_r n) in T1; [|exact Hn]; unfold Rdiv in T1; rewrite Rmult_assoc, Rinv_l, Rmult_1_r in T1; lra).
  assert (U : Rabs (t * u) <= t * n) by (rewrite Rabs_mult, (Rabs_right t) by lra; apply Rmult_le_compat_l; unfold n; lra).
  assert (V : Rabs (t * v) <= t * n) by (rewrite Rabs_mult, (Rabs_right t) by lra; apply Rmult_le_compat_l; unfold n; lra).
  assert (Q : forall a b, Rabs a <= t * n -> Rabs b <= t * n -> Rabs (potential L (x + a) (y + b) - potential L x y - (gx * a + gy * b)) <= e / 2 * t).
  { intros a b A B. assert (H := Hd (x + a) (y + b)). replace (x + a - x) with a in H by ring. replace (y + b - y) with b in H by ring.
    eapply Rle_trans; [apply H; lra|]. replace (e / 2 * t) with (e / (2 * n) * (t * n)) by (field; lra). apply Rmult_le_compat_l; [lra|]. apply Rmax_lub; assumption. }
  assert (A := Q (t * u) (t * v) U V). assert (B := Q (- (t * u)) (- (t * v)) ltac:(rewrite Rabs_Ropp; exact U) ltac:(rewrite Rabs_Ropp; exact V)).
  unfold rise. unfold Rminus at 2 3. apply Rabs_le_between in A, B. lra.
Qed.

Definition spread (bx by_ x y : R) : R := ((x - bx) ^ 2 + (y - by_) ^ 2) / 2.
Lemma young w b x : 0 < w -> b * x <= w / 4 * x ^ 2 + b ^ 2 / w.
Proof.
  intros W. assert (H : 0 <= (w / 2 * x - b) ^ 2) by apply pow2_ge_0. apply (Rmult_le_reg_l w); [exact W|].
  replace (w * (w / 4 * x ^ 2 + b ^ 2 / w)) with (w ^ 2 / 4 * x ^ 2 + b ^ 2) by (field; lra). nra.
Qed.
Lemma coercive k B bx by_ c : k < 1 -> exists M, forall x y, M < Rabs x \/ M < Rabs y -> B + k / 2 * (x ^ 2 + y ^ 2) - spread bx by_ x y <= c.
Proof.
  intros K. set (w := 1 - k). assert (W : 0 < w) by (unfold w; lra). set (T := B + bx ^ 2 / w + by_ ^ 2 / w - c).
  exists (1 + 4 / w * Rabs T). intros x y H. assert (Y1 := young w bx x W). assert (Y2 := young w by_ y W).
  assert (R2 : 4 / w * T <= x ^ 2 + y ^ 2).
  { assert (A : 0 <= 4 / w * Rabs T) by (apply Rmult_le_pos; [apply Rlt_le, Rdiv_lt_0_compat; lra|apply Rabs_pos]).
    assert (A' : 4 / w * T <= 4 / w * Rabs T) by (apply Rmult_le_compat_l; [apply Rlt_le, Rdiv_lt_0_compat; lra|apply Rle_abs]).
    assert (X2 : x ^ 2 = Rabs x ^ 2) by (rewrite RPow_abs, Rabs_right; [reflexivity|apply Rle_ge, pow2_ge_0]).
    assert (Y3 : y ^ 2 = Rabs y ^ 2) by (rewrite RPow_abs, Rabs_right; [reflexivity|apply Rle_ge, pow2_ge_0]).
    assert (X4 := pow2_ge_0 x). assert (Y4 := pow2_ge_0 y). destruct H; nra. }
  assert (R3 : T <= w / 4 * (x ^ 2 + y ^ 2)).
  { replace T with (w / 4 * (4 / w * T)) by (field; lra). apply Rmult_le_compat_l; lra. }
  unfold spread. unfold T in R3. unfold w in *. assert (Q1 := pow2_ge_0 bx). assert (Q2 := pow2_ge_0 by_). lra.
Qed.

Section Lens.
Variables (L : thin_lens) (E : R -> R -> R) (k bx by_ : R).
Hypothesis W : weighed L E.
Hypothesis G : grows k (potential L).
Hypothesis K : k < 1.
Let F (x y : R) : R := E x y * exp (- spread bx by_ x y).
Let tau (x y : R) : R := spread bx by_ x y - potential L x y.
Definition first (x y : R) : Prop := E x y <> 0 /\ forall u v, F u v <= F x y.
Lemma spread_D2 x y : D2 (spread bx by_) x y (x - bx) (y - by_).
Proof.
  apply (D2_ext (fun u v => (1 / 2) * ((u - bx) ^ 2 + (v - by_) ^ 2))); [intros; unfold spread; field|]. eapply D2_eq.
  - apply D2_scal. apply D2_plus; apply D2_sqr; apply D2_minus; try apply D2_const; [apply D2_fst|apply D2_snd].
  - cbv beta; field.
  - cbv beta; field.
Qed.
Lemma E_pos x y : 0 <= E x y.
Proof. destruct (proj2 W x y) as [->|[-> _]]; [lra|apply Rlt_le, exp_pos]. Qed.
Lemma F_cont x y : continuity_2d_pt (fun u v => - F u v) x y.
Proof.
  apply continuity_2d_pt_opp. apply continuity_2d_pt_mult; [apply (proj1 W)|].
  eapply D2_continuous. apply D2_exp, D2_opp, spread_D2.
Qed.
Lemma F_exp x y : E x y <> 0 -> F x y = exp (- tau x y).
Proof. intros N. destruct (proj2 W x y) as [H|[H _]]; [contradiction|]. unfold F, tau. rewrite H, <- exp_plus. f_equal. ring. Qed.
Lemma exists_first : (exists x y, E x y <> 0) -> exists x y, first x y.
Proof.
  intros (x1 & y1 & N1). destruct (G ((1 - k) / 2) ltac:(lra)) as [B HB].
  destruct (coercive (k + (1 - k) / 2) B bx by_ (- tau x1 y1) ltac:(lra)) as [M HM].
  assert (P1 : 0 < F x1 y1) by (rewrite F_exp by exact N1; apply exp_pos).
  destruct (min_plane (fun x y => - F x y) M x1 y1 F_cont) as (x0 & y0 & H0).
  - intros x y H. destruct (Req_dec (E x y) 0) as [Z|Z].
    + replace (F x y) with 0 by (unfold F; rewrite Z; ring). lra.
    + rewrite (F_exp x y Z), (F_exp x1 y1 N1). apply Ropp_le_contravar.
      assert (Q := HM x y H). assert (Q' := HB x y). assert (V : - tau x y <= - tau x1 y1) by (unfold tau at 1; lra).
      destruct V as [V| ->]; [left; apply exp_increasing, V|right; reflexivity].
  - exists x0, y0. split.
    + intros Z. assert (Q := H0 x1 y1). replace (F x0 y0) with 0 in Q by (unfold F; rewrite Z; ring). lra.
    + intros u v. assert (Q := H0 u v). lra.
Qed.
Lemma first_time x y u v : first x y -> E u v <> 0 -> tau x y <= tau u v.
Proof.
  intros [N H] Nu. specialize (H u v). rewrite (F_exp u v Nu), (F_exp x y N) in H.
  destruct (Rle_dec (tau x y) (tau u v)) as [Q|Q]; [exact Q|exfalso]. assert (A := exp_increasing (- tau x y) (- tau u v) ltac:(lra)). lra.
Qed.
Lemma time_first x y : E x y <> 0 -> (exists u v, first u v /\ tau x y <= tau u v) -> first x y.
Proof.
  intros N (u & v & [Nu H] & Q). split; [exact N|]. intros a b. apply (Rle_trans _ (F u v)); [apply H|].
  rewrite (F_exp u v Nu), (F_exp x y N). destruct Q as [Q| ->]; [left; apply exp_increasing; lra|right; reflexivity].
Qed.
(** near a point that is not a point mass there is none *)
Lemma E_near x y : E x y <> 0 -> locally_2d (fun u v => E u v <> 0) x y.
Proof.
  intros N. assert (P : 0 < E x y) by (assert (Q := E_pos x y); lra). destruct (proj1 W x y (mkposreal _ P)) as [d D]. exists d.
  intros u v Hu Hv. assert (A := D u v Hu Hv). cbn [pos] in A. apply Rabs_def2 in A. lra.
Qed.
Lemma first_near x y : first x y -> locally_2d (fun u v => tau x y <= tau u v) x y.
Proof. intros H. destruct (E_near x y (proj1 H)) as [d D]. exists d. intros u v Hu Hv. apply first_time; [exact H|apply D; assumption]. Qed.
Lemma line_near (P : R -> R -> Prop) x y u v : locally_2d P x y -> locally 0 (fun t => P (x + t * u) (y + t * v)).
Proof.
  intros [d D]. set (n := Rabs u + Rabs v + 1). assert (Hu := Rabs_pos u). assert (Hv := Rabs_pos v). assert (Hn : 0 < n) by (unfold n; lra).
  assert (Hd := cond_pos d). assert (Q : 0 < d / n) by (apply Rdiv_lt_0_compat; lra). exists (mkposreal _ Q). intros t T. change (Rabs (t - 0) < d / n) in T. rewrite Rminus_0_r in T.
  assert (T' : Rabs t * n < d) by (apply (Rmult_lt_compat_r n) in T; [|exact Hn]; unfold Rdiv in T; rewrite Rmult_assoc, Rinv_l, Rmult_1_r in T; lra).
  assert (At := Rabs_pos t). apply D.
  - replace (x + t * u - x) with (t * u) by ring. rewrite Rabs_mult. unfold n in T'. nra.
  - replace (y + t * v - y) with (t * v) by ring. rewrite Rabs_mult. unfold n in T'. nra.
Qed.
Lemma first_no_cusp x y : first x y -> ~ cusp (potential L) x y.
Proof.
  intros H (u & v & m & d & Hm & Hd & C). destruct (line_near _ x y u v (first_near x y H)) as [e He]. assert (Hep := cond_pos e).
  set (n := u ^ 2 + v ^ 2 + 1). assert (Hn : 0 < n) by (unfold n; nra).
  set (t := Rmin (d / 2) (Rmin (e / 2) (m / (2 * n)))).
  assert (T1 := Rmin_l (d / 2) (Rmin (e / 2) (m / (2 * n)))). assert (T2 := Rmin_r (d / 2) (Rmin (e / 2) (m / (2 * n)))). fold t in T1, T2.
  assert (T3 := Rmin_l (e / 2) (m / (2 * n))). assert (T4 := Rmin_r (e / 2) (m / (2 * n))).
  assert (P : 0 < m / (2 * n)) by (apply Rdiv_lt_0_compat; lra). assert (T0 : 0 < t) by (unfold t; repeat apply Rmin_pos; lra).
  assert (A1 := He t ltac:(change (Rabs (t - 0) < e); rewrite Rabs_right; lra)). assert (A2 := He (- t) ltac:(change (Rabs (- t - 0) < e); rewrite Rabs_left; lra)).
  assert (A3 := C t ltac:(lra)). cbv beta in A1, A2. unfold tau, spread, rise in *.
  replace (x + - t * u) with (x - t * u) in A2 by ring. replace (y + - t * v) with (y - t * v) in A2 by ring.
  assert (Q : m * t <= t ^ 2 * (u ^ 2 + v ^ 2)) by nra.
  assert (Q' : t * n <= m / 2) by (replace (m / 2) with (m / (2 * n) * n) by (field; lra); apply Rmult_le_compat_r; lra).
  assert (t * (t * n) <= t * (m / 2)) by (apply Rmult_le_compat_l; lra). unfold n in H0. nra.
Qed.
Lemma first_smooth x y : first x y -> smooth_at L x y.
Proof.
  intros H. destruct (proj2 W x y) as [Z|[_ [S|[_ C]]]]; [destruct (proj1 H Z)|exact S|destruct (first_no_cusp x y H C)].
Qed.
Definition slope_x (x y : R) : R := x - bx - fst (reduced_deflection_angle L x y).
Definition slope_y (x y : R) : R := y - by_ - snd (reduced_deflection_angle L x y).
Lemma tau_D2 x y : deflection_is_gradient (potential L) (reduced_deflection_angle L) x y -> D2 tau x y (slope_x x y) (slope_y x y).
Proof. intros H. unfold tau. apply D2_minus; [apply spread_D2|exact H]. Qed.
Lemma first_image x y : first x y -> raytrace (reduced_deflection_angle L) x y = (bx, by_).
Proof.
  intros H. destruct (first_smooth x y H) as [S _]. assert (D := tau_D2 x y (locally_2d_singleton _ _ _ S)).
  assert (N := first_near x y H).
  assert (A : forall u v, slope_x x y * u + slope_y x y * v = 0).
  { intros u v. apply (min_1d_first (fun t => tau (x + t * u) (y + t * v))).
    - apply (D2_curve tau (fun t => x + t * u) (fun t => y + t * v)); [replace (x + 0 * u) with x by ring; replace (y + 0 * v) with y by ring; exact D| |]; auto_derive; auto; ring.
    - assert (Q := line_near _ x y u v N). cbv beta in Q. replace (x + 0 * u) with x by ring. replace (y + 0 * v) with y by ring. exact Q. }
  assert (A1 := A 1 0). assert (A2 := A 0 1). unfold raytrace, slope_x, slope_y in *. destruct (reduced_deflection_angle L x y). cbn [fst snd] in *. f_equal; lra.
Qed.
Lemma first_second x y : first x y -> exists axx axy ayx ayy, D2 (fun u v => fst (reduced_deflection_angle L u v)) x y axx axy /\ D2 (fun u v => snd (reduced_deflection_angle L u v)) x y ayx ayy /\
  axy = ayx /\ 0 <= axx + ayy /\ forall u v, 0 <= (1 - axx) * u ^ 2 - 2 * axy * u * v + (1 - ayy) * v ^ 2.
Proof.
  intros H. destruct (first_smooth x y H) as [S [(axx & axy & ayx & ayy & D1 & D2' & Sy & Ka) Kp]]. exists axx, axy, ayx, ayy.
  split; [exact D1|]. split; [exact D2'|]. split; [exact Sy|]. split; [lra|]. intros u v.
  assert (N := first_near x y H).
  apply (min_1d_second (fun t => tau (x + t * u) (y + t * v)) (fun t => slope_x (x + t * u) (y + t * v) * u + slope_y (x + t * u) (y + t * v) * v)).
  - assert (Q := line_near _ x y u v S). revert Q. apply filter_imp. intros t Q.
    apply (D2_curve tau (fun t => x + t * u) (fun t => y + t * v)); [apply tau_D2, Q| |]; auto_derive; auto; ring.
  - assert (Dx : D2 slope_x x y (1 - axx) (- axy)).
    { unfold slope_x. eapply D2_eq; [apply D2_minus; [apply D2_minus; [apply D2_fst|apply D2_const]|exact D1]| |]; ring. }
    assert (Dy : D2 slope_y x y (- ayx) (1 - ayy)).
    { unfold slope_y. eapply D2_eq; [apply D2_minus; [apply D2_minus; [apply D2_snd|apply D2_const]|exact D2']| |]; ring. }
    replace ((1 - axx) * u ^ 2 - 2 * axy * u * v + (1 - ayy) * v ^ 2) with (((1 - axx) * u + - axy * v) * u + (- ayx * u + (1 - ayy) * v) * v) by (rewrite Sy; ring).
    apply (is_derive_plus (fun t => slope_x (x + t * u) (y + t * v) * u) (fun t => slope_y (x + t * u) (y + t * v) * v)).
    + apply (is_derive_scal_l (fun t => slope_x (x + t * u) (y + t * v)) 0 ((1 - axx) * u + - axy * v) u).
      apply (D2_curve slope_x (fun t => x + t * u) (fun t => y + t * v)); [replace (x + 0 * u) with x by ring; replace (y + 0 * v) with y by ring; exact Dx| |]; auto_derive; auto; ring.
    + apply (is_derive_scal_l (fun t => slope_y (x + t * u) (y + t * v)) 0 (- ayx * u + (1 - ayy) * v) v).
      apply (D2_curve slope_y (fun t => x + t * u) (fun t => y + t * v)); [replace (x + 0 * u) with x by ring; replace (y + 0 * v) with y by ring; exact Dy| |]; auto_derive; auto; ring.
  - assert (Q := line_near _ x y u v N). cbv beta in Q. replace (x + 0 * u) with x by ring. replace (y + 0 * v) with y by ring. exact Q.
Qed.
End Lens.
