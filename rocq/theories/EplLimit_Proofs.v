(** * The limit of the EPL series (C101) *)
From Coq Require Import Reals List Arith Lia Lra Psatz.
From Coquelicot Require Import Coquelicot.
From Verif Require Import Py Calc2 RealFun Geo_Model Lens_Spec Lens_Lib Wirtinger Epl_Model Epl_Spec Epl_Proofs Epl2_Proofs Epl3_Proofs Epl4_Proofs Epl5_Proofs Einstein_Proofs Round_Proofs Series2_Proofs D2Limit.
Local Open Scope R_scope.

(** ** a majorant *)
Lemma major_lim (a T : nat -> R) B : (forall n m, (n <= m)%nat -> Rabs (a m - a n) <= B * (T m - T n)) -> ex_finite_lim_seq T -> ex_finite_lim_seq a.
Proof.
  intros H L. apply ex_lim_seq_cauchy_corr. apply ex_lim_seq_cauchy_corr in L. intros [e He]. cbn [pos].
  assert (Hp : 0 < e / (Rabs B + 1)) by (apply Rdiv_lt_0_compat; [exact He|assert (Q := Rabs_pos B); lra]).
  destruct (L (mkposreal _ Hp)) as (N & HN). cbn [pos] in HN. exists N. assert (QB := Rabs_pos B).
  assert (Main : forall n m, (N <= n)%nat -> (n <= m)%nat -> Rabs (a m - a n) < e).
  { intros n m Hn Hm. eapply Rle_lt_trans; [apply H, Hm|]. eapply Rle_lt_trans; [apply Rle_abs|]. rewrite Rabs_mult.
    assert (A := HN m n ltac:(lia) Hn). set (d := Rabs (T m - T n)) in *. assert (D0 : 0 <= d) by apply Rabs_pos.
    apply Rle_lt_trans with ((Rabs B + 1) * d); [nra|]. replace e with ((Rabs B + 1) * (e / (Rabs B + 1))) by (field; lra). apply Rmult_lt_compat_l; lra. }
  intros n m Hn Hm. destruct (le_lt_dec n m) as [G|G]; [rewrite Rabs_minus_sym; apply Main; assumption|apply Main; [assumption|lia]].
Qed.
Section Majorant.
Variable f : R.
Hypothesis Hf : 0 <= f < 1.
Fixpoint T (n : nat) : R := match n with O => 0 | S k => T k + (INR k + 1) * f ^ k end.
Lemma T_closed n : T n * (1 - f) ^ 2 = 1 - (INR n + 1) * f ^ n + INR n * f ^ (S n).
Proof. induction n as [|n IH]; [simpl; ring|]. cbn [T]. rewrite Rmult_plus_distr_r, IH, S_INR. cbn [pow]. ring. Qed.
Lemma T_mono n : T n <= T (S n).
Proof. cbn [T]. assert (Q := pos_INR n). assert (0 <= f ^ n) by (apply pow_le; lra). nra. Qed.
Lemma T_bound n : T n <= / (1 - f) ^ 2.
Proof.
  assert (P : 0 < (1 - f) ^ 2) by nra. apply Rmult_le_reg_r with ((1 - f) ^ 2); [exact P|]. rewrite T_closed, Rinv_l by lra. cbn [pow].
  assert (Q := pos_INR n). assert (W : 0 <= f ^ n) by (apply pow_le; lra). assert (0 <= INR n * f ^ n) by nra. nra.
Qed.
Lemma T_lim : ex_finite_lim_seq T.
Proof. apply (ex_finite_lim_seq_incr T (/ (1 - f) ^ 2)); [exact T_mono|exact T_bound]. Qed.
Fixpoint S1 (n : nat) : R := match n with O => 0 | S k => S1 k + f ^ k end.
Lemma S1_closed n : S1 n * (1 - f) = 1 - f ^ n.
Proof. induction n as [|n IH]; [simpl; ring|]. cbn [S1]. rewrite Rmult_plus_distr_r, IH. cbn [pow]. ring. Qed.
Lemma S1_lim : ex_finite_lim_seq S1.
Proof.
  apply (ex_finite_lim_seq_incr S1 (/ (1 - f))).
  - intros n. cbn [S1]. assert (0 <= f ^ n) by (apply pow_le; lra). lra.
  - intros n. apply Rmult_le_reg_r with (1 - f); [lra|]. rewrite S1_closed, Rinv_l by lra. assert (0 <= f ^ n) by (apply pow_le; lra). lra.
Qed.
Lemma csumn_tail (F : nat -> C) B n m : (n <= m)%nat -> (forall k, Cmod (F k) <= B * ((INR k + 1) * f ^ k)) -> Cmod (csumn m F - csumn n F)%C <= B * (T m - T n).
Proof.
  intros Hm H. induction m as [|m IH].
  - replace n with O by lia. cbn [csumn]. replace (0 - 0)%C with (RtoC 0) by ring. rewrite Cmod_0. lra.
  - destruct (Nat.eq_dec n (S m)) as [->|NE]; [replace (csumn (S m) F - csumn (S m) F)%C with (RtoC 0) by ring; rewrite Cmod_0; lra|].
    cbn [csumn T]. replace (csumn m F + F m - csumn n F)%C with ((csumn m F - csumn n F) + F m)%C by ring. eapply Rle_trans; [apply Cmod_triangle|].
    assert (A := IH ltac:(lia)). assert (B0 := H m). lra.
Qed.
End Majorant.

Lemma Cmod_unit a : Cmod (cos a, sin a) = 1.
Proof. unfold Cmod. cbn [fst snd]. rewrite cs1. apply sqrt_1. Qed.
Lemma Cmod_div_le (a b : C) : b <> 0%C -> Cmod (a / b)%C = Cmod a / Cmod b.
Proof. intros H. unfold Cdiv. rewrite Cmod_mult, Cmod_inv by exact H. reflexivity. Qed.
Lemma Cmod_conj_eq (z : C) : Cmod (Cconj z) = Cmod z.
Proof. unfold Cmod, Cconj. destruct z as [a b]. cbn [fst snd]. f_equal. ring. Qed.

Section Terms.
Variables (t q : R).
Hypotheses (Ht : 0 < t < 2) (Hq : 0 < q <= 1).
Let f := ellf q.
Lemma fr : 0 <= f < 1.
Proof. apply (ell_range q Hq). Qed.
Variables (x y : R).
Hypothesis NZ : ((x, y) : C) <> 0%C.
Lemma om_mod k : Cmod (om t q k x y) <= Cmod (x, y) * f ^ k.
Proof.
  destruct (atan2_polar x y) as [A B]. change (sqrt (x ^ 2 + y ^ 2)) with (Cmod (x, y)) in A, B. rewrite (om_polar t q x y NZ (atan2 y x) k A B). fold f.
  rewrite !Cmod_mult, Cmod_unit, Cmod_R, Rmult_1_r, Rabs_mult. apply Rmult_le_compat_l; [apply Cmod_ge_0|].
  rewrite <- RPow_abs, Rabs_Ropp, (Rabs_pos_eq f) by apply fr. assert (C := coef_abs t k Ht). assert (0 <= f ^ k) by (apply pow_le, fr). set (P := Rabs _) in *. nra.
Qed.
Variable K : R.
Hypothesis HK : 0 < K.
Lemma g_nonneg u v : 0 <= g t K u v.
Proof. unfold g, power. destruct (Req_EM_T _ 0); [lra|]. left. apply exp_pos. Qed.
Lemma dz_mod k : Cmod (dz t q K x y k) <= g t K x y * ((INR k + 1) * f ^ k) /\ Cmod (dzb t q K x y k) <= g t K x y * ((INR k + 1) * f ^ k).
Proof.
  assert (NB := conj_nz x y NZ). assert (MP := proj1 (Cmod_gt_0 _) NZ). assert (G := g_nonneg x y). assert (O := om_mod k). assert (In := pos_INR k). assert (W : 0 <= f ^ k) by (apply pow_le, fr).
  assert (Main : forall c (w : C), Rabs c <= INR k + 1 -> w <> 0%C -> Cmod w = Cmod (x, y) -> Cmod (RtoC c * g t K x y * om t q k x y / w)%C <= g t K x y * ((INR k + 1) * f ^ k)).
  { intros c w Hc Hw Ew. rewrite Cmod_div_le by exact Hw. rewrite !Cmod_mult, !Cmod_R, Ew, (Rabs_pos_eq (g t K x y)) by exact G.
    apply Rmult_le_reg_r with (Cmod (x, y)); [exact MP|]. unfold Rdiv. rewrite Rmult_assoc, Rinv_l by lra. rewrite Rmult_1_r.
    apply Rle_trans with ((INR k + 1) * g t K x y * (Cmod (x, y) * f ^ k)); [|right; ring].
    apply Rmult_le_compat; [apply Rmult_le_pos; [apply Rabs_pos|exact G]|apply Cmod_ge_0| |exact O]. apply Rmult_le_compat_r; assumption. }
  split.
  - unfold dz. apply Main; [apply Rabs_le; lra|exact NZ|reflexivity].
  - unfold dzb. rewrite <- RtoC_opp. apply Main; [rewrite Rabs_Ropp; apply Rabs_le; lra|exact NB|apply Cmod_conj_eq].
Qed.
Lemma psum_tail n m : (n <= m)%nat -> Cmod (psum (x, y) t q m - psum (x, y) t q n)%C <= Cmod (x, y) * (S1 f m - S1 f n).
Proof.
  intros Hm. induction m as [|m IH].
  - replace n with O by lia. replace (psum (x, y) t q 0 - psum (x, y) t q 0)%C with (RtoC 0) by ring. rewrite Cmod_0. lra.
  - destruct (Nat.eq_dec n (S m)) as [->|NE]; [replace (psum (x, y) t q (S m) - psum (x, y) t q (S m))%C with (RtoC 0) by ring; rewrite Cmod_0; lra|].
    cbn [psum S1]. replace (psum (x, y) t q m + omega (x, y) t q m - psum (x, y) t q n)%C with ((psum (x, y) t q m - psum (x, y) t q n) + omega (x, y) t q m)%C by ring.
    eapply Rle_trans; [apply Cmod_triangle|]. assert (A := IH ltac:(lia)). assert (O := om_mod m). unfold om in O. lra.
Qed.
(** the derivatives of the terms are differentiable *)
Lemma W_dz k : exists A B, W (fun u v => dz t q K u v k) x y A B.
Proof.
  eexists. eexists. unfold dz, Cdiv.
  apply (W_mult (fun u v => ((INR k + 1 - t / 2)%R * g t K u v * om t q k u v)%C) (fun u v => (/ (u, v))%C)).
  - apply (W_mult (fun u v => ((INR k + 1 - t / 2)%R * g t K u v)%C) (fun u v => om t q k u v)); [|apply W_om, NZ].
    apply (W_mult (fun _ _ => RtoC (INR k + 1 - t / 2)) (fun u v => RtoC (g t K u v))); [apply W_const|apply W_g; assumption].
  - apply (W_inv (fun u v => (u, v))); [exact NZ|apply W_z].
Qed.
Lemma W_dzb k : exists A B, W (fun u v => dzb t q K u v k) x y A B.
Proof.
  eexists. eexists. unfold dzb, Cdiv.
  apply (W_mult (fun u v => (- (INR k + t / 2)%R * g t K u v * om t q k u v)%C) (fun u v => (/ Cconj (u, v))%C)).
  - apply (W_mult (fun u v => (- (INR k + t / 2)%R * g t K u v)%C) (fun u v => om t q k u v)); [|apply W_om, NZ].
    apply (W_mult (fun _ _ => (- RtoC (INR k + t / 2))%C) (fun u v => RtoC (g t K u v))); [apply W_const|apply W_g; assumption].
  - apply (W_inv (fun u v => Cconj (u, v))); [exact (conj_nz x y NZ)|apply W_conj].
Qed.
Lemma W_csumn (F : nat -> R -> R -> C) n : (forall k, exists A B, W (F k) x y A B) -> exists A B, W (fun u v => csumn n (fun k => F k u v)) x y A B.
Proof.
  intros H. induction n as [|n (A & B & IH)]; [exists 0%C, 0%C; exact (W_const 0%C x y)|]. destruct (H n) as (A' & B' & H'). exists (A + A')%C, (B + B')%C. cbn [csumn]. apply (W_plus (fun u v => csumn n (fun k => F k u v))); assumption.
Qed.
End Terms.

Lemma fst_le (z : C) : Rabs (fst z) <= Cmod z.
Proof. eapply Rle_trans; [apply Rmax_l|apply Rmax_Cmod]. Qed.
Lemma snd_le (z : C) : Rabs (snd z) <= Cmod z.
Proof. eapply Rle_trans; [apply Rmax_r|apply Rmax_Cmod]. Qed.

(** ** the deflection in the frame of the lens *)
Section Lim.
Variables (q Rein t : R).
Hypotheses (Hq : 0 < q <= 1) (HR : 0 < Rein) (Ht : 0 < t < 2).
Let f := ellf q.
Notation c2 := (2 / (1 + q)).
Let K := K0 q Rein.
Lemma c2_pos : 0 < c2. Proof. apply Rdiv_lt_0_compat; lra. Qed.
Lemma Kp : 0 < K. Proof. apply K0_pos; assumption. Qed.
Lemma alpha_tail a b n m : a <> 0 \/ b <> 0 -> (n <= m)%nat ->
  Cmod (alpha0 q Rein t m a b - alpha0 q Rein t n a b)%C <= c2 * g t K (q * a)%R b * Cmod ((q * a)%R, b) * (S1 f m - S1 f n).
Proof.
  intros Hab Hm. assert (NZ := NZ q Hq a b Hab). rewrite !(alpha0_val q Rein t _ Hq a b Hab). fold K.
  match goal with |- Cmod ?z <= _ => replace z with (RtoC c2 * (g t K (q * a)%R b * (psum ((q * a)%R, b) t q m - psum ((q * a)%R, b) t q n)))%C by ring end.
  assert (C := c2_pos). assert (G := g_nonneg t K (q * a) b). rewrite !Cmod_mult, !Cmod_R, (Rabs_pos_eq c2), (Rabs_pos_eq (g t K (q * a) b)) by lra.
  rewrite !Rmult_assoc. apply Rmult_le_compat_l; [lra|]. apply Rmult_le_compat_l; [exact G|]. apply (psum_tail t q Ht Hq); assumption.
Qed.
Lemma alpha_lim a b : a <> 0 \/ b <> 0 -> ex_finite_lim_seq (fun n => fst (alpha0 q Rein t n a b)) /\ ex_finite_lim_seq (fun n => snd (alpha0 q Rein t n a b)).
Proof.
  intros Hab. assert (F := fr q Hq). split; apply (major_lim _ (S1 f) (c2 * g t K (q * a)%R b * Cmod ((q * a)%R, b))); try apply (S1_lim f F); intros n m Hm.
  - eapply Rle_trans; [|apply (alpha_tail a b n m Hab Hm)]. exact (fst_le (alpha0 q Rein t m a b - alpha0 q Rein t n a b)%C).
  - eapply Rle_trans; [|apply (alpha_tail a b n m Hab Hm)]. exact (snd_le (alpha0 q Rein t m a b - alpha0 q Rein t n a b)%C).
Qed.
Definition alpha_inf (a b : R) : R * R := (real (Lim_seq (fun n => fst (alpha0 q Rein t n a b))), real (Lim_seq (fun n => snd (alpha0 q Rein t n a b)))).
Definition psi_inf (a b : R) : R := (a * fst (alpha_inf a b) + b * snd (alpha_inf a b)) / (2 - t).
Lemma alpha_inf_lim a b : a <> 0 \/ b <> 0 ->
  is_lim_seq (fun n => fst (alpha0 q Rein t n a b)) (fst (alpha_inf a b)) /\ is_lim_seq (fun n => snd (alpha0 q Rein t n a b)) (snd (alpha_inf a b)).
Proof. intros Hab. destruct (alpha_lim a b Hab) as [A B]. split; apply Lim_seq_correct'; assumption. Qed.
(** distance to the limit *)
Lemma S1_tail n m : S1 f m - S1 f n <= f ^ n / (1 - f).
Proof.
  assert (F := fr q Hq). fold f in F. apply Rmult_le_reg_r with (1 - f); [lra|]. unfold Rdiv. rewrite Rmult_assoc, Rinv_l, Rmult_1_r by lra. rewrite Rmult_minus_distr_r, !S1_closed.
  assert (0 <= f ^ m) by (apply pow_le; lra). lra.
Qed.
Lemma one_minus_f : 1 - f = 2 * q / (1 + q).
Proof. unfold f, ellf. field. lra. Qed.
Definition bound (a b : R) (n : nat) : R := 2 / ((2 - t) * q) * kappa0 q Rein t a b * Cmod ((q * a)%R, b) * f ^ n.
Lemma bound_eq a b n : bound a b n = c2 * g t K (q * a)%R b * Cmod ((q * a)%R, b) * (f ^ n / (1 - f)).
Proof. unfold bound, kappa0. fold K. rewrite one_minus_f. field. repeat split; lra. Qed.
Lemma alpha_inf_close a b n : a <> 0 \/ b <> 0 ->
  (fst (alpha0 q Rein t n a b) - fst (alpha_inf a b)) ^ 2 + (snd (alpha0 q Rein t n a b) - snd (alpha_inf a b)) ^ 2 <= bound a b n ^ 2.
Proof.
  intros Hab. destruct (alpha_inf_lim a b Hab) as [L1 L2]. assert (c := c2_pos). assert (G := g_nonneg t K (q * a) b). assert (M := Cmod_ge_0 ((q * a)%R, b)).
  assert (Step : forall m, (n <= m)%nat -> (fst (alpha0 q Rein t n a b) - fst (alpha0 q Rein t m a b)) ^ 2 + (snd (alpha0 q Rein t n a b) - snd (alpha0 q Rein t m a b)) ^ 2 <= bound a b n ^ 2).
  { intros m Hm. assert (A := alpha_tail a b n m Hab Hm). assert (B := S1_tail n m).
    assert (A2 : Cmod (alpha0 q Rein t m a b - alpha0 q Rein t n a b)%C <= bound a b n).
    { eapply Rle_trans; [exact A|]. rewrite bound_eq. apply Rmult_le_compat_l; [repeat apply Rmult_le_pos; lra|exact B]. }
    assert (Q := Cmod_ge_0 (alpha0 q Rein t m a b - alpha0 q Rein t n a b)%C).
    assert (E : Cmod (alpha0 q Rein t m a b - alpha0 q Rein t n a b)%C ^ 2 = (fst (alpha0 q Rein t n a b) - fst (alpha0 q Rein t m a b)) ^ 2 + (snd (alpha0 q Rein t n a b) - snd (alpha0 q Rein t m a b)) ^ 2).
    { unfold Cmod. rewrite pow2_sqrt. - unfold Cminus, Cplus, Copp. cbn [fst snd]. ring. - assert (X := pow2_ge_0 (fst (alpha0 q Rein t m a b - alpha0 q Rein t n a b)%C)). assert (Y := pow2_ge_0 (snd (alpha0 q Rein t m a b - alpha0 q Rein t n a b)%C)). lra. }
    rewrite <- E. apply pow_incr. lra. }
  set (a1 := fst (alpha0 q Rein t n a b)) in *. set (a2 := snd (alpha0 q Rein t n a b)) in *.
  assert (Lm : is_lim_seq (fun m => (a1 - fst (alpha0 q Rein t m a b)) ^ 2 + (a2 - snd (alpha0 q Rein t m a b)) ^ 2) ((a1 - fst (alpha_inf a b)) ^ 2 + (a2 - snd (alpha_inf a b)) ^ 2)).
  { assert (P : forall (u : nat -> R) (l k : R), is_lim_seq u l -> is_lim_seq (fun m => (k - u m) ^ 2) ((k - l) ^ 2)).
    { intros u l k L. apply (is_lim_seq_ext (fun m => (k - u m) * (k - u m))); [intros; ring|]. replace ((k - l) ^ 2) with ((k - l) * (k - l)) by ring.
      apply is_lim_seq_mult'; apply is_lim_seq_minus'; try apply is_lim_seq_const; exact L. }
    apply is_lim_seq_plus'; apply P; assumption. }
  change (Rbar_le (Finite ((a1 - fst (alpha_inf a b)) ^ 2 + (a2 - snd (alpha_inf a b)) ^ 2)) (Finite (bound a b n ^ 2))).
  apply (is_lim_seq_le_loc _ (fun _ => bound a b n ^ 2) _ _ (ex_intro _ n Step) Lm (is_lim_seq_const _)).
Qed.

(** ** the derivatives of the limit *)
Section At.
Variables (a b : R).
Hypothesis Hab : a <> 0 \/ b <> 0.
Definition DZ (n : nat) (u v : R) : C := csumn n (dz t q K (q * u)%R v).
Definition DB (n : nat) (u v : R) : C := csumn n (dzb t q K (q * u)%R v).
Lemma tails u v n m : u <> 0 \/ v <> 0 -> (n <= m)%nat ->
  Cmod (DZ m u v - DZ n u v)%C <= g t K (q * u)%R v * (T f m - T f n) /\ Cmod (DB m u v - DB n u v)%C <= g t K (q * u)%R v * (T f m - T f n).
Proof.
  intros Huv Hm. assert (N := NZ q Hq u v Huv). assert (B := dz_mod t q Ht Hq _ _ N K).
  split; apply (csumn_tail f); try exact Hm; intros k; apply B.
Qed.
Definition J (i : bool) (z w : C) : R * R := if i then (c2 * q * (fst z + fst w), c2 * (snd w - snd z)) else (c2 * q * (snd z + snd w), c2 * (fst z - fst w)).
Definition cmp (i : bool) (p : R * R) : R := if i then fst p else snd p.
Lemma J_lip i z w z' w' B : Cmod (z - z')%C <= B -> Cmod (w - w')%C <= B ->
  Rabs (fst (J i z w) - fst (J i z' w')) <= c2 * 2 * B /\ Rabs (snd (J i z w) - snd (J i z' w')) <= c2 * 2 * B.
Proof.
  intros H1 H2. assert (c := c2_pos). assert (F1 : Rabs (fst z + - fst z') <= B) by (eapply Rle_trans; [exact (fst_le (z - z')%C)|exact H1]). assert (F2 : Rabs (fst w + - fst w') <= B) by (eapply Rle_trans; [exact (fst_le (w - w')%C)|exact H2]).
  assert (G1 : Rabs (snd z + - snd z') <= B) by (eapply Rle_trans; [exact (snd_le (z - z')%C)|exact H1]). assert (G2 : Rabs (snd w + - snd w') <= B) by (eapply Rle_trans; [exact (snd_le (w - w')%C)|exact H2]).
  assert (Bp : 0 <= B) by (assert (Q := Cmod_ge_0 (z - z')%C); lra).
  assert (L : forall u v k, Rabs u <= B -> Rabs v <= B -> 0 <= k <= 1 -> Rabs (c2 * k * (u + v)) <= c2 * 2 * B).
  { intros u v k Hu Hv Hk. rewrite !Rabs_mult, (Rabs_pos_eq c2), (Rabs_pos_eq k) by lra. assert (Tr := Rabs_triang u v). assert (Q := Rabs_pos (u + v)).
    apply Rle_trans with (c2 * (1 * (2 * B))); [|right; ring]. rewrite Rmult_assoc. apply Rmult_le_compat_l; [lra|]. apply Rmult_le_compat; lra. }
  unfold J. destruct i; cbn [fst snd]; split.
  - replace (c2 * q * (fst z + fst w) - c2 * q * (fst z' + fst w')) with (c2 * q * ((fst z + - fst z') + (fst w + - fst w'))) by ring. apply L; lra.
  - replace (c2 * (snd w - snd z) - c2 * (snd w' - snd z')) with (c2 * 1 * (- (snd z + - snd z') + (snd w + - snd w'))) by ring. apply L; rewrite ?Rabs_Ropp; lra.
  - replace (c2 * q * (snd z + snd w) - c2 * q * (snd z' + snd w')) with (c2 * q * ((snd z + - snd z') + (snd w + - snd w'))) by ring. apply L; lra.
  - replace (c2 * (fst z - fst w) - c2 * (fst z' - fst w')) with (c2 * 1 * ((fst z + - fst z') + - (fst w + - fst w'))) by ring. apply L; rewrite ?Rabs_Ropp; lra.
Qed.
Lemma near_point : exists (d : posreal) G, 0 <= G /\ forall u v, Rabs (u - a) < d -> Rabs (v - b) < d -> (u <> 0 \/ v <> 0) /\ g t K (q * u)%R v <= G.
Proof.
  assert (N := NZ q Hq a b Hab). assert (Dg := D2_g t K Kp (q * a)%R b N).
  assert (D1 : D2 (fun u v => g t K (q * u) v) a b _ _) by (apply (D2_comp (g t K) (fun u _ => q * u) (fun _ v => v) a b); [exact Dg|apply D2_scal, D2_fst|apply D2_snd]).
  destruct (D2_locally_lt _ _ _ _ _ (g t K (q * a) b + 1) D1 ltac:(lra)) as (d1 & H1).
  assert (P : 0 < a ^ 2 + b ^ 2) by (apply norm2_pos; exact Hab).
  assert (D3 : D2 (fun u v => u ^ 2 + v ^ 2) a b (2 * a) (2 * b)) by (d2; ring).
  destruct (D2_locally_gt _ _ _ _ _ 0 D3 P) as (d2 & H2).
  assert (Dp : 0 < Rmin d1 d2) by (apply Rmin_glb_lt; apply cond_pos). exists (mkposreal _ Dp), (g t K (q * a) b + 1). cbn [pos].
  assert (G := g_nonneg t K (q * a) b). split; [lra|]. intros u v Hu Hv. assert (M1 := Rmin_l d1 d2). assert (M2 := Rmin_r d1 d2). split.
  - assert (Q := H2 u v ltac:(lra) ltac:(lra)). cbv beta in Q. destruct (Req_dec u 0) as [E|E]; [|left; exact E]. right. intros E2. rewrite E, E2 in Q. lra.
  - left. apply H1; lra.
Qed.
Lemma J_seq_lim i : ex_finite_lim_seq (fun n => fst (J i (DZ n a b) (DB n a b))) /\ ex_finite_lim_seq (fun n => snd (J i (DZ n a b) (DB n a b))).
Proof.
  assert (F := fr q Hq). split; apply (major_lim _ (T f) (c2 * 2 * g t K (q * a)%R b)); try apply (T_lim f F); intros n m Hm; destruct (tails a b n m Hab Hm) as [A B]; rewrite Rmult_assoc; eapply J_lip; eassumption.
Qed.
Definition Jl (i : bool) : R * R := (real (Lim_seq (fun n => fst (J i (DZ n a b) (DB n a b)))), real (Lim_seq (fun n => snd (J i (DZ n a b) (DB n a b))))).
Lemma Jl_lim i : is_lim_seq (fun n => fst (J i (DZ n a b) (DB n a b))) (fst (Jl i)) /\ is_lim_seq (fun n => snd (J i (DZ n a b) (DB n a b))) (snd (Jl i)).
Proof. destruct (J_seq_lim i) as [A B]. split; apply Lim_seq_correct'; assumption. Qed.
Lemma J_cont i n : continuity_2d_pt (fun u v => fst (J i (DZ n u v) (DB n u v))) a b /\ continuity_2d_pt (fun u v => snd (J i (DZ n u v) (DB n u v))) a b.
Proof.
  assert (N := NZ q Hq a b Hab).
  destruct (W_csumn (q * a)%R b (fun k u v => dz t q K u v k) n (W_dz t q (q * a)%R b N K Kp)) as (A & B & [Z1 Z2]).
  destruct (W_csumn (q * a)%R b (fun k u v => dzb t q K u v k) n (W_dzb t q (q * a)%R b N K Kp)) as (A' & B' & [Y1 Y2]).
  assert (Cp : forall h p r, D2 h (q * a) b p r -> D2 (fun u v => h (q * u) v) a b (p * (q * 1) + r * 0) (p * (q * 0) + r * 1)).
  { intros h p r H. eapply D2_eq; [apply (D2_comp h (fun u _ => q * u) (fun _ v => v) a b); [exact H|apply D2_scal, D2_fst|apply D2_snd]|reflexivity|reflexivity]. }
  apply Cp in Z1, Z2, Y1, Y2.
  split; apply differentiable_continuity_pt; destruct i; unfold J; cbn [fst snd]; eexists; eexists.
  - apply (D2_scal _ (fun u v => fst (DZ n u v) + fst (DB n u v))). apply (D2_plus (fun u v => fst (DZ n u v)) (fun u v => fst (DB n u v))); [exact Z1|exact Y1].
  - apply (D2_scal _ (fun u v => snd (DZ n u v) + snd (DB n u v))). apply (D2_plus (fun u v => snd (DZ n u v)) (fun u v => snd (DB n u v))); [exact Z2|exact Y2].
  - apply (D2_scal _ (fun u v => snd (DB n u v) - snd (DZ n u v))). apply (D2_minus (fun u v => snd (DB n u v)) (fun u v => snd (DZ n u v))); [exact Y2|exact Z2].
  - apply (D2_scal _ (fun u v => fst (DZ n u v) - fst (DB n u v))). apply (D2_minus (fun u v => fst (DZ n u v)) (fun u v => fst (DB n u v))); [exact Z1|exact Y1].
Qed.
Lemma alpha_inf_D2 i : D2 (fun u v => cmp i (alpha_inf u v)) a b (fst (Jl i)) (snd (Jl i)).
Proof.
  destruct near_point as (d & G & G0 & ND). assert (F := fr q Hq).
  apply (D2_limit (fun n u v => cmp i (alpha0 q Rein t n u v)) (fun n u v => fst (J i (DZ n u v) (DB n u v))) (fun n u v => snd (J i (DZ n u v) (DB n u v)))
     (fun u v => cmp i (alpha_inf u v)) a b (fst (Jl i)) (snd (Jl i)) d).
  - intros n u v Hu Hv. destruct (ND u v Hu Hv) as [Huv _]. destruct (alpha0_D2 q Rein t n Hq HR u v Huv) as [A B]. destruct i; [exact A|exact B].
  - intros u v Hu Hv. destruct (ND u v Hu Hv) as [Huv _]. destruct (alpha_inf_lim u v Huv) as [A B]. destruct i; [exact A|exact B].
  - intros [e He]. cbn [pos]. assert (c := c2_pos). assert (Ep : 0 < e / (c2 * 2 * (G + 1))) by (apply Rdiv_lt_0_compat; [exact He|apply Rmult_lt_0_compat; lra]).
    assert (TL := T_lim f F). apply ex_lim_seq_cauchy_corr in TL. destruct (TL (mkposreal _ Ep)) as (N & HN). cbn [pos] in HN. exists N. intros n Hn u v Hu Hv.
    destruct (ND u v Hu Hv) as [Huv Gb]. destruct (tails u v N n Huv Hn) as [A B]. assert (Tb := HN n N Hn (le_n N)).
    assert (Gn := g_nonneg t K (q * u) v). set (D := T f n - T f N) in *.
    assert (D1 : D <= e / (c2 * 2 * (G + 1))) by (assert (Q := Rle_abs D); lra).
    assert (D0 : 0 <= D). { unfold D. assert (Mono : forall k, T f N <= T f (N + k)) by (induction k as [|k IH]; [rewrite Nat.add_0_r; lra|rewrite Nat.add_succ_r; assert (Q := T_mono f F (N + k)); lra]).
      replace n with (N + (n - N))%nat by lia. assert (Q := Mono (n - N)%nat). lra. }
    assert (B0 : g t K (q * u)%R v * D <= e / (c2 * 2)).
    { apply Rle_trans with ((G + 1) * (e / (c2 * 2 * (G + 1)))); [apply Rmult_le_compat; lra|right; field; repeat split; lra]. }
    destruct (J_lip i (DZ n u v) (DB n u v) (DZ N u v) (DB N u v) (e / (c2 * 2)) ltac:(lra) ltac:(lra)) as [X Y].
    replace (c2 * 2 * (e / (c2 * 2))) with e in X, Y by (field; lra). split; assumption.
  - intros n. apply J_cont.
  - apply Jl_lim.
  - apply Jl_lim.
Qed.
(** the remainder of the telescoping sum vanishes *)
Lemma dzn_vanish : is_lim_seq (fun n => fst (dz t q K (q * a)%R b n)) 0 /\ is_lim_seq (fun n => snd (dz t q K (q * a)%R b n)) 0.
Proof.
  assert (F := fr q Hq). assert (N := NZ q Hq a b Hab).
  assert (TL := T_lim f F). destruct TL as (l & TL).
  assert (Sm : is_lim_seq (fun n => g t K (q * a)%R b * ((INR n + 1) * f ^ n)) 0).
  { apply (is_lim_seq_ext (fun n => g t K (q * a)%R b * (T f (S n) - T f n))); [intros n; cbn [T]; ring|].
    replace 0 with (g t K (q * a)%R b * (l - l)) by ring. apply is_lim_seq_scal_l with (lu := Finite (l - l)). apply is_lim_seq_minus'; [apply (is_lim_seq_incr_1 (T f)); exact TL|exact TL]. }
  split; apply is_lim_seq_abs_0; (eapply is_lim_seq_le_le; [|apply is_lim_seq_const|exact Sm]); intros n; (split; [apply Rabs_pos|]);
    (eapply Rle_trans; [first [apply fst_le|apply snd_le]|]); apply (dz_mod t q Ht Hq _ _ N K).
Qed.
Lemma limit_identities : fst (Jl true) + snd (Jl false) = 2 * kappa0 q Rein t a b /\ fst (Jl false) = snd (Jl true).
Proof.
  destruct dzn_vanish as [V1 V2]. assert (Tc := fun n => trace_curl q Rein t n Hq Ht a b Hab). cbv zeta in Tc. assert (Z0 := dz0 q Rein t Hq a b Hab).
  destruct (Jl_lim true) as [L1 L2]. destruct (Jl_lim false) as [L3 L4]. split.
  - assert (A : is_lim_seq (fun n => fst (J true (DZ n a b) (DB n a b)) + snd (J false (DZ n a b) (DB n a b))) (fst (Jl true) + snd (Jl false))) by (apply is_lim_seq_plus'; assumption).
    assert (B : is_lim_seq (fun n => fst (J true (DZ n a b) (DB n a b)) + snd (J false (DZ n a b) (DB n a b))) (2 * (kappa0 q Rein t a b - 0))).
    { apply (is_lim_seq_ext (fun n => 2 * (kappa0 q Rein t a b - fst (dz t q K (q * a)%R b n)))).
      - intros n. destruct (Tc n) as [E _]. rewrite Z0 in E. unfold Cminus, Cplus, Copp, RtoC in E. cbn [fst snd] in E. cbn [J fst snd]. symmetry. exact E.
      - apply is_lim_seq_scal_l with (lu := Finite (kappa0 q Rein t a b - 0)). apply is_lim_seq_minus'; [apply is_lim_seq_const|exact V1]. }
    apply is_lim_seq_unique in A. apply is_lim_seq_unique in B. rewrite A in B. apply Rbar_finite_eq in B. rewrite B. ring.
  - assert (A : is_lim_seq (fun n => fst (J false (DZ n a b) (DB n a b)) - snd (J true (DZ n a b) (DB n a b))) (fst (Jl false) - snd (Jl true))) by (apply is_lim_seq_minus'; assumption).
    assert (B : is_lim_seq (fun n => fst (J false (DZ n a b) (DB n a b)) - snd (J true (DZ n a b) (DB n a b))) (2 * (0 - 0))).
    { apply (is_lim_seq_ext (fun n => 2 * (0 - snd (dz t q K (q * a)%R b n)))).
      - intros n. destruct (Tc n) as [_ E]. rewrite Z0 in E. unfold Cminus, Cplus, Copp, RtoC in E. cbn [fst snd] in E. cbn [J fst snd]. symmetry. exact E.
      - apply is_lim_seq_scal_l with (lu := Finite (0 - 0)). apply is_lim_seq_minus'; [apply is_lim_seq_const|exact V2]. }
    apply is_lim_seq_unique in A. apply is_lim_seq_unique in B. rewrite A in B. apply Rbar_finite_eq in B. lra.
Qed.
Lemma psi_product (A1 A2 : R -> R -> R) p11 p12 p21 p22 : D2 A1 a b p11 p12 -> D2 A2 a b p21 p22 ->
  D2 (fun u v => (u * A1 u v + v * A2 u v) / (2 - t)) a b ((A1 a b + a * p11 + b * p21) / (2 - t)) ((A2 a b + a * p12 + b * p22) / (2 - t)).
Proof.
  intros H1 H2. eapply D2_eq.
  - apply D2_div; [|apply D2_plus; apply D2_mult; [apply D2_fst|exact H1|apply D2_snd|exact H2]|apply D2_const]. lra.
  - cbv beta. field. lra.
  - cbv beta. field. lra.
Qed.
Lemma psi_inf_D2 : D2 psi_inf a b (fst (alpha_inf a b)) (snd (alpha_inf a b)).
Proof.
  destruct limit_identities as [_ Cu]. destruct (Jl_lim true) as [L1 L2]. destruct (Jl_lim false) as [L3 L4]. destruct (alpha_inf_lim a b Hab) as [A1 A2].
  assert (E : forall n, (fst (alpha0 q Rein t n a b) + a * fst (J true (DZ n a b) (DB n a b)) + b * fst (J false (DZ n a b) (DB n a b))) / (2 - t)
      = fst (alpha0 q Rein t n a b) + (fst (J false (DZ n a b) (DB n a b)) - snd (J true (DZ n a b) (DB n a b))) / (2 - t) * b /\
    (snd (alpha0 q Rein t n a b) + a * snd (J true (DZ n a b) (DB n a b)) + b * snd (J false (DZ n a b) (DB n a b))) / (2 - t)
      = snd (alpha0 q Rein t n a b) - (fst (J false (DZ n a b) (DB n a b)) - snd (J true (DZ n a b) (DB n a b))) / (2 - t) * a).
  { intros n. destruct (alpha0_D2 q Rein t n Hq HR a b Hab) as [X Y]. assert (P := psi_product _ _ _ _ _ _ X Y). assert (P' := psi0_D2 q Rein t n Hq HR Ht a b Hab). cbv zeta in P'.
    exact (D2_unique _ _ _ _ _ _ _ P P'). }
  eapply D2_eq; [apply (psi_product (fun u v => fst (alpha_inf u v)) (fun u v => snd (alpha_inf u v))); [exact (alpha_inf_D2 true)|exact (alpha_inf_D2 false)]| |]; cbv beta.
  - assert (U : is_lim_seq (fun n => (fst (alpha0 q Rein t n a b) + a * fst (J true (DZ n a b) (DB n a b)) + b * fst (J false (DZ n a b) (DB n a b))) / (2 - t))
      ((fst (alpha_inf a b) + a * fst (Jl true) + b * fst (Jl false)) / (2 - t))).
    { unfold Rdiv. apply is_lim_seq_mult'; [|apply is_lim_seq_const]. apply is_lim_seq_plus'; [apply is_lim_seq_plus'; [exact A1|]|]; apply is_lim_seq_mult'; try apply is_lim_seq_const; assumption. }
    assert (V : is_lim_seq (fun n => (fst (alpha0 q Rein t n a b) + a * fst (J true (DZ n a b) (DB n a b)) + b * fst (J false (DZ n a b) (DB n a b))) / (2 - t))
      (fst (alpha_inf a b) + (fst (Jl false) - snd (Jl true)) / (2 - t) * b)).
    { eapply is_lim_seq_ext; [intros n; symmetry; apply (E n)|]. apply is_lim_seq_plus'; [exact A1|]. apply is_lim_seq_mult'; [|apply is_lim_seq_const]. unfold Rdiv. apply is_lim_seq_mult'; [|apply is_lim_seq_const].
      apply is_lim_seq_minus'; assumption. }
    apply is_lim_seq_unique in U. apply is_lim_seq_unique in V. rewrite U in V. apply Rbar_finite_eq in V. rewrite V, Cu. unfold Rdiv. ring.
  - assert (U : is_lim_seq (fun n => (snd (alpha0 q Rein t n a b) + a * snd (J true (DZ n a b) (DB n a b)) + b * snd (J false (DZ n a b) (DB n a b))) / (2 - t))
      ((snd (alpha_inf a b) + a * snd (Jl true) + b * snd (Jl false)) / (2 - t))).
    { unfold Rdiv. apply is_lim_seq_mult'; [|apply is_lim_seq_const]. apply is_lim_seq_plus'; [apply is_lim_seq_plus'; [exact A2|]|]; apply is_lim_seq_mult'; try apply is_lim_seq_const; assumption. }
    assert (V : is_lim_seq (fun n => (snd (alpha0 q Rein t n a b) + a * snd (J true (DZ n a b) (DB n a b)) + b * snd (J false (DZ n a b) (DB n a b))) / (2 - t))
      (snd (alpha_inf a b) - (fst (Jl false) - snd (Jl true)) / (2 - t) * a)).
    { eapply is_lim_seq_ext; [intros n; symmetry; apply (E n)|]. apply is_lim_seq_minus'; [exact A2|]. apply is_lim_seq_mult'; [|apply is_lim_seq_const]. unfold Rdiv. apply is_lim_seq_mult'; [|apply is_lim_seq_const].
      apply is_lim_seq_minus'; assumption. }
    apply is_lim_seq_unique in U. apply is_lim_seq_unique in V. rewrite U in V. apply Rbar_finite_eq in V. rewrite V, Cu. unfold Rdiv. ring.
Qed.
Lemma limit_consistent : lens_consistent psi_inf alpha_inf (kappa0 q Rein t) a b.
Proof.
  destruct limit_identities as [Tr Cu]. split; [exact psi_inf_D2|]. exists (fst (Jl true)), (snd (Jl true)), (fst (Jl false)), (snd (Jl false)).
  split; [exact (alpha_inf_D2 true)|]. split; [exact (alpha_inf_D2 false)|]. split; [symmetry; exact Cu|]. rewrite Tr. field.
Qed.
End At.
End Lim.

(** ** the lens at its position and angle *)
Lemma rot_dist x0 y0 phi x y : let '(X, Y) := translate_rotate x y x0 y0 (Some phi) in X ^ 2 + Y ^ 2 = (x - x0) ^ 2 + (y - y0) ^ 2.
Proof. unfold translate_rotate. cbv zeta. apply rot_r. Qed.
Lemma epl_limit x0 y0 q phi Rein t : 0 < q <= 1 -> 0 < Rein -> 0 < t < 2 ->
  exists psi alpha, (forall x y, x <> x0 \/ y <> y0 -> lens_consistent psi alpha (convergence_epl x0 y0 q phi Rein t 0) x y) /\
  forall n c x y, (1 <= n)%nat -> good_chunk n c -> x <> x0 \/ y <> y0 ->
    let E := 2 / ((2 - t) * q) * convergence_epl x0 y0 q phi Rein t 0 x y * sqrt ((x - x0) ^ 2 + (y - y0) ^ 2) * ((1 - q) / (1 + q)) ^ n in
    exists a, reduced_deflection_angle_epl x0 y0 q phi Rein t n c x y = Ok a /\ (fst a - fst (alpha x y)) ^ 2 + (snd a - snd (alpha x y)) ^ 2 <= E ^ 2.
Proof.
  intros Hq HR Ht. exists (framed (psi_inf q Rein t) x0 y0 phi), (framed_alpha (alpha_inf q Rein t) x0 y0 phi). split.
  - intros x y N. assert (O := frame_off x0 y0 phi x y N).
    apply (lens_consistent_ext (framed (psi_inf q Rein t) x0 y0 phi) (framed_alpha (alpha_inf q Rein t) x0 y0 phi) (framed (kappa0 q Rein t) x0 y0 phi)); try reflexivity.
    + symmetry. apply kappa_framed.
    + apply lens_consistent_framed. destruct (translate_rotate x y x0 y0 (Some phi)) as [X Y]. apply limit_consistent; assumption.
  - intros n c x y Hn Hc N. cbv zeta. eexists. split; [apply deflection_framed; assumption|]. rewrite kappa_framed. unfold framed_alpha, framed.
    assert (O := frame_off x0 y0 phi x y N). assert (RD := rot_dist x0 y0 phi x y). destruct (translate_rotate x y x0 y0 (Some phi)) as [X Y].
    assert (E := alpha_inf_close q Rein t Hq Ht X Y n O). destruct (alpha0 q Rein t n X Y) as [a1 a2]. destruct (alpha_inf q Rein t X Y) as [b1 b2]. rewrite rotated_error. cbn [fst snd] in E.
    eapply Rle_trans; [exact E|]. apply pow_incr. unfold bound. fold (ellf q). assert (F := fr q Hq). assert (Fn : 0 <= ellf q ^ n) by (apply pow_le; lra).
    assert (K0' : 0 <= kappa0 q Rein t X Y) by (unfold kappa0; apply Rmult_le_pos; [lra|apply g_nonneg]). assert (M := Cmod_ge_0 ((q * X)%R, Y)).
    assert (P : 0 <= 2 / ((2 - t) * q)) by (apply Rmult_le_pos; [lra|left; apply Rinv_0_lt_compat; nra]).
    split; [exact (Rmult_le_pos _ _ (Rmult_le_pos _ _ (Rmult_le_pos _ _ P K0') M) Fn)|]. apply Rmult_le_compat_r; [exact Fn|]. apply Rmult_le_compat_l; [apply Rmult_le_pos; assumption|].
    rewrite <- RD. unfold Cmod. cbn [fst snd]. apply sqrt_le_1_alt. assert (X2 := pow2_ge_0 X). rewrite Rpow_mult_distr. assert (q ^ 2 * X ^ 2 <= 1 * X ^ 2) by (apply Rmult_le_compat_r; [exact X2|nra]). lra.
Qed.
