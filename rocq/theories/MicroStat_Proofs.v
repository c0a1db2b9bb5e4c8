(** * Proofs for C125 *)
From Coq Require Import Reals Lra Lia Arith String.
From Coquelicot Require Import Coquelicot.
From Verif Require Import Py Fsum Gauss_Model Micro_Model Micro_Proofs PixMean_Spec PixMean_Proofs MicroStat_Spec.
Local Open Scope R_scope.

Lemma average_ext g h : (forall u v, 0 <= u <= 1 -> 0 <= v <= 1 -> g u v = h u v) -> average g = average h.
Proof.
  intros H. unfold average. apply RInt_ext. rewrite Rmin_left, Rmax_right by lra. intros u Hu. apply RInt_ext. rewrite Rmin_left, Rmax_right by lra. intros v Hv. apply H; lra.
Qed.
Lemma expect_ext n : forall F G, (forall rx ry, F rx ry = G rx ry) -> expect n F = expect n G.
Proof. induction n as [|n IH]; intros F G H; [apply H|]. cbn [expect]. apply average_ext. intros u v _ _. apply IH. intros rx ry. apply H. Qed.

Lemma const_unit (x0 : R) : is_RInt (V := R_NormedModule) (fun _ => x0) 0 1 x0.
Proof.
  assert (E := is_RInt_const (V := R_NormedModule) 0 1 x0). assert (Q : scal (1 - 0) x0 = x0) by (unfold scal; cbn; unfold mult; cbn; ring).
  exact (eq_rect _ (fun z => is_RInt (V := R_NormedModule) (fun _ => x0) 0 1 z) E _ Q).
Qed.

(** ** averages of polynomials in the brightness *)
Section Moments.
Variable k : R -> R -> R.
Hypothesis I1 : integrable k 0 1 0 1.
Hypothesis I2 : integrable (fun u v => k u v ^ 2) 0 1 0 1.
Let m := average k.
Let q := average (fun u v => k u v ^ 2).
Lemma average_quad x0 x1 x2 : average (fun u v => x0 + x1 * k u v + x2 * k u v ^ 2) = x0 + x1 * m + x2 * q.
Proof.
  destruct I1 as [A1 B1], I2 as [A2 B2]. unfold average.
  transitivity (RInt (fun u => x0 + x1 * RInt (k u) 0 1 + x2 * RInt (fun v => k u v ^ 2) 0 1) 0 1).
  - apply RInt_ext. rewrite Rmin_left, Rmax_right by lra. intros u Hu. apply is_RInt_unique.
    assert (E1 := RInt_correct (V := R_CompleteNormedModule) _ _ _ (A1 u ltac:(lra))). assert (E2 := RInt_correct (V := R_CompleteNormedModule) _ _ _ (A2 u ltac:(lra))).
    assert (E0 : is_RInt (V := R_NormedModule) (fun _ => x0) 0 1 x0) by (apply const_unit).
    exact (is_RInt_plus (V := R_NormedModule) _ _ _ _ _ _ (is_RInt_plus (V := R_NormedModule) _ _ _ _ _ _ E0 (is_RInt_scal (V := R_NormedModule) _ _ _ x1 _ E1)) (is_RInt_scal (V := R_NormedModule) _ _ _ x2 _ E2)).
  - apply is_RInt_unique.
    assert (E1 := RInt_correct (V := R_CompleteNormedModule) _ _ _ B1). assert (E2 := RInt_correct (V := R_CompleteNormedModule) _ _ _ B2).
    assert (E0 : is_RInt (V := R_NormedModule) (fun _ => x0) 0 1 x0) by (apply const_unit).
    exact (is_RInt_plus (V := R_NormedModule) _ _ _ _ _ _ (is_RInt_plus (V := R_NormedModule) _ _ _ _ _ _ E0 (is_RInt_scal (V := R_NormedModule) _ _ _ x1 _ E1)) (is_RInt_scal (V := R_NormedModule) _ _ _ x2 _ E2)).
Qed.
Let S1 n (rx ry : nat -> R) := fsum n (fun i => k (rx i) (ry i)).
Let S2 n (rx ry : nat -> R) := fsum n (fun i => k (rx i) (ry i) ^ 2).
Lemma put_sums n u v rx ry : S1 (S n) (put n u rx) (put n v ry) = S1 n rx ry + k u v /\ S2 (S n) (put n u rx) (put n v ry) = S2 n rx ry + k u v ^ 2.
Proof.
  assert (P : forall w r i, (i < n)%nat -> put n w r i = r i) by (intros w r i Hi; unfold put; destruct (Nat.eqb_spec i n); [lia|reflexivity]).
  assert (P0 : forall w r, put n w r n = w) by (intros w r; unfold put; rewrite Nat.eqb_refl; reflexivity).
  unfold S1, S2. cbn [fsum]. rewrite !P0. split; f_equal; apply fsum_ext; intros i Hi; rewrite !P by exact Hi; reflexivity.
Qed.
Lemma expect_sums n : forall e g a b c,
  expect n (fun rx ry => e + g * S1 n rx ry + a * S2 n rx ry + b * (c + S1 n rx ry) ^ 2) =
  e + g * (INR n * m) + a * (INR n * q) + b * ((c + INR n * m) ^ 2 + INR n * (q - m ^ 2)).
Proof.
  induction n as [|n IH]; intros e g a b c.
  - cbn. ring.
  - cbn [expect]. transitivity (average (fun u v => (e + g * (INR n * m) + a * (INR n * q) + b * ((c + INR n * m) ^ 2 + INR n * (q - m ^ 2))) + (g + 2 * b * (c + INR n * m)) * k u v + (a + b) * k u v ^ 2)).
    + apply average_ext. intros u v _ _.
      rewrite (expect_ext n _ (fun rx ry => (e + g * k u v + a * k u v ^ 2) + g * S1 n rx ry + a * S2 n rx ry + b * ((c + k u v) + S1 n rx ry) ^ 2)).
      * rewrite IH. ring.
      * intros rx ry. destruct (put_sums n u v rx ry) as [-> ->]. ring.
    + rewrite average_quad, S_INR. ring.
Qed.
End Moments.

(** ** from the field of view to the unit square *)
Section Field.
Variables (F : R -> R -> R) (f0 f1 f2 f3 : R).
Hypothesis W1 : f0 < f1. Hypothesis W2 : f2 < f3.
Let w := f1 - f0. Let h := f3 - f2.
Let k (u v : R) := F (u * w + f0) (v * h + f2).
Lemma inner_unit x : ex_RInt (F x) f2 f3 -> is_RInt (fun v => F x (v * h + f2)) 0 1 (RInt (F x) f2 f3 / h).
Proof.
  intros E. assert (H : 0 < h) by (unfold h; lra). assert (C := RInt_correct (V := R_CompleteNormedModule) _ _ _ E).
  replace f2 with (h * 0 + f2) in C at 1 by ring. replace f3 with (h * 1 + f2) in C at 1 by (unfold h; ring).
  apply (is_RInt_comp_lin (V := R_NormedModule)) in C. apply (is_RInt_scal (V := R_NormedModule) _ _ _ (/ h)) in C.
  replace (RInt (F x) f2 f3 / h) with (scal (/ h) (RInt (F x) f2 f3)) by (unfold scal; cbn; unfold mult; cbn; field; lra).
  eapply is_RInt_ext; [|exact C]. intros v _. unfold scal. cbn. unfold mult. cbn. rewrite (Rmult_comm v h). field. lra.
Qed.
Lemma unit_integrable : integrable F f0 f1 f2 f3 -> integrable k 0 1 0 1 /\ average k = box F f0 f1 f2 f3 / (w * h).
Proof.
  intros [A B]. assert (H : 0 < h) by (unfold h; lra). assert (W : 0 < w) by (unfold w; lra).
  assert (IN : forall u, 0 <= u <= 1 -> f0 <= u * w + f0 <= f1) by (intros u Hu; unfold w; nra).
  assert (C := RInt_correct (V := R_CompleteNormedModule) _ _ _ B).
  replace f0 with (w * 0 + f0) in C at 1 by ring. replace f1 with (w * 1 + f0) in C at 1 by (unfold w; ring).
  apply (is_RInt_comp_lin (V := R_NormedModule)) in C. apply (is_RInt_scal (V := R_NormedModule) _ _ _ (/ (w * h))) in C.
  assert (C' : is_RInt (fun u => RInt (k u) 0 1) 0 1 (box F f0 f1 f2 f3 / (w * h))).
  { replace (box F f0 f1 f2 f3 / (w * h)) with (scal (/ (w * h)) (RInt (fun u => RInt (F u) f2 f3) f0 f1)) by (change (box F f0 f1 f2 f3) with (RInt (fun u => RInt (F u) f2 f3) f0 f1); unfold scal; cbn; unfold mult; cbn; unfold Rdiv; ring).
    eapply is_RInt_ext; [|exact C]. rewrite Rmin_left, Rmax_right by lra. intros u Hu. assert (Q := is_RInt_unique _ _ _ _ (inner_unit (u * w + f0) (A _ (IN u ltac:(lra))))).
    change (RInt (fun v => F (u * w + f0) (v * h + f2)) 0 1) with (RInt (k u) 0 1) in Q. etransitivity; [|symmetry; exact Q]. unfold scal. cbn. unfold mult. cbn. rewrite (Rmult_comm u w). field. lra. }
  split.
  - split.
    + intros u Hu. eexists. apply inner_unit. apply A, IN, Hu.
    + eexists. exact C'.
  - unfold average. apply is_RInt_unique. exact C'.
Qed.
End Field.

Lemma fsum_one g : fsum 1 g = g 0%nat. Proof. cbn. ring. Qed.
Lemma std_one N g (c : nat -> R) : (1 <= N)%nat -> (forall i j, g i j = c i) ->
  exists v, std N 1 g = Some v /\ 0 <= v /\ v ^ 2 = fsum N (fun i => c i ^ 2) / INR N - (fsum N c / INR N) ^ 2.
Proof.
  intros N1 G. assert (P : 0 < INR N) by (apply lt_0_INR; lia). unfold std, mean. rewrite (proj2 (Nat.eqb_neq (N * 1) 0)) by lia. cbn [option_map]. rewrite Nat.mul_1_r.
  rewrite (fsum_ext N (fun i => fsum 1 (g i)) c) by (intros i _; rewrite fsum_one; apply G). set (mu := fsum N c / INR N).
  rewrite (fsum_ext N _ (fun i => c i ^ 2 + (-2 * mu) * c i + mu ^ 2)) by (intros i _; rewrite fsum_one, G; ring).
  assert (V : fsum N (fun i => c i ^ 2 + (-2 * mu) * c i + mu ^ 2) = fsum N (fun i => c i ^ 2) + -2 * mu * fsum N c + INR N * mu ^ 2) by (rewrite !fsum_plus, fsum_const, fsum_scal_l; reflexivity).
  assert (V0 : 0 <= fsum N (fun i => c i ^ 2 + (-2 * mu) * c i + mu ^ 2)).
  { apply fsum_nonneg. intros i _. replace (_ + _ + _) with ((c i - mu) ^ 2) by ring. apply pow2_ge_0. }
  eexists. split; [reflexivity|]. split; [apply sqrt_pos|]. rewrite pow2_sqrt by (apply Rmult_le_pos; [exact V0|left; apply Rinv_0_lt_compat, P]). rewrite V. unfold mu. field. lra.
Qed.
Section Mcmc.
Variables (ray : R -> R -> R * R) (f : R -> R -> R) (f0 f1 f2 f3 : R) (N Ng : nat).
Hypothesis W1 : f0 < f1. Hypothesis W2 : f2 < f3. Hypothesis N1 : (1 <= N)%nat.
Let F := lensed ray f.
Hypothesis I1 : integrable F f0 f1 f2 f3.
Hypothesis I2 : integrable (fun x y => F x y ^ 2) f0 f1 f2 f3.
Let w := f1 - f0. Let h := f3 - f2. Let A := w * h.
Let k (u v : R) := F (u * w + f0) (v * h + f2).
Let run rx ry := microlens ray f rx ry (f0, f1, f2, f3) "mcmc" N Ng.
Let S1 (rx ry : nat -> R) := fsum N (fun i => k (rx i) (ry i)).
Let S2 (rx ry : nat -> R) := fsum N (fun i => k (rx i) (ry i) ^ 2).
Lemma NP : 0 < INR N. Proof. apply lt_0_INR. lia. Qed.
Lemma run_flux rx ry : flux_of (run rx ry) = A / INR N * S1 rx ry.
Proof.
  unfold run, microlens. cbn [String.eqb Ascii.eqb Bool.eqb]. unfold mean. rewrite (proj2 (Nat.eqb_neq (N * 1) 0)) by lia. cbn [option_map flux_of]. rewrite Nat.mul_1_r.
  rewrite (fsum_ext N _ (fun i => k (rx i) (ry i))).
  - fold (S1 rx ry). unfold A, w, h. unfold Rdiv. ring.
  - intros i _. rewrite fsum_one. unfold k, F, lensed, w, h. destruct (ray _ _). reflexivity.
Qed.
Lemma run_error rx ry : error_of (run rx ry) ^ 2 = A ^ 2 / INR N * (S2 rx ry / INR N - (S1 rx ry / INR N) ^ 2).
Proof.
  assert (P := NP). unfold run, microlens. cbn [String.eqb Ascii.eqb Bool.eqb].
  match goal with |- context [std N 1 ?g] => destruct (std_one N g (fun i => k (rx i) (ry i)) N1) as [v [E [V0 V]]] end.
  - intros i j. unfold k, F, lensed, w, h. destruct (ray _ _). reflexivity.
  - rewrite E. cbn [option_map error_of]. fold (S1 rx ry) in V. fold (S2 rx ry) in V. fold w h. fold A.
    replace ((v * A / sqrt (INR N)) ^ 2) with (v ^ 2 * A ^ 2 / sqrt (INR N) ^ 2) by (field; apply Rgt_not_eq, sqrt_lt_R0, P). rewrite V, pow2_sqrt by lra. field. lra.
Qed.
Let I := box F f0 f1 f2 f3.
Lemma k_moments : integrable k 0 1 0 1 /\ integrable (fun u v => k u v ^ 2) 0 1 0 1 /\ average k = I / A /\ average (fun u v => k u v ^ 2) = box (fun x y => F x y ^ 2) f0 f1 f2 f3 / A.
Proof.
  destruct (unit_integrable F f0 f1 f2 f3 W1 W2 I1) as [H1 H2]. destruct (unit_integrable (fun x y => F x y ^ 2) f0 f1 f2 f3 W1 W2 I2) as [H3 H4].
  split; [exact H1|]. split; [exact H3|]. split; [exact H2|exact H4].
Qed.
Lemma AP : 0 < A. Proof. unfold A, w, h. apply Rmult_lt_0_compat; lra. Qed.
Lemma unbiased : expect N (fun rx ry => flux_of (run rx ry)) = I.
Proof.
  destruct k_moments as (J1 & J2 & M1 & M2). assert (P := NP). assert (Q := AP).
  rewrite (expect_ext N _ (fun rx ry => 0 + A / INR N * S1 rx ry + 0 * S2 rx ry + 0 * (0 + S1 rx ry) ^ 2)) by (intros; rewrite run_flux; ring).
  unfold S1, S2. rewrite (expect_sums k J1 J2), M1. field. split; lra.
Qed.
Lemma variance : expect N (fun rx ry => (flux_of (run rx ry) - I) ^ 2) = spread F f0 f1 f2 f3 / INR N.
Proof.
  destruct k_moments as (J1 & J2 & M1 & M2). assert (P := NP). assert (Q := AP).
  rewrite (expect_ext N _ (fun rx ry => 0 + 0 * S1 rx ry + 0 * S2 rx ry + (A / INR N) ^ 2 * (- (INR N * (I / A)) + S1 rx ry) ^ 2)) by (intros; rewrite run_flux; field; split; lra).
  unfold S1, S2. rewrite (expect_sums k J1 J2), M1, M2. unfold spread. fold w h. fold A I. field. split; lra.
Qed.
Lemma error_bar : expect N (fun rx ry => error_of (run rx ry) ^ 2) = (1 - / INR N) * expect N (fun rx ry => (flux_of (run rx ry) - I) ^ 2).
Proof.
  rewrite variance. destruct k_moments as (J1 & J2 & M1 & M2). assert (P := NP). assert (Q := AP).
  rewrite (expect_ext N _ (fun rx ry => 0 + 0 * S1 rx ry + A ^ 2 / INR N / INR N * S2 rx ry + - (A ^ 2 / INR N / INR N ^ 2) * (0 + S1 rx ry) ^ 2)) by (intros; rewrite run_error; field; lra).
  unfold S1, S2. rewrite (expect_sums k J1 J2), M1, M2. unfold spread. fold w h. fold A I. field. split; lra.
Qed.
End Mcmc.

(** ** the grid *)
Lemma linspace_cell a b n i : a <= b -> (1 <= n)%nat -> (i < n)%nat -> a + INR i * ((b - a) / INR n) <= linspace a b n i <= a + INR i * ((b - a) / INR n) + (b - a) / INR n.
Proof.
  intros H N1 I. unfold linspace. assert (P : 0 < INR n) by (apply lt_0_INR; lia). destruct (Nat.leb_spec n 1) as [L|L].
  - assert (i = 0%nat) as -> by lia. assert (n = 1%nat) as -> by lia. cbn [INR]. lra.
  - assert (E : INR n = INR (n - 1) + 1) by (rewrite <- S_INR; f_equal; lia). assert (P1 : 0 < INR (n - 1)) by (apply lt_0_INR; lia). assert (LI : INR i <= INR (n - 1)) by (apply le_INR; lia). assert (Z := pos_INR i).
    set (t := INR i) in *. set (m := INR (n - 1)) in *. rewrite E in *.
    assert (D1 : t * ((b - a) / (m + 1)) <= t * ((b - a) / m)).
    { apply Rmult_le_compat_l; [exact Z|]. apply Rmult_le_compat_l; [lra|]. apply Rinv_le_contravar; lra. }
    assert (D2 : t * ((b - a) / m) <= t * ((b - a) / (m + 1)) + (b - a) / (m + 1)).
    { replace (t * ((b - a) / (m + 1)) + (b - a) / (m + 1)) with (t * ((b - a) / m) + (m - t) * (b - a) / (m * (m + 1))) by (field; lra).
      assert (0 <= (m - t) * (b - a) / (m * (m + 1))); [|lra]. apply Rmult_le_pos; [apply Rmult_le_pos; lra|left; apply Rinv_0_lt_compat, Rmult_lt_0_compat; lra]. }
    try replace (t * (b - a) / m) with (t * ((b - a) / m)) by (field; lra). lra.
Qed.
Section Grid.
Variables (ray : R -> R -> R * R) (f : R -> R -> R) (f0 f1 f2 f3 : R) (rx ry : nat -> R) (Nm : nat).
Hypothesis W1 : f0 <= f1. Hypothesis W2 : f2 <= f3.
Let F := lensed ray f.
Let run N := microlens ray f rx ry (f0, f1, f2, f3) "grid" Nm N.
Let w := f1 - f0. Let h := f3 - f2. Let A := w * h.
Lemma grid_flux N : (1 <= N)%nat -> exists e, run N = Ok (Some (fsum N (fun i => fsum N (fun j => F (linspace f0 f1 N i) (linspace f2 f3 N j))) / (INR N * INR N) * A), Some e).
Proof.
  intros N1. unfold run, microlens. cbn [String.eqb Ascii.eqb Bool.eqb]. unfold std, mean. rewrite (proj2 (Nat.eqb_neq (N * N) 0)) by nia. cbn [option_map]. rewrite mult_INR.
  eexists. f_equal. f_equal. f_equal. unfold A, w, h. f_equal. f_equal. apply fsum_ext. intros i _. apply fsum_ext. intros j _. unfold F, lensed. destruct (ray _ _). reflexivity.
Qed.
(* a version of the scene that is continuous everywhere *)
Lemma box_near_grid (G : R -> R -> R) N e : (1 <= N)%nat -> (forall x y, continuity_2d_pt G x y) ->
  (forall x y u v, f0 <= x <= f1 -> f2 <= y <= f3 -> f0 <= u <= f1 -> f2 <= v <= f3 -> Rabs (u - x) <= w / INR N -> Rabs (v - y) <= h / INR N -> Rabs (G u v - G x y) <= e) ->
  Rabs (fsum N (fun i => fsum N (fun j => G (linspace f0 f1 N i) (linspace f2 f3 N j))) / (INR N * INR N) * A - box G f0 f1 f2 f3) <= e * A.
Proof.
  intros N1 GC B. assert (P : 0 < INR N) by (apply lt_0_INR; lia). set (dx := w / INR N) in *. set (dy := h / INR N) in *.
  assert (Dx : 0 <= dx) by (apply Rmult_le_pos; [unfold w; lra|left; apply Rinv_0_lt_compat, P]). assert (Dy : 0 <= dy) by (apply Rmult_le_pos; [unfold h; lra|left; apply Rinv_0_lt_compat, P]).
  assert (EX : INR N * dx = w) by (unfold dx; field; lra). assert (EY : INR N * dy = h) by (unfold dy; field; lra).
  assert (CX : forall i, (i < N)%nat -> f0 <= f0 + INR i * dx /\ f0 + INR i * dx + dx <= f1).
  { intros i Hi. assert (Z := pos_INR i). assert (INR (S i) <= INR N) by (apply le_INR; lia). rewrite S_INR in H. assert ((INR i + 1) * dx <= w) by (rewrite <- EX; apply Rmult_le_compat_r; lra).
    assert (0 <= INR i * dx) by (apply Rmult_le_pos; lra). unfold w in *. lra. }
  assert (CY : forall i, (i < N)%nat -> f2 <= f2 + INR i * dy /\ f2 + INR i * dy + dy <= f3).
  { intros i Hi. assert (Z := pos_INR i). assert (INR (S i) <= INR N) by (apply le_INR; lia). rewrite S_INR in H. assert ((INR i + 1) * dy <= h) by (rewrite <- EY; apply Rmult_le_compat_r; lra).
    assert (0 <= INR i * dy) by (apply Rmult_le_pos; lra). unfold h in *. lra. }
  assert (CUT : box G f0 f1 f2 f3 = fsum N (fun i => fsum N (fun j => box G (f0 + INR i * dx) (f0 + INR i * dx + dx) (f2 + INR j * dy) (f2 + INR j * dy + dy)))).
  { replace f1 with (f0 + INR N * dx) by (rewrite EX; unfold w; ring). replace f3 with (f2 + INR N * dy) by (rewrite EY; unfold h; ring).
    rewrite (box_cut_x G GC) by (rewrite EY; unfold h; lra). apply fsum_ext. intros i _. apply (box_cut_y G GC). exact Dy. }
  rewrite CUT. replace (fsum N (fun i => fsum N (fun j => G (linspace f0 f1 N i) (linspace f2 f3 N j))) / (INR N * INR N) * A) with (fsum N (fun i => fsum N (fun j => G (linspace f0 f1 N i) (linspace f2 f3 N j))) * (dx * dy)) by (unfold A, dx, dy; field; lra).
  rewrite <- fsum_scal_r. rewrite <- fsum_minus. replace (e * A) with (INR N * (INR N * (e * (dx * dy)))) by (unfold A, dx, dy; field; lra).
  apply fsum_le_const. intros i Hi. rewrite <- fsum_scal_r, <- fsum_minus. apply fsum_le_const. intros j Hj.
  destruct (CX i Hi) as [x1 x2], (CY j Hj) as [y1 y2]. assert (LX := linspace_cell f0 f1 N i W1 N1 Hi). assert (LY := linspace_cell f2 f3 N j W2 N1 Hj).
  fold w in LX. fold dx in LX. fold h in LY. fold dy in LY. set (p := linspace f0 f1 N i) in *. set (r := linspace f2 f3 N j) in *.
  rewrite Rabs_minus_sym. assert (BN := box_near G GC (f0 + INR i * dx) (f0 + INR i * dx + dx) (f2 + INR j * dy) (f2 + INR j * dy + dy) (G p r) e ltac:(lra) ltac:(lra)).
  replace (f0 + INR i * dx + dx - (f0 + INR i * dx)) with dx in BN by ring. replace (f2 + INR j * dy + dy - (f2 + INR j * dy)) with dy in BN by ring. apply BN.
  intros x y Hx Hy. apply B; try lra; apply Rabs_le; lra.
Qed.
Lemma grid_near N e : (1 <= N)%nat -> (forall x y, f0 <= x <= f1 -> f2 <= y <= f3 -> continuity_2d_pt (fun a b => F (clip f0 f1 a) (clip f2 f3 b)) x y) ->
  (forall x y u v, f0 <= x <= f1 -> f2 <= y <= f3 -> f0 <= u <= f1 -> f2 <= v <= f3 -> Rabs (u - x) <= w / INR N -> Rabs (v - y) <= h / INR N -> Rabs (F u v - F x y) <= e) ->
  exists s, run N = Ok (Some s, Some (error_of (run N))) /\ Rabs (s - box F f0 f1 f2 f3) <= e * A.
Proof.
  intros N1 FC B. destruct (grid_flux N N1) as [er E]. set (s := _ * A) in E. exists s. split; [rewrite E; reflexivity|]. unfold s.
  set (G := fun a b => F (clip f0 f1 a) (clip f2 f3 b)) in *.
  assert (GC : forall x y, continuity_2d_pt G x y).
  { intros x y. assert (C := clip_continuous G f0 f1 f2 f3 W1 W2 FC x y). eapply continuity_2d_pt_ext; [|exact C]. intros a b. unfold G. cbv beta. rewrite !(clip_id _ _ (clip _ _ _)) by (apply clip_in; assumption). reflexivity. }
  assert (GE : forall x y, f0 <= x <= f1 -> f2 <= y <= f3 -> F x y = G x y) by (intros x y Hx Hy; unfold G; rewrite !clip_id by assumption; reflexivity).
  rewrite (box_ext F G f0 f1 f2 f3 W1 W2 GE).
  rewrite (fsum_ext N _ (fun i => fsum N (fun j => G (linspace f0 f1 N i) (linspace f2 f3 N j)))) by (intros i Hi; apply fsum_ext; intros j Hj; apply GE; apply linspace_in; assumption).
  apply box_near_grid; [exact N1|exact GC|]. intros x y u v H1 H2 H3 H4 H5 H6. rewrite <- !GE by assumption. apply B; assumption.
Qed.
Lemma grid_slope L N : 0 <= L -> (1 <= N)%nat ->
  (forall x y u v, f0 <= x <= f1 -> f2 <= y <= f3 -> f0 <= u <= f1 -> f2 <= v <= f3 -> Rabs (F u v - F x y) <= L * (Rabs (u - x) + Rabs (v - y))) ->
  exists s e, run N = Ok (Some s, Some e) /\ Rabs (s - box F f0 f1 f2 f3) <= L * (w + h) / INR N * A.
Proof.
  intros HL N1 SL. destruct (grid_near N (L * (w + h) / INR N) N1) as [s [E1 E2]]; [| |exists s; eexists; split; [exact E1|exact E2]].
  - intros x y _ _ eps. assert (P : 0 < eps / (2 * L + 1)) by (apply Rdiv_lt_0_compat; [apply cond_pos|lra]). exists (mkposreal _ P). cbn [pos]. intros u v Hu Hv.
    eapply Rle_lt_trans; [apply SL; apply clip_in; assumption|]. assert (C1 := clip_close f0 f1 x u W1). assert (C2 := clip_close f2 f3 y v W2).
    apply Rle_lt_trans with (L * (2 * (eps / (2 * L + 1)))); [apply Rmult_le_compat_l; lra|].
    replace (L * (2 * (eps / (2 * L + 1)))) with (eps - eps / (2 * L + 1)) by (field; lra). lra.
  - intros x y u v H1 H2 H3 H4 H5 H6. eapply Rle_trans; [apply SL; assumption|]. replace (L * (w + h) / INR N) with (L * (w / INR N + h / INR N)) by (field; apply not_0_INR; lia). apply Rmult_le_compat_l; lra.
Qed.
Lemma grid_converges : (forall x y, f0 <= x <= f1 -> f2 <= y <= f3 -> continuity_2d_pt F x y) ->
  forall eps, 0 < eps -> exists N0, forall N, (N0 <= N)%nat -> (1 <= N)%nat -> exists s e, run N = Ok (Some s, Some e) /\ Rabs (s - box F f0 f1 f2 f3) <= eps.
Proof.
  intros FC eps He. assert (AP' : 0 <= A) by (unfold A, w, h; apply Rmult_le_pos; lra). assert (EP : 0 < eps / (A + 1)) by (apply Rdiv_lt_0_compat; lra). destruct (uniform_continuity_2d F _ _ _ _ FC (mkposreal _ EP)) as [dl Hd]. cbn [pos] in Hd.
  assert (DP := cond_pos dl). assert (WP : 0 <= w) by (unfold w; lra). assert (HP : 0 <= h) by (unfold h; lra).
  destruct (nfloor_ex ((w + h) / dl)) as [n [_ Hn]]; [apply Rmult_le_pos; [lra|left; apply Rinv_0_lt_compat, DP]|]. exists (S n). intros N HN N1.
  assert (P : 0 < INR N) by (apply lt_0_INR; lia).
  assert (UP : (w + h) / dl < INR N) by (eapply Rlt_le_trans; [exact Hn|rewrite <- S_INR; apply le_INR; exact HN]).
  assert (SM : w / INR N + h / INR N < dl). { apply Rmult_lt_reg_r with (INR N); [exact P|]. replace ((w / INR N + h / INR N) * INR N) with (w + h) by (field; lra). apply Rmult_lt_compat_r with (r := dl) in UP; [|exact DP]. replace ((w + h) / dl * dl) with (w + h) in UP by (field; lra). lra. }
  assert (0 <= w / INR N) by (apply Rmult_le_pos; [lra|left; apply Rinv_0_lt_compat, P]). assert (0 <= h / INR N) by (apply Rmult_le_pos; [lra|left; apply Rinv_0_lt_compat, P]).
  destruct (grid_near N (eps / (A + 1)) N1) as [s [E1 E2]].
  - intros x y Hx Hy. apply clip_continuous; assumption.
  - intros x y u v H1 H2 H3 H4 H5 H6. left. apply (Hd x y u v H1 H2 H3 H4); lra.
  - exists s. eexists. split; [exact E1|]. eapply Rle_trans; [exact E2|]. replace eps with (eps / (A + 1) * (A + 1)) at 2 by (field; lra). apply Rmult_le_compat_l; lra.
Qed.
End Grid.

(** ** continuous scenes *)
Lemma continuous_integrable (F : R -> R -> R) a b c d : a <= b -> c <= d -> (forall x y, a <= x <= b -> c <= y <= d -> continuity_2d_pt F x y) -> integrable F a b c d.
Proof.
  intros H1 H2 FC. assert (GC := clip_continuous F a b c d H1 H2 FC). set (G := fun x y => F (clip a b x) (clip c d y)) in *.
  assert (E : forall x y, a <= x <= b -> c <= y <= d -> G x y = F x y) by (intros x y Hx Hy; unfold G; rewrite !clip_id by assumption; reflexivity).
  split.
  - intros u Hu. apply (ex_RInt_ext (G u)); [|apply (inner_ex G GC)]. rewrite Rmin_left, Rmax_right by exact H2. intros v Hv. apply E; lra.
  - apply (ex_RInt_ext (fun u => RInt (fun v => G u v) c d)); [|apply (outer_ex G GC); exact H2]. rewrite Rmin_left, Rmax_right by exact H1. intros u Hu.
    apply RInt_ext. rewrite Rmin_left, Rmax_right by exact H2. intros v Hv. apply E; lra.
Qed.
Lemma continuous_square F x y : continuity_2d_pt F x y -> continuity_2d_pt (fun x y => F x y ^ 2) x y.
Proof.
  intros C. apply (continuity_2d_pt_ext (fun x y => F x y * F x y)); [intros a b; ring|]. apply continuity_2d_pt_mult; exact C.
Qed.
Lemma continuous_both F a b c d : a <= b -> c <= d -> (forall x y, a <= x <= b -> c <= y <= d -> continuity_2d_pt F x y) ->
  integrable F a b c d /\ integrable (fun x y => F x y ^ 2) a b c d.
Proof. intros H1 H2 FC. split; apply continuous_integrable; try assumption. intros x y Hx Hy. apply continuous_square, FC; assumption. Qed.

(** ** one example: brightness rising along the first axis *)
Lemma ramp_box : box (fun x _ => x) 0 1 0 1 = 1 / 2 /\ box (fun x _ => x ^ 2) 0 1 0 1 = 1 / 3.
Proof.
  assert (K : forall w : R, RInt (fun _ => w) 0 1 = w) by (intros w; rewrite (RInt_const (V := R_CompleteNormedModule)); unfold scal; cbn; unfold mult; cbn; ring).
  split; unfold box; rewrite (RInt_ext _ _ 0 1 (fun u _ => K _)); apply is_RInt_unique.
  - replace (1 / 2) with (minus (1 ^ 2 / 2) (0 ^ 2 / 2)) by (unfold minus, plus, opp; cbn; lra). apply (is_RInt_derive (V := R_CompleteNormedModule) (fun x => x ^ 2 / 2)).
    + intros x _. auto_derive; [exact Logic.I|field].
    + intros x _. apply continuous_id.
  - replace (1 / 3) with (minus (1 ^ 3 / 3) (0 ^ 3 / 3)) by (unfold minus, plus, opp; cbn; lra). apply (is_RInt_derive (V := R_CompleteNormedModule) (fun x => x ^ 3 / 3)).
    + intros x _. auto_derive; [exact Logic.I|field].
    + intros x _. apply (ex_derive_continuous (K := R_AbsRing) (V := R_NormedModule) (fun x => x ^ 2)). auto_derive. exact Logic.I.
Qed.
Lemma ramp_continuous x y : continuity_2d_pt (fun a _ => a) x y.
Proof. intros eps. exists eps. intros u v Hu _. exact Hu. Qed.
