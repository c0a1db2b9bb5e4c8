(** * A sharper bound on the error of the table of FlatLambdaCDM *)
From Coq Require Import Reals ZArith Lra Lia Psatz.
From Coquelicot Require Import Coquelicot.
From Verif Require Import Const_Model Cosmo_Model Interp1_Model Interp1_Proofs CosmoTable_Model CosmoTable_Proofs.
Local Open Scope R_scope.

(** ** comparison of a function with a power *)
Lemma compare_right (f df : R -> R) u b K n : u <= b -> f u = 0 -> (forall t, u <= t <= b -> is_derive f t (df t)) ->
  (forall t, u <= t <= b -> Rabs (df t) <= K * (t - u) ^ n) -> forall t, u <= t <= b -> Rabs (f t) <= K * (t - u) ^ S n / INR (S n).
Proof.
  intros Hu H0 Hd Hb t Ht. assert (N : 0 < INR (S n)) by (apply lt_0_INR; lia).
  assert (D : forall s c, u <= s <= t -> is_derive (fun s => c * (s - u) ^ S n / INR (S n)) s (c * (s - u) ^ n)).
  { intros s c Hs. auto_derive; [exact I|]. change (Nat.pred (S n)) with n. change (match n with O => 1 | S _ => INR n + 1 end) with (INR (S n)). change (s + - u) with (s - u). generalize ((s - u) ^ n). revert N. generalize (INR (S n)). intros k K0 w. field. lra. }
  assert (Z : forall c, c * (u - u) ^ S n / INR (S n) = 0) by (intros c; rewrite Rminus_eq_0, pow_i by lia; unfold Rdiv; ring).
  apply Rabs_le. split.
  - assert (Q := nondecreasing (fun s => f s + K * (s - u) ^ S n / INR (S n)) (fun s => df s + K * (s - u) ^ n) u t (proj1 Ht)).
    cbv beta in Q. rewrite H0, Z in Q. lapply Q; [clear Q; intros Q; lapply Q; [lra|]|].
    + intros s Hs. assert (B := Hb s ltac:(lra)). apply Rabs_le_between in B. lra.
    + intros s Hs. apply (is_derive_plus f (fun s => K * (s - u) ^ S n / INR (S n))); [apply Hd; lra|apply D; lra].
  - assert (Q := nondecreasing (fun s => K * (s - u) ^ S n / INR (S n) - f s) (fun s => K * (s - u) ^ n - df s) u t (proj1 Ht)).
    cbv beta in Q. rewrite H0, Z in Q. lapply Q; [clear Q; intros Q; lapply Q; [lra|]|].
    + intros s Hs. assert (B := Hb s ltac:(lra)). apply Rabs_le_between in B. lra.
    + intros s Hs. apply (is_derive_minus (fun s => K * (s - u) ^ S n / INR (S n)) f); [apply D; lra|apply Hd; lra].
Qed.
Lemma compare_left (f df : R -> R) a u K n : a <= u -> f u = 0 -> (forall t, a <= t <= u -> is_derive f t (df t)) ->
  (forall t, a <= t <= u -> Rabs (df t) <= K * (u - t) ^ n) -> forall t, a <= t <= u -> Rabs (f t) <= K * (u - t) ^ S n / INR (S n).
Proof.
  intros Ha H0 Hd Hb t Ht.
  assert (Q := compare_right (fun s => f (- s)) (fun s => - df (- s)) (- u) (- a) K n ltac:(lra)). cbv beta in Q. rewrite Ropp_involutive in Q.
  specialize (Q H0). lapply Q; [clear Q; intros Q; lapply Q; [clear Q; intros Q|]|].
  - specialize (Q (- t) ltac:(lra)). rewrite Ropp_involutive in Q. replace (- t - - u) with (u - t) in Q by ring. exact Q.
  - intros s Hs. rewrite Rabs_Ropp. replace (s - - u) with (u - - s) by ring. apply Hb. lra.
  - intros s Hs. replace (- df (- s)) with ((-1) * df (- s)) by ring.
    apply (is_derive_comp f (fun s => - s) s (df (- s)) (-1)); [apply Hd; lra|]. auto_derive; [exact I|ring].
Qed.

(** ** the derivatives of the integrand *)
Definition dens1 (t : R) : R := - (3 / 2) * t ^ 2 * dens t / (1 + t ^ 3).
Definition dens2 (t : R) : R := (15 / 4 * t ^ 4 - 3 * t) * dens t / (1 + t ^ 3) ^ 2.
Lemma dens_derive t : 0 <= t -> is_derive dens t (dens1 t).
Proof.
  intros H. assert (A := dens_arg t H). assert (S := sqrt_lt_R0 _ A). unfold dens1, dens. auto_derive.
  - change (t * (t * (t * 1))) with (t ^ 3). repeat split; [exact A|lra].
  - change (t * (t * (t * 1))) with (t ^ 3). assert (Q := pow2_sqrt (1 + t ^ 3) ltac:(lra)). set (w := sqrt (1 + t ^ 3)) in *. rewrite <- Q. field. lra.
Qed.
Lemma dens1_derive t : 0 <= t -> is_derive dens1 t (dens2 t).
Proof.
  intros H. assert (A := dens_arg t H). assert (D := dens_derive t H). unfold dens1, dens2.
  evar_last.
  - apply (is_derive_div (fun t => - (3 / 2) * t ^ 2 * dens t) (fun t => 1 + t ^ 3)).
    + apply (is_derive_mult (fun t => - (3 / 2) * t ^ 2) dens t (- (3 / 2) * (2 * t)) (dens1 t)); [auto_derive; [exact I|ring]|exact D|intros; apply Rmult_comm].
    + instantiate (1 := 3 * t ^ 2). auto_derive; [exact I|ring].
    + lra.
  - unfold plus, mult; cbn. unfold dens1. set (d := dens t). change (t * (t * (t * 1))) with (t ^ 3). change (t * (t * 1)) with (t ^ 2). field. lra.
Qed.
Lemma dens1_small t : 0 < t -> Rabs (dens1 t) <= 3 / 2 * dens t / t /\ Rabs (dens1 t) <= 3 / 2 * t ^ 2 * dens t.
Proof.
  intros H. assert (P := dens_pos t ltac:(lra)). assert (A := dens_arg t ltac:(lra)). assert (C : 0 < t ^ 3) by (apply pow_lt; exact H). assert (B : 0 < t ^ 2) by (apply pow_lt; exact H).
  unfold dens1. replace (- (3 / 2) * t ^ 2 * dens t / (1 + t ^ 3)) with (- (3 / 2 * t ^ 2 * dens t / (1 + t ^ 3))) by (field; lra). rewrite Rabs_Ropp.
  assert (N : 0 <= 3 / 2 * t ^ 2 * dens t) by (apply Rmult_le_pos; lra). rewrite Rabs_pos_eq by (apply Rdiv_le_0_compat; lra). split.
  - apply (proj2 (Rle_div_l _ _ _ A)). replace (3 / 2 * dens t / t * (1 + t ^ 3)) with (3 / 2 * t ^ 2 * dens t + 3 / 2 * dens t / t) by (field; lra).
    assert (0 < dens t / t) by (apply Rdiv_lt_0_compat; assumption). unfold Rdiv in *. lra.
  - apply (proj2 (Rle_div_l _ _ _ A)). rewrite Rmult_plus_distr_l. assert (0 <= 3 / 2 * t ^ 2 * dens t * t ^ 3) by (apply Rmult_le_pos; lra). lra.
Qed.
Lemma dens2_small t : 0 < t -> Rabs (dens2 t) <= 15 / 4 * dens t / t ^ 2.
Proof.
  intros H. assert (P := dens_pos t ltac:(lra)). assert (C : 0 < t ^ 3) by (apply pow_lt; exact H). assert (B : 0 < t ^ 2) by (apply pow_lt; exact H).
  replace (dens2 t) with (dens t / t ^ 2 * ((15 / 4 * (t ^ 3) ^ 2 - 3 * t ^ 3) / (1 + t ^ 3) ^ 2)) by (unfold dens2; field; split; lra).
  replace (15 / 4 * dens t / t ^ 2) with (dens t / t ^ 2 * (15 / 4)) by (field; lra). rewrite Rabs_mult.
  assert (Q : 0 <= dens t / t ^ 2) by (apply Rdiv_le_0_compat; lra). rewrite (Rabs_pos_eq _ Q). apply Rmult_le_compat_l; [exact Q|].
  set (v := t ^ 3) in *. clearbody v. assert (V : 0 < (1 + v) ^ 2) by (apply pow_lt; lra). apply Rabs_le. split.
  - apply (proj1 (Rle_div_r _ _ _ V)). nra.
  - apply (proj2 (Rle_div_l _ _ _ V)). nra.
Qed.

(** ** Taylor expansion of the integral *)
Section Taylor.
Variables (u a b M : R).
Hypothesis (Ha : 0 < a) (Hu : a <= u <= b).
Hypothesis HM : forall t, a <= t <= b -> Rabs (dens2 t) <= M.
Definition rest (t : R) : R := F t - F u - dens u * (t - u) - dens1 u * (t - u) ^ 2 / 2.
Lemma rest_bound t : a <= t <= b -> Rabs (rest t) <= M * Rabs (t - u) ^ 3 / 6.
Proof.
  intros Ht.
  assert (D3 : forall s, a <= s <= b -> is_derive (fun s => dens1 s - dens1 u) s (dens2 s)).
  { intros s Hs. replace (dens2 s) with (dens2 s - 0) by ring. apply (is_derive_minus dens1 (fun _ => dens1 u)); [apply dens1_derive; lra|auto_derive; [exact I|reflexivity]]. }
  assert (D2 : forall s, a <= s <= b -> is_derive (fun s => dens s - dens u - dens1 u * (s - u)) s (dens1 s - dens1 u)).
  { intros s Hs. apply (is_derive_minus (fun s => dens s - dens u) (fun s => dens1 u * (s - u))).
    - replace (dens1 s) with (dens1 s - 0) by ring. apply (is_derive_minus dens (fun _ => dens u)); [apply dens_derive; lra|auto_derive; [exact I|reflexivity]].
    - auto_derive; [exact I|ring]. }
  assert (D1 : forall s, a <= s <= b -> is_derive rest s (dens s - dens u - dens1 u * (s - u))).
  { intros s Hs. unfold rest. apply (is_derive_minus (fun s => F s - F u - dens u * (s - u)) (fun s => dens1 u * (s - u) ^ 2 / 2)).
    - apply (is_derive_minus (fun s => F s - F u) (fun s => dens u * (s - u))).
      + replace (dens s) with (dens s - 0) by ring. apply (is_derive_minus F (fun _ => F u)); [apply F_derive; lra|auto_derive; [exact I|reflexivity]].
      + auto_derive; [exact I|ring].
    - auto_derive; [exact I|field]. }
  destruct (Rle_dec u t) as [L|L].
  - rewrite (Rabs_pos_eq (t - u)) by lra.
    assert (B1 : forall s, u <= s <= b -> Rabs (dens1 s - dens1 u) <= M * (s - u) ^ 1 / INR 1).
    { apply (compare_right (fun s => dens1 s - dens1 u) dens2 u b M 0); [lra|ring|intros; apply D3; lra|intros; rewrite pow_O, Rmult_1_r; apply HM; lra]. }
    assert (B2 : forall s, u <= s <= b -> Rabs (dens s - dens u - dens1 u * (s - u)) <= M * (s - u) ^ 2 / INR 2).
    { apply (compare_right _ (fun s => dens1 s - dens1 u) u b M 1); [lra|ring|intros; apply D2; lra|]. intros s Hs. assert (Q := B1 s Hs). change (INR 1) with 1 in Q. lra. }
    assert (B3 := compare_right rest (fun s => dens s - dens u - dens1 u * (s - u)) u b (M / 2) 2 ltac:(lra)).
    lapply B3; [clear B3; intros B3; lapply B3; [clear B3; intros B3; lapply B3; [clear B3; intros B3|]|]|].
    + specialize (B3 t ltac:(lra)). replace (M * (t - u) ^ 3 / 6) with (M / 2 * (t - u) ^ 3 / INR 3) by (cbn [INR]; field). exact B3.
    + intros s Hs. assert (Q := B2 s Hs). cbn [INR] in Q. lra.
    + intros s Hs. apply D1. lra.
    + unfold rest. field.
  - rewrite (Rabs_left (t - u)) by lra. replace (- (t - u)) with (u - t) by ring.
    assert (B1 : forall s, a <= s <= u -> Rabs (dens1 s - dens1 u) <= M * (u - s) ^ 1 / INR 1).
    { apply (compare_left (fun s => dens1 s - dens1 u) dens2 a u M 0); [lra|ring|intros; apply D3; lra|intros; rewrite pow_O, Rmult_1_r; apply HM; lra]. }
    assert (B2 : forall s, a <= s <= u -> Rabs (dens s - dens u - dens1 u * (s - u)) <= M * (u - s) ^ 2 / INR 2).
    { apply (compare_left _ (fun s => dens1 s - dens1 u) a u M 1); [lra|ring|intros; apply D2; lra|]. intros s Hs. assert (Q := B1 s Hs). change (INR 1) with 1 in Q. lra. }
    assert (B3 := compare_left rest (fun s => dens s - dens u - dens1 u * (s - u)) a u (M / 2) 2 ltac:(lra)).
    lapply B3; [clear B3; intros B3; lapply B3; [clear B3; intros B3; lapply B3; [clear B3; intros B3|]|]|].
    + specialize (B3 t ltac:(lra)). replace (M * (u - t) ^ 3 / 6) with (M / 2 * (u - t) ^ 3 / INR 3) by (cbn [INR]; field). exact B3.
    + intros s Hs. assert (Q := B2 s Hs). cbn [INR] in Q. lra.
    + intros s Hs. apply D1. lra.
    + unfold rest. field.
Qed.
(** the slope of a secant *)
Lemma secant_slope p q : a <= p -> p < q -> q <= b -> (F q - F p) / (q - p) = dens u + dens1 u * ((p + q) / 2 - u) + (rest q - rest p) / (q - p).
Proof. intros. unfold rest. field. lra. Qed.
Lemma rest_slope p q : a <= p -> p < q -> q <= b -> Rabs ((rest q - rest p) / (q - p)) <= M * (Rabs (p - u) ^ 3 + Rabs (q - u) ^ 3) / 6 / (q - p).
Proof.
  intros H1 H2 H3. unfold Rdiv at 1. rewrite Rabs_mult, (Rabs_pos_eq (/ (q - p))) by (apply Rlt_le, Rinv_0_lt_compat; lra).
  apply Rmult_le_compat_r; [apply Rlt_le, Rinv_0_lt_compat; lra|]. assert (A := rest_bound q ltac:(lra)). assert (B := rest_bound p ltac:(lra)).
  assert (T : Rabs (rest q - rest p) <= Rabs (rest q) + Rabs (rest p)) by (unfold Rminus; rewrite <- (Rabs_Ropp (rest p)); apply Rabs_triang). lra.
Qed.
End Taylor.

(** ** one cell of the table *)
Lemma weights t : 0 <= t <= 1 -> Rabs ((1 - t) * (1 - 3 * t)) + Rabs (t * (3 * t - 2)) <= 1.
Proof.
  intros Ht. rewrite !Rabs_mult, (Rabs_pos_eq (1 - t)), (Rabs_pos_eq t) by lra.
  destruct (Rle_dec t (1 / 3)) as [T1|T1].
  - rewrite (Rabs_pos_eq (1 - 3 * t)) by lra. rewrite (Rabs_left1 (3 * t - 2)) by lra. nra.
  - rewrite (Rabs_left1 (1 - 3 * t)) by lra. destruct (Rle_dec t (2 / 3)) as [T2|T2].
    + rewrite (Rabs_left1 (3 * t - 2)) by lra. assert (0 <= (t - 1 / 2) ^ 2) by apply pow2_ge_0. nra.
    + rewrite (Rabs_pos_eq (3 * t - 2)) by lra. nra.
Qed.
Lemma weighted w0 w1 a b e : Rabs w0 + Rabs w1 <= 1 -> 0 <= e -> Rabs a <= e -> Rabs b <= e -> Rabs (w0 * a + w1 * b) <= e.
Proof.
  intros Hw He Ha Hb. eapply Rle_trans; [apply Rabs_triang|]. rewrite !Rabs_mult.
  assert (A := Rmult_le_compat_l _ _ _ (Rabs_pos w0) Ha). assert (B := Rmult_le_compat_l _ _ _ (Rabs_pos w1) Hb).
  assert (C := Rmult_le_compat_r e _ _ He Hw). lra.
Qed.
Lemma cube_le x y : 0 <= x -> x <= y -> x ^ 3 <= y ^ 3.
Proof. intros. apply pow_incr. lra. Qed.

(** the second derivative near u *)
Lemma dens2_near x u t q : 0 < x -> 1 < q < 102 / 100 -> x <= u <= q * x -> x / q <= t <= q ^ 2 * x -> Rabs (dens2 t) <= 42 / 10 * dens u / x ^ 2.
Proof.
  intros Hx Hq Hu Ht. assert (Hp : 0 < x / q) by (apply Rdiv_lt_0_compat; lra). assert (Pu := dens_pos u ltac:(lra)).
  assert (A := dens2_small t ltac:(lra)). assert (Pt := dens_pos t ltac:(lra)). assert (X2 : 0 < x ^ 2) by (apply pow_lt; exact Hx).
  assert (T2 : x ^ 2 / (10404 / 10000) <= t ^ 2).
  { apply Rle_trans with ((x / q) ^ 2); [|apply pow_incr; lra]. replace ((x / q) ^ 2) with (x ^ 2 / q ^ 2) by (field; lra).
    apply Rmult_le_compat_l; [lra|]. apply Rinv_le_contravar; [apply pow_lt; lra|nra]. }
  assert (DR : dens t <= 10613 / 10000 * dens u).
  { destruct (Rle_dec u t) as [L|L]; [assert (Q := dens_decr_le u t ltac:(lra) L); lra|].
    assert (Q := dens_ratio t u (102 / 100) ltac:(lra) ltac:(lra) ltac:(lra)).
    assert (W : u <= (102 / 100) ^ 2 * t).
    { apply Rle_trans with (q ^ 2 * t); [|apply Rmult_le_compat_r; [lra|nra]].
      apply Rle_trans with (q ^ 2 * (x / q)); [replace (q ^ 2 * (x / q)) with (q * x) by (field; lra); lra|]. apply Rmult_le_compat_l; [nra|lra]. }
    specialize (Q W). lra. }
  eapply Rle_trans; [exact A|]. assert (T0 : 0 < t ^ 2) by (apply pow_lt; lra). apply (proj2 (Rle_div_l _ _ _ T0)).
  replace (42 / 10 * dens u / x ^ 2 * t ^ 2) with (42 / 10 * dens u * (t ^ 2 / x ^ 2)) by (field; lra).
  assert (V : 10000 / 10404 <= t ^ 2 / x ^ 2) by (apply (proj1 (Rle_div_r _ _ _ X2)); lra).
  assert (U : 42 / 10 * dens u * (10000 / 10404) <= 42 / 10 * dens u * (t ^ 2 / x ^ 2)) by (apply Rmult_le_compat_l; lra). lra.
Qed.

(** three neighbouring slopes against the integrand; x, q x are the ends of the cell, x / q and q^2 x the next knots *)
Section Cell.
Variables (x q u : R).
Hypothesis (Hx : 0 < x) (Hq : 1 < q < 102 / 100) (Hu : x <= u <= q * x).
Let M := 42 / 10 * dens u / x ^ 2.
Let rho a b := (rest u b - rest u a) / (b - a).
Local Lemma Mx : M * x ^ 2 = 42 / 10 * dens u. Proof. unfold M. field. lra. Qed.
Local Lemma Mpos : 0 < M. Proof. unfold M. apply Rdiv_lt_0_compat; [assert (P := dens_pos u ltac:(lra)); lra|apply pow_lt; exact Hx]. Qed.
Local Lemma low : 0 < x / q < x.
Proof. split; [apply Rdiv_lt_0_compat; lra|]. assert (Q : 0 < q) by lra. apply (proj2 (Rlt_div_l _ _ _ Q)). nra. Qed.
Local Lemma HMb t : x / q <= t <= q ^ 2 * x -> Rabs (dens2 t) <= M.
Proof. intros Ht. apply (dens2_near x u t q Hx Hq Hu Ht). Qed.
Local Lemma rho_bound a b K : x / q <= a -> a < b -> b <= q ^ 2 * x -> Rabs (a - u) ^ 3 + Rabs (b - u) ^ 3 <= K * x ^ 2 * (b - a) -> Rabs (rho a b) <= 7 / 10 * K * dens u.
Proof.
  intros Ha Hab Hb HK. assert (L := low). assert (N := Mpos). assert (E := Mx).
  assert (Q := rest_slope u (x / q) (q ^ 2 * x) M ltac:(lra) ltac:(split; nra) HMb a b Ha Hab Hb). fold (rho a b) in Q.
  eapply Rle_trans; [exact Q|]. assert (D : 0 < b - a) by lra. apply (proj2 (Rle_div_l _ _ _ D)).
  assert (W := Rmult_le_compat_l M _ _ (Rlt_le _ _ N) HK). replace (M * (K * x ^ 2 * (b - a))) with (M * x ^ 2 * (K * (b - a))) in W by ring. rewrite E in W. lra.
Qed.
Local Lemma rho_mid : Rabs (rho x (q * x)) <= 7 / 10 * (4 / 10000) * dens u.
Proof.
  assert (L := low). apply rho_bound; [lra|nra|nra|]. rewrite Rabs_left1, Rabs_pos_eq by lra. replace (- (x - u)) with (u - x) by ring.
  assert (S0 : (u - x) ^ 3 + (q * x - u) ^ 3 <= (q * x - x) ^ 3).
  { set (a := u - x). set (b := q * x - u). replace (q * x - x) with (a + b) by (unfold a, b; ring). assert (0 <= a) by (unfold a; lra). assert (0 <= b) by (unfold b; lra).
    assert (0 <= a * b) by (apply Rmult_le_pos; assumption). nra. }
  eapply Rle_trans; [exact S0|]. replace ((q * x - x) ^ 3) with ((q - 1) ^ 2 * (x ^ 2 * (q * x - x))) by ring. rewrite Rmult_assoc. apply Rmult_le_compat_r; [|nra].
  apply Rmult_le_pos; [apply pow_le; lra|nra].
Qed.
Local Lemma rho_right : Rabs (rho (q * x) (q ^ 2 * x)) <= 7 / 10 * (38 / 10000) * dens u.
Proof.
  assert (L := low). apply rho_bound; [nra|nra|lra|]. rewrite !Rabs_pos_eq by nra.
  assert (A : (q * x - u) ^ 3 <= (q * x - x) ^ 3) by (apply cube_le; lra).
  assert (B : (q ^ 2 * x - u) ^ 3 <= (q ^ 2 * x - x) ^ 3) by (apply cube_le; nra).
  apply Rle_trans with ((q * x - x) ^ 3 + (q ^ 2 * x - x) ^ 3); [lra|].
  replace ((q * x - x) ^ 3 + (q ^ 2 * x - x) ^ 3) with ((1 + (1 + q) ^ 3) * (q - 1) ^ 2 / q * (x ^ 2 * (q ^ 2 * x - q * x))) by (field; lra).
  rewrite Rmult_assoc. apply Rmult_le_compat_r; [apply Rmult_le_pos; [apply pow_le; lra|nra]|].
  assert (Q : 0 < q) by lra. apply (proj2 (Rle_div_l _ _ _ Q)).
  assert (C1 : (1 + q) ^ 3 <= (202 / 100) ^ 3) by (apply cube_le; lra). assert (C2 : 0 <= (q - 1) ^ 2 <= 4 / 10000) by nra.
  apply Rle_trans with ((1 + (202 / 100) ^ 3) * (4 / 10000)); [|lra]. apply Rmult_le_compat; [|lra|lra|lra]. assert (0 <= (1 + q) ^ 3) by (apply pow_le; lra). lra.
Qed.
Local Lemma rho_left : Rabs (rho (x / q) x) <= 7 / 10 * (38 / 10000) * dens u.
Proof.
  assert (L := low). apply rho_bound; [lra|lra|nra|]. rewrite !Rabs_left1 by lra. replace (- (x / q - u)) with (u - x / q) by ring. replace (- (x - u)) with (u - x) by ring.
  assert (A : (u - x) ^ 3 <= (q * x - x) ^ 3) by (apply cube_le; lra).
  assert (B : (u - x / q) ^ 3 <= (q * x - x / q) ^ 3) by (apply cube_le; lra).
  apply Rle_trans with ((q * x - x) ^ 3 + (q * x - x / q) ^ 3); [lra|].
  replace ((q * x - x) ^ 3 + (q * x - x / q) ^ 3) with ((q ^ 3 + (1 + q) ^ 3) * (q - 1) ^ 2 / q ^ 2 * (x ^ 2 * (x - x / q))) by (field; lra).
  rewrite Rmult_assoc. apply Rmult_le_compat_r; [apply Rmult_le_pos; [apply pow_le; lra|lra]|].
  assert (Q : 0 < q ^ 2) by (apply pow_lt; lra). apply (proj2 (Rle_div_l _ _ _ Q)).
  assert (C1 : (1 + q) ^ 3 <= (202 / 100) ^ 3) by (apply cube_le; lra). assert (C3 : q ^ 3 <= (102 / 100) ^ 3) by (apply cube_le; lra). assert (C2 : 0 <= (q - 1) ^ 2 <= 4 / 10000) by nra.
  apply Rle_trans with (((102 / 100) ^ 3 + (202 / 100) ^ 3) * (4 / 10000)); [|nra]. assert (0 <= (1 + q) ^ 3) by (apply pow_le; lra). assert (0 <= q ^ 3) by (apply pow_le; lra).
  apply Rmult_le_compat; lra.
Qed.
Local Lemma sec_mid : (F (q * x) - F x) / (q * x - x) = dens u + dens1 u * ((x + q * x) / 2 - u) + rho x (q * x).
Proof. assert (L := low). apply (secant_slope u (x / q) (q ^ 2 * x)); nra. Qed.
Local Lemma sec_right : (F (q ^ 2 * x) - F (q * x)) / (q ^ 2 * x - q * x) = dens u + dens1 u * ((q * x + q ^ 2 * x) / 2 - u) + rho (q * x) (q ^ 2 * x).
Proof. assert (L := low). apply (secant_slope u (x / q) (q ^ 2 * x)); nra. Qed.
Local Lemma sec_left : (F x - F (x / q)) / (x - x / q) = dens u + dens1 u * ((x / q + x) / 2 - u) + rho (x / q) x.
Proof. assert (L := low). apply (secant_slope u (x / q) (q ^ 2 * x)); nra. Qed.
Let t := (u - x) / (q * x - x).
Local Lemma t_range : 0 <= t <= 1.
Proof.
  assert (D : 0 < q * x - x) by nra. unfold t. split; [apply Rdiv_le_0_compat; lra|]. apply (proj2 (Rle_div_l _ _ _ D)). lra.
Qed.
Local Lemma u_t : u = x + t * (q * x - x).
Proof. assert (D : 0 < q * x - x) by nra. unfold t. field. lra. Qed.
Local Lemma rest_part a b e : 0 <= e -> Rabs a <= e -> Rabs b <= e -> Rabs (rho x (q * x)) <= 28 / 100000 * dens u ->
  Rabs (rho x (q * x) + (1 - t) * (1 - 3 * t) * ((a - rho x (q * x)) / 2) + t * (3 * t - 2) * ((b - rho x (q * x)) / 2)) <= 42 / 100000 * dens u + e / 2.
Proof.
  intros He Ha Hb Hm. assert (P := dens_pos u ltac:(lra)). set (m := rho x (q * x)) in *.
  assert (W := weighted _ _ ((a - m) / 2) ((b - m) / 2) (e / 2 + 14 / 100000 * dens u) (weights t t_range) ltac:(lra)).
  apply Rabs_le_between in Ha, Hb, Hm. lapply W; [clear W; intros W|apply Rabs_le; lra]. lapply W; [clear W; intros W|apply Rabs_le; lra].
  apply Rabs_le_between in W. apply Rabs_le. lra.
Qed.
(** an inner cell: both end slopes are averages *)
Lemma cell_inner sl0 sl1 sl2 : sl0 = (F x - F (x / q)) / (x - x / q) -> sl1 = (F (q * x) - F x) / (q * x - x) -> sl2 = (F (q ^ 2 * x) - F (q * x)) / (q ^ 2 * x - q * x) ->
  Rabs (sl1 + (1 - t) * (1 - 3 * t) * ((sl1 + sl0) / 2 - sl1) + t * (3 * t - 2) * ((sl2 + sl1) / 2 - sl1) - dens u) <= / 500 * dens u.
Proof.
  intros -> -> ->. rewrite sec_mid, sec_left, sec_right. assert (P := dens_pos u ltac:(lra)).
  assert (RL := rho_left). assert (RM := rho_mid). assert (RR := rho_right).
  assert (Q := rest_part (rho (x / q) x) (rho (q * x) (q ^ 2 * x)) (266 / 100000 * dens u) ltac:(lra) ltac:(lra) ltac:(lra) ltac:(lra)).
  set (r0 := rho (x / q) x) in *. set (r1 := rho x (q * x)) in *. set (r2 := rho (q * x) (q ^ 2 * x)) in *.
  set (lin := (1 - t) * (1 - 3 * t) * ((q - 1) ^ 2 * x / q / 4) + t * (3 * t - 2) * ((q - 1) ^ 2 * x / 4)).
  assert (L : Rabs lin <= x / 10000).
  { assert (C2 : 0 <= (q - 1) ^ 2 <= 4 / 10000) by nra. assert (C3 : 0 <= (q - 1) ^ 2 * x <= 4 / 10000 * x) by nra.
    assert (C4 : 0 <= (q - 1) ^ 2 * x / q <= 4 / 10000 * x).
    { assert (Q0 : 0 < q) by lra. split; [apply Rdiv_le_0_compat; lra|]. apply (proj2 (Rle_div_l _ _ _ Q0)). nra. }
    apply weighted; [apply weights, t_range|lra|apply Rabs_le; lra|apply Rabs_le; lra]. }
  assert (G : Rabs (dens1 u * lin) <= 15 / 100000 * dens u).
  { rewrite Rabs_mult. destruct (dens1_small u ltac:(lra)) as [G _].
    assert (G' : Rabs (dens1 u) <= 3 / 2 * dens u / x).
    { eapply Rle_trans; [exact G|]. apply Rmult_le_compat_l; [lra|]. apply Rinv_le_contravar; lra. }
    apply Rle_trans with (3 / 2 * dens u / x * (x / 10000)); [|right; field; lra].
    apply Rmult_le_compat; [apply Rabs_pos|apply Rabs_pos|exact G'|exact L]. }
  match goal with |- Rabs ?e <= _ => replace e with (dens1 u * lin + (r1 + (1 - t) * (1 - 3 * t) * ((r0 - r1) / 2) + t * (3 * t - 2) * ((r2 - r1) / 2))) end.
  - eapply Rle_trans; [apply Rabs_triang|]. lra.
  - assert (U := u_t). unfold lin. clear Q L G lin RL RM RR. clearbody t r0 r1 r2. generalize (dens u) (dens1 u). intros g d. rewrite U. field. lra.
Qed.
(** the first cell: the slope at its left end is one-sided *)
Lemma cell_first sl1 sl2 : x <= / 1000 -> sl1 = (F (q * x) - F x) / (q * x - x) -> sl2 = (F (q ^ 2 * x) - F (q * x)) / (q ^ 2 * x - q * x) ->
  Rabs (sl1 + (1 - t) * (1 - 3 * t) * (sl1 - sl1) + t * (3 * t - 2) * ((sl2 + sl1) / 2 - sl1) - dens u) <= / 500 * dens u.
Proof.
  intros Hs -> ->. rewrite sec_mid, sec_right. assert (P := dens_pos u ltac:(lra)).
  assert (RM := rho_mid). assert (RR := rho_right).
  assert (Q := rest_part (rho x (q * x)) (rho (q * x) (q ^ 2 * x)) (266 / 100000 * dens u) ltac:(lra) ltac:(lra) ltac:(lra) ltac:(lra)).
  set (r1 := rho x (q * x)) in *. set (r2 := rho (q * x) (q ^ 2 * x)) in *.
  set (lin := ((x + q * x) / 2 - u) + (0 * 0 + t * (3 * t - 2) * ((q ^ 2 * x - x) / 4))).
  assert (L : Rabs lin <= x / 10).
  { assert (W := weights t t_range). assert (W0 := Rabs_pos ((1 - t) * (1 - 3 * t))).
    assert (T := weighted 0 (t * (3 * t - 2)) 0 ((q ^ 2 * x - x) / 4) (5 / 100 * x)). rewrite Rabs_R0 in T.
    assert (C3 : 0 <= q ^ 2 * x - x <= 5 / 100 * x) by nra.
    assert (T' := T ltac:(lra) ltac:(lra) ltac:(lra) ltac:(apply Rabs_le; lra)). apply Rabs_le_between in T'.
    assert (C4 : 0 <= q * x - x <= 2 / 100 * x) by nra. unfold lin. apply Rabs_le. lra. }
  assert (G : Rabs (dens1 u * lin) <= 15 / 100000 * dens u).
  { rewrite Rabs_mult. destruct (dens1_small u ltac:(lra)) as [_ G].
    assert (G' : Rabs (dens1 u) <= 1 / 1000 * dens u).
    { eapply Rle_trans; [exact G|]. apply Rmult_le_compat_r; [lra|]. assert (u <= 102 / 100 * / 1000) by nra. nra. }
    apply Rle_trans with (1 / 1000 * dens u * (1 / 10)); [|lra].
    apply Rmult_le_compat; [apply Rabs_pos|apply Rabs_pos|exact G'|lra]. }
  match goal with |- Rabs ?e <= _ => replace e with (dens1 u * lin + (r1 + (1 - t) * (1 - 3 * t) * ((r1 - r1) / 2) + t * (3 * t - 2) * ((r2 - r1) / 2))) end.
  - eapply Rle_trans; [apply Rabs_triang|]. lra.
  - unfold lin. clear Q L G lin RM RR. clearbody t r1 r2. generalize (dens u) (dens1 u). intros g d. field.
Qed.
End Cell.

Lemma dcell_tight i u : (i <= 497)%nat -> x_grid i <= u <= x_grid (S i) ->
  Rabs (dcell table_size x_grid y_grid i u - dens u) <= / 500 * dens u.
Proof.
  intros Hi Hu. assert (P := x_grid_pos i). assert (G := gq_bounds). assert (S1 := x_grid_step i). assert (S2 := x_grid_step (S i)).
  assert (I1 : x_grid i < x_grid (S i)) by (apply x_grid_incr; lia).
  unfold dcell. rewrite dhermite_form by exact I1. rewrite !y_grid_F.
  assert (E1 : tangent table_size x_grid y_grid (S i) = (slope x_grid y_grid (S i) + slope x_grid y_grid i) / 2).
  { unfold tangent. change (Nat.eqb (S i) 0) with false. cbv iota. destruct (Nat.eqb_spec (S i) (table_size - 1)) as [H1|_]; [unfold table_size in H1; lia|].
    replace (S i - 1)%nat with i by lia. reflexivity. }
  rewrite E1. unfold slope at 1 2. rewrite !y_grid_F. rewrite S1 in *.
  rewrite S2. replace (gq * (gq * x_grid i)) with (gq ^ 2 * x_grid i) in * by ring.
  destruct i as [|j].
  - change (tangent table_size x_grid y_grid 0) with (slope x_grid y_grid 0). unfold slope. rewrite !y_grid_F, S1.
    apply (cell_first (x_grid 0) gq u P ltac:(lra) Hu); [rewrite x_grid_0; lra|reflexivity|reflexivity].
  - assert (E0 : tangent table_size x_grid y_grid (S j) = (slope x_grid y_grid (S j) + slope x_grid y_grid j) / 2).
    { unfold tangent. change (Nat.eqb (S j) 0) with false. cbv iota. destruct (Nat.eqb_spec (S j) (table_size - 1)) as [H1|_]; [unfold table_size in H1; lia|].
      replace (S j - 1)%nat with j by lia. reflexivity. }
    rewrite E0. unfold slope. rewrite !y_grid_F, S1.
    apply (cell_inner (x_grid (S j)) gq u P ltac:(lra) Hu); [|reflexivity|reflexivity].
    replace (x_grid (S j) / gq) with (x_grid j) by (rewrite (x_grid_step j); field; lra). reflexivity.
Qed.

(** ** the distances *)
Lemma last_inner_knot : 98 / 10 < x_grid 498.
Proof. assert (E := x_grid_step 498). rewrite x_grid_last in E. assert (G := gq_bounds). assert (P := x_grid_pos 498). nra. Qed.
Lemma helper_tight a b : / 1000 <= a -> a <= b -> b <= 98 / 10 ->
  (1 - / 500) * (F b - F a) <= comoving_distance_helper b - comoving_distance_helper a <= (1 + / 500) * (F b - F a).
Proof.
  intros Ha Hab Hb. unfold comoving_distance_helper, interp1d.
  assert (Hx0 := x_grid_0). assert (Hxl := x_grid_last). assert (Hk := last_inner_knot).
  assert (Hn : (2 <= table_size)%nat) by (unfold table_size; lia).
  rewrite !(raw_spline table_size x_grid y_grid Hn grid_increasing) by lra.
  change (table_size - 2)%nat with 498%nat.
  set (g := spline table_size x_grid y_grid 498). set (dg := dspline table_size x_grid y_grid 498).
  assert (Hd : forall u, is_derive g u (dg u)).
  { apply (spline_C1 table_size x_grid y_grid Hn grid_increasing). unfold table_size; lia. }
  assert (Hclose : forall u, a <= u <= b -> Rabs (dg u - dens u) <= / 500 * dens u).
  { intros u Hu. destruct (Rle_lt_dec u (x_grid 0)) as [Q|Q].
    - assert (u = x_grid 0) by lra. subst u. unfold dg. rewrite dspline_first. apply dcell_tight; [lia|].
      split; [lra|]. apply Rlt_le, x_grid_incr; lia.
    - destruct (find_cell table_size x_grid Hn grid_increasing u Q) as (i & Hi & L & U).
      unfold dg. unfold table_size in Hi, U.
      assert (N : i <> 498%nat) by (intros ->; lra).
      assert (U' : u <= x_grid (S i)) by (apply U; lia).
      rewrite (dspline_cell table_size x_grid y_grid Hn grid_increasing 498 i u); [|lia|unfold table_size; lia|exact L|].
      + apply dcell_tight; [lia|lra].
      + intros _. exact U'. }
  assert (HD : forall c u, a <= u <= b -> is_derive (fun u => c * F u - g u) u (c * dens u - dg u)).
  { intros c u Hu. apply (is_derive_minus (fun u => c * F u) g); [|apply Hd].
    apply (is_derive_scal F u c). apply F_derive. lra. }
  split.
  - assert (Q := nondecreasing (fun u => - ((1 - / 500) * F u - g u)) (fun u => - ((1 - / 500) * dens u - dg u)) a b Hab).
    cbv beta in Q. lapply Q; [clear Q; intros Q; lapply Q; [lra|]|].
    + intros u Hu. specialize (Hclose u Hu). apply Rabs_le_between in Hclose. lra.
    + intros u Hu. apply (is_derive_opp (fun u => (1 - / 500) * F u - g u)). apply HD; exact Hu.
  - assert (Q := nondecreasing _ _ a b Hab (HD (1 + / 500))). cbv beta in Q. lapply Q; [lra|].
    intros u Hu. specialize (Hclose u Hu). apply Rabs_le_between in Hclose. lra.
Qed.
Lemma distance_tight z1 z2 h0 Om0 : 0 < Om0 < 1 -> 0 < h0 -> 0 <= z1 -> z1 <= z2 ->
  / 1000 <= ratio Om0 -> (1 + z2) * ratio Om0 <= 98 / 10 ->
  Rabs ((flat_comoving_distance z2 h0 Om0 - flat_comoving_distance z1 h0 Om0) - (exact_distance z2 h0 Om0 - exact_distance z1 h0 Om0))
    <= / 500 * (exact_distance z2 h0 Om0 - exact_distance z1 h0 Om0).
Proof.
  intros HO Hh H1 H12 Hlo Hhi. assert (Ra := ratio_pos Om0).
  rewrite !code_distance, !exact_F by (assumption || lra).
  assert (Hd := hubble_pos h0 Hh). assert (Hn := norm_pos Om0).
  set (K := Rpower Om0 (1 / 3) * Rpower (1 - Om0) (1 / 6)) in *. set (D := hubble_distance h0) in *.
  set (a := (1 + z1) * ratio Om0). set (b := (1 + z2) * ratio Om0) in *.
  assert (Hab : a <= b) by (apply Rmult_le_compat_r; lra). assert (Ha : ratio Om0 <= a) by (unfold a; nra).
  destruct (helper_tight a b) as [L U]; [lra|exact Hab|exact Hhi|].
  assert (HDK : 0 < D / K) by (apply Rdiv_lt_0_compat; assumption).
  replace (D * (F b - F (ratio Om0)) / K - D * (F a - F (ratio Om0)) / K) with (D / K * (F b - F a)) by (field; lra).
  replace (D * (comoving_distance_helper b - comoving_distance_helper (ratio Om0)) / K
           - D * (comoving_distance_helper a - comoving_distance_helper (ratio Om0)) / K)
    with (D / K * (comoving_distance_helper b - comoving_distance_helper a)) by (field; lra).
  assert (L1 := Rmult_le_compat_l _ _ _ (Rlt_le _ _ HDK) L).
  assert (U1 := Rmult_le_compat_l _ _ _ (Rlt_le _ _ HDK) U). apply Rabs_le. lra.
Qed.
Lemma distance_tight0 z h0 Om0 : 0 < Om0 < 1 -> 0 < h0 -> 0 <= z ->
  / 1000 <= ratio Om0 -> (1 + z) * ratio Om0 <= 98 / 10 ->
  Rabs (flat_comoving_distance z h0 Om0 - exact_distance z h0 Om0) <= / 500 * exact_distance z h0 Om0.
Proof.
  intros HO Hh Hz Hlo Hhi. assert (Q := distance_tight 0 z h0 Om0 HO Hh ltac:(lra) Hz Hlo Hhi).
  rewrite exact_zero in Q. unfold flat_comoving_distance in Q at 2. rewrite flat_zero, !Rminus_0_r in Q. exact Q.
Qed.
