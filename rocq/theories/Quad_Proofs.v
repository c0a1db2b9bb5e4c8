(** * Exactness of the pixel quadrature *)
From Coq Require Import Reals Arith Lia Lra.
From Coquelicot Require Import Coquelicot.
From Verif Require Import Fsum Quad_Model Quad_Spec.
Local Open Scope R_scope.

Lemma fsum_S n f : fsum (S n) f = fsum n f + f n. Proof. reflexivity. Qed.
(** ** integrals of finite sums of powers *)
Lemma ex_RInt_pow k a b : ex_RInt (fun t => t ^ k) a b.
Proof. apply (ex_RInt_continuous (V := R_CompleteNormedModule)). intros z _. apply (ex_derive_continuous (fun t => t ^ k)). auto_derive. exact I. Qed.
Lemma is_RInt_poly d c a b : is_RInt (poly d c) a b (fsum d (fun k => c k * RInt (fun t => t ^ k) a b)).
Proof.
  unfold poly. induction d as [|d IH].
  - cbn [fsum]. assert (Z := is_RInt_const a b 0). refine (eq_ind _ (fun l : R => is_RInt (fun _ => 0) a b l) Z 0 _). unfold scal. cbn. unfold mult. cbn. ring.
  - rewrite fsum_S. apply (is_RInt_ext (fun x => plus (fsum d (fun k => c k * x ^ k)) (scal (c d) (x ^ d)))).
    + intros x _. reflexivity.
    + apply (is_RInt_plus (fun x => fsum d (fun k => c k * x ^ k)) (fun x => scal (c d) (x ^ d)) a b); [exact IH|].
      apply (is_RInt_scal (fun x => x ^ d) a b (c d)). apply (RInt_correct (V := R_CompleteNormedModule)), ex_RInt_pow.
Qed.
Lemma ex_RInt_poly d c a b : ex_RInt (poly d c) a b.
Proof. eexists. apply is_RInt_poly. Qed.
(** ** a polynomial in an affine variable *)
Lemma poly_plus d c e x : poly d (fun k => c k + e k) x = poly d c x + poly d e x.
Proof. unfold poly. rewrite <- fsum_plus. apply fsum_ext. intros k _. ring. Qed.
Lemma poly_shift_up d c x : poly (S d) (fun k => match k with O => 0 | S j => c j end) x = x * poly d c x.
Proof. unfold poly. rewrite fsum_S_l, Rmult_0_l, Rplus_0_l, <- fsum_scal_l. apply fsum_ext. intros k _. cbn [pow]. ring. Qed.
Lemma poly_pad d m c : exists e, forall x, poly (d + m) e x = poly d c x.
Proof.
  exists (fun k => if (k <? d)%nat then c k else 0). intros x. unfold poly. rewrite fsum_app, (fsum_zero m).
  - rewrite Rplus_0_r. apply fsum_ext. intros k Hk. destruct (Nat.ltb_spec k d); [reflexivity|lia].
  - intros k Hk. destruct (Nat.ltb_spec (d + k) d); [lia|ring].
Qed.
Lemma poly_affine d c u v : exists e, forall t, poly d c (u + v * t) = poly d e t.
Proof.
  revert c. induction d as [|d IH]; intros c; [exists c; reflexivity|].
  (* c_0 + x * rest *)
  destruct (IH (fun k => c (S k))) as [e He]. destruct (poly_pad d 1 (fun k => u * e k)) as [e1 H1]. rewrite Nat.add_1_r in H1.
  set (e2 := fun k => match k with O => 0 | S j => v * e j end).
  set (e3 := fun k => match k with O => c 0%nat | S _ => 0 end).
  exists (fun k => e3 k + (e1 k + e2 k)). intros t. rewrite !poly_plus.
  assert (E0 : poly (S d) c (u + v * t) = c 0%nat + (u + v * t) * poly d (fun k => c (S k)) (u + v * t)).
  { unfold poly. rewrite fsum_S_l, <- fsum_scal_l. cbn [pow]. rewrite Rmult_1_r. f_equal. apply fsum_ext. intros k _. ring. }
  rewrite E0, He, H1.
  assert (E2 : poly (S d) e2 t = t * poly d (fun k => v * e k) t) by apply poly_shift_up. rewrite E2.
  assert (E3 : poly (S d) e3 t = c 0%nat). { unfold poly. rewrite fsum_S_l, fsum_zero; [cbn; ring|]. intros k _. unfold e3. ring. }
  rewrite E3.
  assert (SC : forall s, poly d (fun k => s * e k) t = s * poly d e t). { intros s. unfold poly. rewrite <- fsum_scal_l. apply fsum_ext. intros; ring. }
  rewrite !SC. ring.
Qed.
(** ** one dimension *)
Section Rule.
Variables (n : nat) (a w : nat -> R).
Hypothesis HG : gauss_rule n a w.
Lemma rule_poly c : fsum n (fun i => w i * poly (2 * n) c (a i)) = RInt (poly (2 * n) c) (-1) 1.
Proof.
  rewrite (is_RInt_unique _ _ _ _ (is_RInt_poly (2 * n) c (-1) 1)). unfold poly.
  rewrite (fsum_ext n _ (fun i => fsum (2 * n) (fun k => c k * (w i * a i ^ k)))).
  2: { intros i _. rewrite <- fsum_scal_l. apply fsum_ext. intros k _. ring. }
  rewrite fsum_swap. apply fsum_ext. intros k Hk. rewrite fsum_scal_l, HG by exact Hk. reflexivity.
Qed.
Lemma rule_pixel c p x : p <> 0 ->
  fsum n (fun i => w i / 2 * poly (2 * n) c (x + p * a i / 2)) = RInt (poly (2 * n) c) (x - p / 2) (x + p / 2) / p.
Proof.
  intros Hp. destruct (poly_affine (2 * n) c x (p / 2)) as [e He].
  rewrite (fsum_ext n _ (fun i => / 2 * (w i * poly (2 * n) e (a i)))).
  2: { intros i _. rewrite <- He. replace (x + p * a i / 2) with (x + p / 2 * a i) by field. field. }
  rewrite fsum_scal_l, rule_poly.
  assert (E : forall t, poly (2 * n) e t = / (p / 2) * ((p / 2) * poly (2 * n) c ((p / 2) * t + x))).
  { intros t. rewrite <- He. replace (p / 2 * t + x) with (x + p / 2 * t) by ring. field. lra. }
  assert (I : is_RInt (poly (2 * n) e) (-1) 1 (scal (/ (p / 2)) (RInt (poly (2 * n) c) (x - p / 2) (x + p / 2)))).
  { apply (is_RInt_ext (fun t => scal (/ (p / 2)) (scal (p / 2) (poly (2 * n) c ((p / 2) * t + x))))).
    - intros t _. symmetry. apply E.
    - apply (is_RInt_scal (V := R_NormedModule) (fun t => scal (p / 2) (poly (2 * n) c ((p / 2) * t + x))) (-1) 1 (/ (p / 2))).
      apply (is_RInt_comp_lin (V := R_NormedModule) (poly (2 * n) c) (p / 2) x (-1) 1).
      replace (p / 2 * -1 + x) with (x - p / 2) by field. replace (p / 2 * 1 + x) with (x + p / 2) by field.
      apply (RInt_correct (V := R_CompleteNormedModule)), ex_RInt_poly. }
  rewrite (is_RInt_unique _ _ _ _ I). unfold scal. cbn. unfold mult. cbn. field. lra.
Qed.
Hypothesis Hn : (1 <= n)%nat.
Lemma quad_rows F p x y :
  quad n a w F p x y = fsum n (fun i => fsum n (fun j => w i / 2 * (w j / 2 * F (x + p * a j / 2) (y + p * a i / 2)))).
Proof.
  unfold quad, gaussian_quadrature_integrator, grid_X, grid_Y, table_X, table_Y, table_W. rewrite fsum_blocks.
  apply fsum_ext. intros i Hi. apply fsum_ext. intros j Hj.
  replace ((i * n + j) / n)%nat with i by (rewrite Nat.div_add_l by lia; rewrite Nat.div_small by lia; lia).
  replace ((i * n + j) mod n)%nat with j by (rewrite Nat.add_comm, Nat.mod_add by lia; rewrite Nat.mod_small by lia; reflexivity).
  field.
Qed.
Lemma quad_poly c p x y : p <> 0 -> quad n a w (poly2 (2 * n) c) p x y = pixel_mean (poly2 (2 * n) c) p x y.
Proof.
  intros Hp. rewrite quad_rows, fsum_swap. unfold pixel_mean.
  (* the inner integral as a polynomial in u *)
  set (e := fun k => RInt (poly (2 * n) (c k)) (y - p / 2) (y + p / 2)).
  assert (P2 : forall u v, poly2 (2 * n) c u v = poly (2 * n) (fun l => fsum (2 * n) (fun k => c k l * u ^ k)) v).
  { intros u v. unfold poly2, poly. rewrite fsum_swap. apply fsum_ext. intros l _. rewrite <- fsum_scal_r. reflexivity. }
  assert (IN : forall u, RInt (fun v => poly2 (2 * n) c u v) (y - p / 2) (y + p / 2) = poly (2 * n) e u).
  { intros u. rewrite (RInt_ext _ (poly (2 * n) (fun l => fsum (2 * n) (fun k => c k l * u ^ k)))) by (intros v _; apply P2).
    rewrite (is_RInt_unique _ _ _ _ (is_RInt_poly _ _ _ _)). unfold poly, e.
    rewrite (fsum_ext (2 * n) (fun k => RInt (poly (2 * n) (c k)) (y - p / 2) (y + p / 2) * u ^ k) (fun k => fsum (2 * n) (fun l => c k l * u ^ k * RInt (fun t => t ^ l) (y - p / 2) (y + p / 2)))).
    2: { intros k _. rewrite (is_RInt_unique _ _ _ _ (is_RInt_poly _ _ _ _)), <- fsum_scal_r. apply fsum_ext. intros l _. ring. }
    rewrite fsum_swap. apply fsum_ext. intros l _. rewrite <- fsum_scal_r. reflexivity. }
  rewrite (RInt_ext _ (poly (2 * n) e)) by (intros u _; apply IN).
  (* inner sums *)
  rewrite (fsum_ext n _ (fun j => / p * (w j / 2 * poly (2 * n) e (x + p * a j / 2)))).
  - rewrite fsum_scal_l, rule_pixel by exact Hp. field. exact Hp.
  - intros j _. rewrite <- IN.
    rewrite (RInt_ext _ (poly (2 * n) (fun l => fsum (2 * n) (fun k => c k l * (x + p * a j / 2) ^ k)))) by (intros v _; apply P2).
    transitivity (w j / 2 * fsum n (fun i => w i / 2 * poly2 (2 * n) c (x + p * a j / 2) (y + p * a i / 2))).
    { rewrite <- fsum_scal_l. apply fsum_ext. intros; ring. }
    rewrite (fsum_ext n _ (fun i => w i / 2 * poly (2 * n) (fun l => fsum (2 * n) (fun k => c k l * (x + p * a j / 2) ^ k)) (y + p * a i / 2))) by (intros i _; rewrite P2; reflexivity).
    rewrite rule_pixel by exact Hp. field. exact Hp.
Qed.
Lemma quad_const v p x y : quad n a w (fun _ _ => v) p x y = v.
Proof.
  rewrite quad_rows. assert (W : fsum n w = 2).
  { assert (G := HG 0%nat ltac:(lia)). rewrite (fsum_ext n _ w) in G by (intros; cbn; ring). rewrite G.
    rewrite (RInt_ext _ (fun _ => 1)) by (intros; reflexivity). rewrite RInt_const. unfold scal. cbn. unfold mult. cbn. ring. }
  rewrite (fsum_ext n _ (fun i => w i * (v / 2))).
  - rewrite fsum_scal_r, W. field.
  - intros i _. rewrite (fsum_ext n _ (fun j => w j * (w i / 4 * v))) by (intros; field). rewrite fsum_scal_r, W. field.
Qed.
End Rule.
(** ** the rules with one, two and three points *)
Lemma RInt_pow_sym k : RInt (fun t => t ^ k) (-1) 1 = (1 - (-1) ^ (S k)) / INR (S k).
Proof.
  apply is_RInt_unique. assert (NZ : INR (S k) <> 0) by (apply not_0_INR; lia).
  replace ((1 - (-1) ^ S k) / INR (S k)) with (minus ((fun t => t ^ S k / INR (S k)) 1) ((fun t => t ^ S k / INR (S k)) (-1))).
  - apply (is_RInt_derive (V := R_CompleteNormedModule) (fun t => t ^ S k / INR (S k)) (fun t => t ^ k)).
    + intros t _. auto_derive; [exact I|]. change (Init.Nat.pred (S k)) with k. field. exact NZ.
    + intros t _. apply (ex_derive_continuous (fun t => t ^ k)). auto_derive. exact I.
  - unfold minus, plus, opp. cbn [AbelianGroup.plus AbelianGroup.opp]. cbn -[INR pow]. rewrite pow1. unfold Rdiv. ring.
Qed.
Lemma rule1 : gauss_rule 1 (fun _ => 0) (fun _ => 2).
Proof. intros k Hk. rewrite RInt_pow_sym. destruct k as [|[|]]; [| |lia]; cbn; field. Qed.
Lemma rule2 : gauss_rule 2 (fun i => match i with O => - / sqrt 3 | _ => / sqrt 3 end) (fun _ => 1).
Proof.
  assert (S3 : / sqrt 3 * / sqrt 3 = 1 / 3). { rewrite <- Rinv_mult. rewrite sqrt_sqrt by lra. lra. }
  set (r := / sqrt 3) in *.
  intros k Hk. rewrite RInt_pow_sym. destruct k as [|[|[|[|]]]]; [| | | |lia]; cbn.
  - field.
  - field.
  - replace (_ + _) with (2 * (r * r)) by ring. rewrite S3. field.
  - field.
Qed.
Lemma rule3 : gauss_rule 3 (fun i => match i with O => - sqrt (3 / 5) | 1%nat => 0 | _ => sqrt (3 / 5) end) (fun i => match i with 1%nat => 8 / 9 | _ => 5 / 9 end).
Proof.
  assert (S3 : sqrt (3 / 5) * sqrt (3 / 5) = 3 / 5) by (apply sqrt_sqrt; lra).
  set (r := sqrt (3 / 5)) in *.
  intros k Hk. rewrite RInt_pow_sym. destruct k as [|[|[|[|[|[|]]]]]]; [| | | | | |lia]; cbn.
  - field.
  - field.
  - replace (0 + 5 / 9 * (- r * (- r * 1)) + 8 / 9 * (0 * (0 * 1)) + 5 / 9 * (r * (r * 1))) with (10 / 9 * (r * r)) by field. rewrite S3. field.
  - field.
  - replace (0 + 5 / 9 * (- r * (- r * (- r * (- r * 1)))) + 8 / 9 * (0 * (0 * (0 * (0 * 1)))) + 5 / 9 * (r * (r * (r * (r * 1))))) with (10 / 9 * ((r * r) * (r * r))) by field. rewrite S3. field.
  - field.
Qed.
