(** * Proofs for C93 *)
From Coq Require Import Reals Lra Lia Arith String.
From Coquelicot Require Import Coquelicot.
From Verif Require Import Py LensBase_Model Geo_Model Geo_Proofs FinDiff_Spec.
Local Open Scope R_scope.

Lemma near_locally x d t : Rabs (t - x) < d -> locally t (fun u => Rabs (u - x) < d).
Proof.
  intros H. assert (P : 0 < d - Rabs (t - x)) by lra. exists (mkposreal _ P). intros u Hu.
  unfold ball in Hu; simpl in Hu; unfold AbsRing_ball, abs, minus, plus, opp in Hu; simpl in Hu.
  replace (u - x) with ((u + - t) + (t - x)) by ring. eapply Rle_lt_trans; [apply Rabs_triang|]. lra.
Qed.
Lemma smooth_opp f x d M2 M3 : smooth_near f x d M2 M3 -> smooth_near (fun t => f (- t)) (- x) d M2 M3.
Proof.
  intros S t Ht. assert (Ht' : Rabs (- t - x) < d) by (replace (- t - x) with (- (t - - x)) by ring; rewrite Rabs_Ropp; exact Ht).
  assert (L : forall n, (n <= 3)%nat -> locally (- t) (fun y : R_UniformSpace => forall k, (k <= n)%nat -> ex_derive_n f k y)).
  { intros n Hn. generalize (near_locally _ _ _ Ht'). apply filter_imp. intros u Hu k Hk. apply (S u Hu). lia. }
  destruct (S _ Ht') as (_ & B2 & B3). split; [|split].
  - intros k Hk. apply ex_derive_n_comp_opp, L, Hk.
  - rewrite Derive_n_comp_opp by (apply L; lia). replace ((-1) ^ 2) with 1 by ring. rewrite Rmult_1_l. exact B2.
  - rewrite Derive_n_comp_opp by (apply L; lia). replace ((-1) ^ 3) with (-1) by ring. rewrite Rabs_mult, (Rabs_left (-1)) by lra. lra.
Qed.
Lemma smooth_derive f x d M2 M3 : smooth_near f x d M2 M3 -> 0 < d -> Derive (fun t => f (- t)) (- x) = - Derive f x /\ Derive_n (fun t => f (- t)) 2 (- x) = Derive_n f 2 x.
Proof.
  intros S Hd. assert (H0 : Rabs (x - x) < d) by (rewrite Rminus_diag_eq, Rabs_R0 by reflexivity; exact Hd).
  assert (L : forall n, (n <= 3)%nat -> locally (- - x) (fun y : R_UniformSpace => forall k, (k <= n)%nat -> ex_derive_n f k y)).
  { intros n Hn. rewrite Ropp_involutive. generalize (near_locally _ _ _ H0). apply filter_imp. intros u Hu k Hk. apply (S u Hu). lia. }
  split.
  - assert (A := Derive_n_comp_opp f 1 (- x) (L 1%nat ltac:(lia))). rewrite Ropp_involutive in A. change (Derive (fun t => f (- t)) (- x) = (-1) ^ 1 * Derive f x) in A.
    rewrite A. ring.
  - rewrite Derive_n_comp_opp by (apply L; lia). rewrite Ropp_involutive. ring.
Qed.

(** Taylor's formula forwards *)
Lemma taylor2 f x h d M2 M3 : 0 < h -> h < d -> smooth_near f x d M2 M3 -> Rabs (f (x + h) - f x - h * Derive f x) <= M2 * h ^ 2 / 2.
Proof.
  intros Hh Hd S. destruct (Taylor_Lagrange f 1 x (x + h)) as (z & Hz & E); [lra| |].
  { intros t Ht k Hk. apply (S t); [|lia]. rewrite Rabs_pos_eq; lra. }
  destruct (S z) as (_ & B & _); [rewrite Rabs_pos_eq; lra|]. rewrite E. replace (x + h - x) with h by ring.
  cbn [sum_f_R0 fact Nat.mul Nat.add INR]. change (Derive_n f 0 x) with (f x). change (Derive_n f 1 x) with (Derive f x).
  replace (_ - _ - _) with (h ^ 2 / 2 * Derive_n f 2 z) by (simpl; field).
  rewrite Rabs_mult, (Rabs_pos_eq (h ^ 2 / 2)) by (apply Rmult_le_pos; [apply pow2_ge_0|lra]).
  assert (0 <= h ^ 2 / 2) by (apply Rmult_le_pos; [apply pow2_ge_0|lra]). apply Rle_trans with (h ^ 2 / 2 * M2); [apply Rmult_le_compat_l; assumption|right; field].
Qed.
Lemma taylor3 f x h d M2 M3 : 0 < h -> h < d -> smooth_near f x d M2 M3 -> Rabs (f (x + h) - f x - h * Derive f x - h ^ 2 / 2 * Derive_n f 2 x) <= M3 * h ^ 3 / 6.
Proof.
  intros Hh Hd S. destruct (Taylor_Lagrange f 2 x (x + h)) as (z & Hz & E); [lra| |].
  { intros t Ht k Hk. apply (S t); [|lia]. rewrite Rabs_pos_eq; lra. }
  destruct (S z) as (_ & _ & B); [rewrite Rabs_pos_eq; lra|]. rewrite E. replace (x + h - x) with h by ring.
  assert (P : 0 <= h ^ 3 / 6) by (apply Rmult_le_pos; [apply pow_le; lra|lra]).
  cbn [sum_f_R0]. change (Derive_n f 0 x) with (f x). change (Derive_n f 1 x) with (Derive f x). 
  replace (INR (fact 0)) with 1 by reflexivity. replace (INR (fact 1)) with 1 by reflexivity. replace (INR (fact 2)) with 2 by (simpl; ring). replace (INR (fact 3)) with 6 by (simpl; ring).
  replace (_ - _ - _ - _) with (h ^ 3 / 6 * Derive_n f 3 z) by (simpl pow; field).
  rewrite Rabs_mult, (Rabs_pos_eq (h ^ 3 / 6)) by exact P. apply Rle_trans with (h ^ 3 / 6 * M3); [apply Rmult_le_compat_l; assumption|right; field].
Qed.

Lemma forward_diff f x h d M2 M3 : 0 < h -> h < d -> smooth_near f x d M2 M3 -> Rabs ((f (x + h) - f x) / h - Derive f x) <= M2 * h / 2.
Proof.
  intros Hh Hd S. assert (A := taylor2 f x h d M2 M3 Hh Hd S). replace ((f (x + h) - f x) / h - Derive f x) with ((f (x + h) - f x - h * Derive f x) / h) by (field; lra).
  unfold Rdiv at 1. rewrite Rabs_mult, (Rabs_pos_eq (/ h)) by (left; apply Rinv_0_lt_compat, Hh).
  apply (Rmult_le_reg_r h _ _ Hh). rewrite Rmult_assoc, Rinv_l, Rmult_1_r by lra. eapply Rle_trans; [exact A|]. right; field.
Qed.
Lemma backward_diff f x h d M2 M3 : 0 < h -> h < d -> smooth_near f x d M2 M3 -> Rabs ((f x - f (x - h)) / h - Derive f x) <= M2 * h / 2.
Proof.
  intros Hh Hd S. assert (A := forward_diff _ _ h d M2 M3 Hh Hd (smooth_opp _ _ _ _ _ S)). destruct (smooth_derive _ _ _ _ _ S ltac:(lra)) as [D _]. cbv beta in A. rewrite D in A.
  replace (- (- x + h)) with (x - h) in A by ring. rewrite Ropp_involutive in A. rewrite <- Rabs_Ropp. eapply Rle_trans; [right|exact A]. f_equal. field; lra.
Qed.
Lemma central_diff f x h d M2 M3 : 0 < h -> h < d -> smooth_near f x d M2 M3 -> Rabs ((f (x + h) - f (x - h)) / (2 * h) - Derive f x) <= M3 * h ^ 2 / 6.
Proof.
  intros Hh Hd S. assert (A := taylor3 _ _ h d M2 M3 Hh Hd S). assert (B := taylor3 _ _ h d M2 M3 Hh Hd (smooth_opp _ _ _ _ _ S)).
  destruct (smooth_derive _ _ _ _ _ S ltac:(lra)) as [D1 D2]. cbv beta in B. rewrite D1, D2 in B. replace (- (- x + h)) with (x - h) in B by ring. rewrite Ropp_involutive in B.
  replace ((f (x + h) - f (x - h)) / (2 * h) - Derive f x) with (((f (x + h) - f x - h * Derive f x - h ^ 2 / 2 * Derive_n f 2 x) - (f (x - h) - f x - h * - Derive f x - h ^ 2 / 2 * Derive_n f 2 x)) / (2 * h)) by (field; lra).
  unfold Rdiv at 1. rewrite Rabs_mult, (Rabs_pos_eq (/ (2 * h))) by (left; apply Rinv_0_lt_compat; lra).
  apply (Rmult_le_reg_r (2 * h)); [lra|]. rewrite Rmult_assoc, Rinv_l, Rmult_1_r by lra. eapply Rle_trans; [apply Rabs_triang|]. rewrite Rabs_Ropp.
  replace (M3 * h ^ 2 / 6 * (2 * h)) with (M3 * h ^ 3 / 6 + M3 * h ^ 3 / 6) by (simpl; field). apply Rplus_le_compat; assumption.
Qed.

Lemma gradient1_accurate n h f c k d M2 M3 (s : nat -> R) : 0 < h -> h < d -> (2 <= n)%nat -> (k < n)%nat ->
  (forall j, (j < n)%nat -> s j = f ((INR j - c) * h)) -> smooth_near f ((INR k - c) * h) d M2 M3 ->
  Rabs (gradient1 n h s k - Derive f ((INR k - c) * h)) <= fd_error n k h M2 M3.
Proof.
  intros Hh Hd Hn Hk Hs S. unfold gradient1, fd_error. destruct (Nat.eqb_spec k 0) as [->|K0]; [|destruct (Nat.eqb_spec k (n - 1)) as [->|K1]]; cbn [orb].
  - rewrite !Hs by lia. replace ((INR 1 - c) * h) with ((INR 0 - c) * h + h) by (simpl; ring). apply (forward_diff _ _ h d M2 M3); assumption.
  - rewrite !Hs by lia. replace ((INR (n - 2) - c) * h) with ((INR (n - 1) - c) * h - h) by (rewrite !minus_INR by lia; simpl; ring). apply (backward_diff _ _ h d M2 M3); assumption.
  - rewrite !Hs by lia. replace ((INR (k + 1) - c) * h) with ((INR k - c) * h + h) by (rewrite plus_INR; simpl; ring).
    replace ((INR (k - 1) - c) * h) with ((INR k - c) * h - h) by (rewrite minus_INR by lia; simpl; ring). apply (central_diff _ _ h d M2 M3); assumption.
Qed.

Lemma finitediff_accurate alpha ps nx ny : 0 < ps -> (2 <= nx)%nat -> (2 <= ny)%nat ->
  let '(shape, X, Y) := meshgrid ps nx (Some ny) in
  exists J Ja A Aa, jacobian_deflection_angle alpha shape X Y "finitediff" (Some ps) = Ok J /\ jacobian_deflection_angle alpha shape X Y "autograd" None = Ok Ja /\
    jacobian_lens_equation alpha shape X Y "finitediff" (Some ps) = Ok A /\ jacobian_lens_equation alpha shape X Y "autograd" None = Ok Aa /\
    forall i j d M2 M3, (i < ny)%nat -> (j < nx)%nat -> ps < d -> smooth_field_near alpha (X i j) (Y i j) d M2 M3 ->
      let close B C := Rabs (m00 B - m00 C) <= fd_error nx j ps M2 M3 /\ Rabs (m01 B - m01 C) <= fd_error ny i ps M2 M3 /\
                       Rabs (m10 B - m10 C) <= fd_error nx j ps M2 M3 /\ Rabs (m11 B - m11 C) <= fd_error ny i ps M2 M3 in
      close (J i j) (Ja i j) /\ close (A i j) (Aa i j).
Proof.
  intros Hps Hnx Hny. destruct (meshgrid ps nx (Some ny)) as [[shape X] Y] eqn:E.
  assert (Hs : shape = (ny, nx)) by (unfold meshgrid in E; congruence). subst shape.
  assert (HX : forall i j, (i < ny)%nat -> (j < nx)%nat -> X i j = (INR j - (INR nx - 1) / 2) * ps).
  { intros i j Hi Hj. generalize (meshgrid_pixel_centres ps nx ny i j ltac:(lia) ltac:(lia) Hi Hj). rewrite E. intros (_ & H & _); exact H. }
  assert (HY : forall i j, (i < ny)%nat -> (j < nx)%nat -> Y i j = (INR i - (INR ny - 1) / 2) * ps).
  { intros i j Hi Hj. generalize (meshgrid_pixel_centres ps nx ny i j ltac:(lia) ltac:(lia) Hi Hj). rewrite E. intros (_ & _ & H); exact H. }
  set (J := fun i j => Mat2 (gradient1 nx ps (fun k => fst (alpha (X i k) (Y i k))) j) (gradient1 ny ps (fun k => fst (alpha (X k j) (Y k j))) i)
                            (gradient1 nx ps (fun k => snd (alpha (X i k) (Y i k))) j) (gradient1 ny ps (fun k => snd (alpha (X k j) (Y k j))) i)).
  assert (F : jacobian_finitediff alpha (ny, nx) X Y ps = Ok J).
  { unfold jacobian_finitediff, gradient2. replace (Nat.ltb ny 2) with false by (symmetry; apply Nat.ltb_ge; lia). replace (Nat.ltb nx 2) with false by (symmetry; apply Nat.ltb_ge; lia). reflexivity. }
  exists J, (jacobian_autograd alpha X Y), (fun i j => mat2_sub eye2 (J i j)), (fun i j => mat2_sub eye2 (jacobian_autograd alpha X Y i j)).
  split; [exact F|]. split; [reflexivity|]. split; [unfold jacobian_lens_equation; simpl; rewrite F; reflexivity|]. split; [reflexivity|].
  intros i j d M2 M3 Hi Hj Hd (S1 & S2 & S3 & S4).
  assert (C : Rabs (m00 (J i j) - m00 (jacobian_autograd alpha X Y i j)) <= fd_error nx j ps M2 M3 /\ Rabs (m01 (J i j) - m01 (jacobian_autograd alpha X Y i j)) <= fd_error ny i ps M2 M3 /\
     Rabs (m10 (J i j) - m10 (jacobian_autograd alpha X Y i j)) <= fd_error nx j ps M2 M3 /\ Rabs (m11 (J i j) - m11 (jacobian_autograd alpha X Y i j)) <= fd_error ny i ps M2 M3).
  { unfold J, jacobian_autograd, jacfwd; cbn [m00 m01 m10 m11].
    assert (PX := HX i j Hi Hj). assert (PY := HY i j Hi Hj). repeat split.
    - set (g := fun u => fst (alpha u (Y i j))) in *. rewrite PX in S1 |- *. apply (gradient1_accurate nx ps g _ j d); try assumption.
      intros k Hk. unfold g. rewrite (HX i k), (HY i k), PY by lia. reflexivity.
    - set (g := fun u => fst (alpha (X i j) u)) in *. rewrite PY in S2 |- *. apply (gradient1_accurate ny ps g _ i d); try assumption.
      intros k Hk. unfold g. rewrite (HX k j), (HY k j), PX by lia. reflexivity.
    - set (g := fun u => snd (alpha u (Y i j))) in *. rewrite PX in S3 |- *. apply (gradient1_accurate nx ps g _ j d); try assumption.
      intros k Hk. unfold g. rewrite (HX i k), (HY i k), PY by lia. reflexivity.
    - set (g := fun u => snd (alpha (X i j) u)) in *. rewrite PY in S4 |- *. apply (gradient1_accurate ny ps g _ i d); try assumption.
      intros k Hk. unfold g. rewrite (HX k j), (HY k j), PX by lia. reflexivity. }
  assert (N : forall u a b, u - a - (u - b) = - (a - b)) by (intros; ring).
  split; [exact C|]. unfold mat2_sub; cbn [m00 m01 m10 m11 eye2]. rewrite !N, !Rabs_Ropp. exact C.
Qed.

(** a quadratic is smooth everywhere *)
Lemma quadratic_smooth f a b c x d : (forall u, f u = a * u ^ 2 + b * u + c) -> smooth_near f x d (2 * Rabs a) 0.
Proof.
  intros F t _.
  assert (D1 : forall u, is_derive f u (2 * a * u + b)).
  { intros u. apply (is_derive_ext (fun u => a * u ^ 2 + b * u + c)); [intros; symmetry; apply F|]. auto_derive; [exact I|ring]. }
  assert (E1 : forall u, Derive_n f 1 u = 2 * a * u + b) by (intros u; apply is_derive_unique, D1).
  assert (D2 : forall u, is_derive (Derive_n f 1) u (2 * a)).
  { intros u. apply (is_derive_ext (fun u => 2 * a * u + b)); [intros; symmetry; apply E1|]. auto_derive; [exact I|ring]. }
  assert (E2 : forall u, Derive_n f 2 u = 2 * a) by (intros u; apply is_derive_unique, D2).
  assert (D3 : forall u, is_derive (Derive_n f 2) u 0).
  { intros u. apply (is_derive_ext (fun u => 2 * a)); [intros; symmetry; apply E2|]. auto_derive; [exact I|ring]. }
  split; [|split].
  - intros k Hk. destruct k as [|[|[|[|k]]]]; [exact I| | | |lia]; simpl; eexists; [apply D1|apply D2|apply D3].
  - rewrite E2, Rabs_mult, (Rabs_pos_eq 2) by lra. lra.
  - change (Derive_n f 3 t) with (Derive (Derive_n f 2) t). rewrite (is_derive_unique _ _ _ (D3 t)), Rabs_R0. lra.
Qed.
Lemma smooth_example x y d : smooth_field_near (fun u v => (u ^ 2 + v, u * v)) x y d 2 0.
Proof.
  assert (W : forall f z a b c, 2 * Rabs a <= 2 -> (forall u, f u = a * u ^ 2 + b * u + c) -> smooth_near f z d 2 0).
  { intros f z a b c L F t Ht. destruct (quadratic_smooth f a b c z d F t Ht) as (A & B & C). split; [exact A|]. split; [lra|exact C]. }
  split; [|split; [|split]]; cbn [fst snd].
  - apply (W _ _ 1 0 y); [rewrite Rabs_R1; lra|intros; ring].
  - apply (W _ _ 0 1 (x ^ 2)); [rewrite Rabs_R0; lra|intros; ring].
  - apply (W _ _ 0 y 0); [rewrite Rabs_R0; lra|intros; ring].
  - apply (W _ _ 0 x 0); [rewrite Rabs_R0; lra|intros; ring].
Qed.
