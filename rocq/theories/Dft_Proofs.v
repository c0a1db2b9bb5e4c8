(** * The convolution theorem *)
From Coq Require Import Reals Lra Lia Arith ZArith.
From Coquelicot Require Import Coquelicot.
From Verif Require Import Fsum RealFun Dft_Model.
Local Open Scope R_scope.

Lemma csum_ext n f g : (forall i, (i < n)%nat -> f i = g i) -> csum n f = csum n g.
Proof. induction n as [|n IH]; intros H; [reflexivity|]. cbn [csum]. rewrite IH, (H n) by (lia || (intros; apply H; lia)). reflexivity. Qed.
Lemma csum_scal n (c : C) f : csum n (fun i => c * f i)%C = (c * csum n f)%C.
Proof. induction n as [|n IH]; cbn [csum]; [ring|]. rewrite IH. ring. Qed.
Lemma csum_scal_r n (c : C) f : csum n (fun i => f i * c)%C = (csum n f * c)%C.
Proof. induction n as [|n IH]; cbn [csum]; [ring|]. rewrite IH. ring. Qed.
Lemma csum_plus n (f g : nat -> C) : csum n (fun i => f i + g i)%C = (csum n f + csum n g)%C.
Proof. induction n as [|n IH]; cbn [csum]; [ring|]. rewrite IH. ring. Qed.
Lemma csum_zero n f : (forall i, (i < n)%nat -> f i = RtoC 0) -> csum n f = RtoC 0.
Proof. induction n as [|n IH]; intros H; [reflexivity|]. cbn [csum]. rewrite IH, (H n) by (lia || (intros; apply H; lia)). ring. Qed.
Lemma csum_swap n m (f : nat -> nat -> C) : csum n (fun i => csum m (fun j => f i j)) = csum m (fun j => csum n (fun i => f i j)).
Proof.
  induction n as [|n IH]; cbn [csum]; [symmetry; apply csum_zero; reflexivity|]. rewrite IH, <- csum_plus. reflexivity.
Qed.
Lemma csum_single n f i : (i < n)%nat -> (forall j, (j < n)%nat -> j <> i -> f j = RtoC 0) -> csum n f = f i.
Proof.
  induction n as [|n IH]; intros Hi H; [lia|]. cbn [csum]. destruct (Nat.eq_dec i n) as [->|N].
  - rewrite csum_zero; [ring|]. intros j Hj. apply H; lia.
  - rewrite IH by (lia || (intros; apply H; lia)). rewrite (H n) by lia. ring.
Qed.
Lemma csum_real n f : csum n (fun i => RtoC (f i)) = RtoC (fsum n f).
Proof. induction n as [|n IH]; cbn [csum fsum]; [reflexivity|]. rewrite IH, RtoC_plus. reflexivity. Qed.
Lemma csum_conj n f : Cconj (csum n f) = csum n (fun i => Cconj (f i)).
Proof.
  induction n as [|n IH]; cbn [csum]; [unfold Cconj, RtoC; cbn; f_equal; ring|]. rewrite <- IH. unfold Cconj, Cplus; cbn. f_equal. ring.
Qed.
Lemma cis_plus a b : cis (a + b) = (cis a * cis b)%C.
Proof. unfold cis, Cmult; cbn. rewrite cos_plus, sin_plus. f_equal; ring. Qed.
Lemma cis_0 : cis 0 = RtoC 1.
Proof. unfold cis. rewrite cos_0, sin_0. reflexivity. Qed.
Lemma cis_conj t : Cconj (cis t) = cis (- t).
Proof. unfold cis, Cconj; cbn. rewrite cos_neg, sin_neg. reflexivity. Qed.
Lemma cis_period (k : Z) : cis (2 * PI * IZR k) = RtoC 1.
Proof.
  unfold cis. replace (2 * PI * IZR k) with (0 + 2 * IZR k * PI) by ring. destruct (cos_sin_period_Z 0 k) as [A B]. rewrite A, B, cos_0, sin_0. reflexivity.
Qed.
Lemma cis_one t : cis t = RtoC 1 -> exists k : Z, t = 2 * PI * IZR k.
Proof.
  intros H. unfold cis, RtoC in H. injection H as H1 H2. destruct (sin_eq_0_0 (t / 2)) as [k Hk].
  - assert (C2 : cos t = 1 - 2 * sin (t / 2) * sin (t / 2)) by (replace t with (2 * (t / 2)) at 1 by field; apply cos_2a_sin). nra.
  - exists k. lra.
Qed.
(** orthogonality *)
Fixpoint Cpow (z : C) (n : nat) : C := match n with O => RtoC 1 | S k => Cmult z (Cpow z k) end.
Lemma orth N (d : Z) : (0 < N)%nat -> csum N (fun k => cis (2 * PI * (INR k * IZR d) / INR N)) = if Z.eqb (d mod Z.of_nat N) 0 then RtoC (INR N) else RtoC 0.
Proof.
  intros HN. assert (NP : 0 < INR N) by (apply lt_0_INR, HN). assert (NZ : Z.of_nat N <> 0%Z) by lia.
  destruct (Z.eqb_spec (d mod Z.of_nat N) 0) as [E|E].
  - assert (D := Z_div_mod_eq_full d (Z.of_nat N)). rewrite E, Z.add_0_r in D. set (e := (d / Z.of_nat N)%Z) in *.
    rewrite (csum_ext N _ (fun _ => RtoC 1)).
    + clear. induction N as [|N IH]; [reflexivity|]. cbn [csum]. rewrite IH, S_INR, RtoC_plus. reflexivity.
    + intros k _. rewrite D, mult_IZR, <- INR_IZR_INZ. replace (2 * PI * (INR k * (INR N * IZR e)) / INR N) with (2 * PI * IZR (Z.of_nat k * e)) by (rewrite mult_IZR, <- INR_IZR_INZ; field; lra). apply cis_period.
  - set (w := cis (2 * PI * IZR d / INR N)).
    assert (W : forall k, cis (2 * PI * (INR k * IZR d) / INR N) = Cpow w k).
    { induction k as [|k IH]; [cbn [Cpow]; replace (2 * PI * (INR 0 * IZR d) / INR N) with 0 by (cbn; field; lra); apply cis_0|].
      rewrite S_INR. replace (2 * PI * ((INR k + 1) * IZR d) / INR N) with (2 * PI * IZR d / INR N + 2 * PI * (INR k * IZR d) / INR N) by (field; lra). rewrite cis_plus, IH. cbn [Cpow]. reflexivity. }
    assert (G : forall m, ((w - RtoC 1) * csum m (fun k => Cpow w k))%C = (Cpow w m - RtoC 1)%C).
    { induction m as [|m IH]; cbn [csum Cpow]; [ring|]. rewrite Cmult_plus_distr_l, IH. ring. }
    rewrite (csum_ext N _ (fun k => Cpow w k)) by (intros; apply W). specialize (G N). rewrite <- W in G. 
    replace (2 * PI * (INR N * IZR d) / INR N) with (2 * PI * IZR d) in G by (field; lra). rewrite cis_period in G.
    assert (WN : (w - RtoC 1)%C <> RtoC 0).
    { intros Z0. apply E. assert (W1 : w = RtoC 1) by (replace w with (w - RtoC 1 + RtoC 1)%C by ring; rewrite Z0; ring).
      destruct (cis_one _ W1) as [k Hk]. assert (P := PI_RGT_0). assert (DK : IZR d = IZR (Z.of_nat N * k)).
      { rewrite mult_IZR, <- INR_IZR_INZ. apply Rmult_eq_reg_l with (2 * PI / INR N); [|apply Rgt_not_eq, Rdiv_lt_0_compat; lra]. transitivity (2 * PI * IZR d / INR N); [field; lra|]. rewrite Hk. field. lra. }
      apply eq_IZR in DK. rewrite DK, Z.mul_comm. apply Z_mod_mult. }
    transitivity ((/ (w - RtoC 1)) * ((w - RtoC 1) * csum N (fun k => Cpow w k)))%C; [field; exact WN|]. rewrite G. ring.
Qed.
Lemma idft_ext N X Y p : (forall k, (k < N)%nat -> X k = Y k) -> idft N X p = idft N Y p.
Proof. intros H. unfold idft. f_equal. apply csum_ext. intros k Hk. rewrite H by exact Hk. reflexivity. Qed.
Lemma dft_ext N X Y p : (forall k, (k < N)%nat -> X k = Y k) -> dft N X p = dft N Y p.
Proof. intros H. unfold dft. apply csum_ext. intros k Hk. rewrite H by exact Hk. reflexivity. Qed.
(** the index (p - a) mod N *)
Definition wrap (N p a : nat) : nat := Nat.modulo (p + (N - a)) N.
Lemma wrap_lt N p a : (0 < N)%nat -> (wrap N p a < N)%nat.
Proof. intros H. apply Nat.mod_upper_bound. lia. Qed.
Lemma wrap_unique N p a c : (0 < N)%nat -> (a < N)%nat -> (c < N)%nat ->
  ((Z.of_nat p - Z.of_nat a - Z.of_nat c) mod Z.of_nat N =? 0)%Z = Nat.eqb c (wrap N p a).
Proof.
  intros HN Ha Hc. assert (W : Z.of_nat (wrap N p a) = ((Z.of_nat p - Z.of_nat a) mod Z.of_nat N)%Z).
  { unfold wrap. rewrite Nat2Z.inj_mod, Nat2Z.inj_add, Nat2Z.inj_sub by lia. replace (Z.of_nat p + (Z.of_nat N - Z.of_nat a))%Z with (Z.of_nat p - Z.of_nat a + 1 * Z.of_nat N)%Z by ring. apply Z_mod_plus_full. }
  set (d := (Z.of_nat p - Z.of_nat a)%Z) in *. assert (D := Z_div_mod_eq_full d (Z.of_nat N)). assert (B := Z.mod_pos_bound d (Z.of_nat N) ltac:(lia)).
  destruct (Nat.eqb_spec c (wrap N p a)) as [E|E].
  - apply Z.eqb_eq. rewrite E, W. apply Z.mod_divide; [lia|]. exists (d / Z.of_nat N)%Z. lia.
  - apply Z.eqb_neq. intros Z0. apply E. apply Nat2Z.inj. rewrite W. apply Z.mod_divide in Z0; [|lia]. destruct Z0 as [e He]. 
    assert (E2 : (d mod Z.of_nat N - Z.of_nat c = (e - d / Z.of_nat N) * Z.of_nat N)%Z) by lia.
    assert ((e - d / Z.of_nat N = 0)%Z) by nia. lia.
Qed.
Theorem convolution_1d N x y p : (0 < N)%nat ->
  idft N (fun k => dft N x k * dft N y k)%C p = csum N (fun a => x a * y (wrap N p a))%C.
Proof.
  intros HN. assert (NP : 0 < INR N) by (apply lt_0_INR, HN). unfold idft, dft.
  transitivity (RtoC (/ INR N) * csum N (fun a => csum N (fun c => x a * y c * csum N (fun k => cis (2 * PI * (INR k * IZR (Z.of_nat p - Z.of_nat a - Z.of_nat c)) / INR N)))))%C.
  { f_equal. transitivity (csum N (fun k => csum N (fun a => csum N (fun c => x a * y c * cis (2 * PI * (INR k * IZR (Z.of_nat p - Z.of_nat a - Z.of_nat c)) / INR N)))))%C.
    - apply csum_ext. intros k _. rewrite <- csum_scal_r, <- csum_scal_r. apply csum_ext. intros a _. rewrite <- csum_scal, <- csum_scal_r. apply csum_ext. intros c _.
      replace (2 * PI * (INR k * IZR (Z.of_nat p - Z.of_nat a - Z.of_nat c)) / INR N) with (- (2 * PI * INR (k * a) / INR N) + (- (2 * PI * INR (k * c) / INR N) + 2 * PI * INR (k * p) / INR N)).
      + rewrite !cis_plus. ring.
      + rewrite !minus_IZR, !mult_INR, <- !INR_IZR_INZ. field. lra.
    - rewrite csum_swap. apply csum_ext. intros a _. rewrite csum_swap. apply csum_ext. intros c _. rewrite csum_scal. reflexivity. }
  rewrite <- csum_scal. apply csum_ext. intros a Ha. rewrite <- csum_scal. rewrite (csum_single N _ (wrap N p a) (wrap_lt N p a HN)).
  - rewrite orth by exact HN. rewrite wrap_unique by (try assumption; apply wrap_lt, HN). rewrite Nat.eqb_refl.
    transitivity (x a * y (wrap N p a) * (RtoC (/ INR N) * RtoC (INR N)))%C; [ring|]. rewrite <- RtoC_mult, Rinv_l by lra. ring.
  - intros c Hc Nc. rewrite orth by exact HN. rewrite wrap_unique by assumption. rewrite (proj2 (Nat.eqb_neq c (wrap N p a)) Nc). ring.
Qed.
Lemma idft_csum N n (f : nat -> nat -> C) p : idft N (fun k => csum n (fun a => f a k)) p = csum n (fun a => idft N (f a) p).
Proof.
  unfold idft. rewrite csum_scal. f_equal. rewrite csum_swap. apply csum_ext. intros k _. rewrite csum_scal_r. reflexivity.
Qed.
Lemma idft_swap N M (X : nat -> nat -> C) p q : idft N (fun k => idft M (X k) q) p = idft M (fun l => idft N (fun k => X k l) p) q.
Proof.
  unfold idft. transitivity (RtoC (/ INR N) * RtoC (/ INR M) * csum N (fun k => csum M (fun l => X k l * cis (2 * PI * INR (l * q) / INR M) * cis (2 * PI * INR (k * p) / INR N))))%C.
  - rewrite <- Cmult_assoc. f_equal. rewrite <- csum_scal. apply csum_ext. intros k _. rewrite csum_scal_r. ring.
  - rewrite csum_swap. rewrite (Cmult_comm (RtoC (/ INR N))), <- Cmult_assoc. f_equal. rewrite <- csum_scal. apply csum_ext. intros l _.
    transitivity (RtoC (/ INR N) * (csum N (fun k => X k l * cis (2 * PI * INR (k * p) / INR N)) * cis (2 * PI * INR (l * q) / INR M)))%C; [|ring].
    f_equal. rewrite <- csum_scal_r. apply csum_ext. intros k _. ring.
Qed.
Lemma convolution_2d s0 s1 x y p q : (0 < s0)%nat -> (0 < s1)%nat ->
  idft s0 (fun k => idft s1 (fun l => dft2 s0 s1 x k l * dft2 s0 s1 y k l)%C q) p = csum s0 (fun a => csum s1 (fun b => x a b * y (wrap s0 p a) (wrap s1 q b))%C).
Proof.
  intros H0 H1. rewrite idft_swap. unfold dft2.
  transitivity (idft s1 (fun l => csum s0 (fun a => dft s1 (x a) l * dft s1 (y (wrap s0 p a)) l)%C) q).
  { apply idft_ext. intros l _. rewrite (convolution_1d s0 (fun a => dft s1 (x a) l) (fun a => dft s1 (y a) l)) by exact H0. reflexivity. }
  rewrite (idft_csum s1 s0 (fun a l => dft s1 (x a) l * dft s1 (y (wrap s0 p a)) l)%C). apply csum_ext. intros a _. apply convolution_1d, H1.
Qed.
(** spectra of real arrays are hermitian *)
Lemma conj_mult (a b : C) : Cconj (a * b)%C = (Cconj a * Cconj b)%C.
Proof. unfold Cconj, Cmult; cbn. f_equal; ring. Qed.
Lemma dft_conj N x k k' : (0 < N)%nat -> (exists e : Z, Z.of_nat k + Z.of_nat k' = e * Z.of_nat N)%Z -> Cconj (dft N x k') = dft N (fun a => Cconj (x a)) k.
Proof.
  intros HN [e He]. assert (NP : 0 < INR N) by (apply lt_0_INR; lia). unfold dft. rewrite csum_conj. apply csum_ext. intros a _. rewrite conj_mult. f_equal. rewrite cis_conj.
  assert (K : INR k' = IZR e * INR N - INR k) by (rewrite !INR_IZR_INZ, <- mult_IZR, <- minus_IZR; f_equal; lia).
  replace (- - (2 * PI * INR (k' * a) / INR N)) with (- (2 * PI * INR (k * a) / INR N) + 2 * PI * IZR (e * Z.of_nat a)).
  - rewrite cis_plus, cis_period. ring.
  - rewrite mult_IZR, !mult_INR, K, <- !INR_IZR_INZ. field. lra.
Qed.
Lemma hermitian_product s0 s1 (x y : nat -> nat -> R) k l : (k < s0)%nat -> (l < s1)%nat ->
  let X := dft2 s0 s1 (fun a b => RtoC (x a b)) in let Y := dft2 s0 s1 (fun a b => RtoC (y a b)) in
  hermitian s0 s1 (fun k l => X k l * Y k l)%C k l = (X k l * Y k l)%C.
Proof.
  intros Hk Hl X Y. unfold hermitian. destruct (Nat.leb l (s1 / 2)) eqn:E; [reflexivity|]. apply Nat.leb_gt in E. rewrite conj_mult.
  assert (G : forall z : nat -> nat -> R, Cconj (dft2 s0 s1 (fun a b => RtoC (z a b)) (Nat.modulo (s0 - k) s0) (s1 - l)) = dft2 s0 s1 (fun a b => RtoC (z a b)) k l).
  { intros z. unfold dft2. rewrite (dft_conj s0 _ k) by (lia || (destruct k as [|k]; [exists 0%Z; rewrite Nat.sub_0_r, Nat.mod_same by lia; lia|exists 1%Z; rewrite Nat.mod_small by lia; lia])).
    apply dft_ext. intros a _. rewrite (dft_conj s1 _ l) by (lia || (exists 1%Z; lia)). apply dft_ext. intros b _. unfold Cconj, RtoC; cbn. f_equal. ring. }
  unfold X, Y. rewrite !G. reflexivity.
Qed.
(** the product of two spectra is the circular convolution of the padded arrays *)
Theorem rfft2_product h w x h' w' y s0 s1 p q : (0 < s0)%nat -> (0 < s1)%nat ->
  irfft2 (fun k l => rfft2 h w x s0 s1 k l * rfft2 h' w' y s0 s1 k l)%C s0 s1 p q =
  fsum s0 (fun a => fsum s1 (fun b => zero_pad h w x a b * zero_pad h' w' y (wrap s0 p a) (wrap s1 q b))).
Proof.
  intros H0 H1. unfold irfft2.
  rewrite (idft_ext s0 _ (fun k => idft s1 (fun l => rfft2 h w x s0 s1 k l * rfft2 h' w' y s0 s1 k l)%C q)).
  - unfold rfft2. rewrite convolution_2d by assumption. rewrite (csum_ext s0 _ (fun a => RtoC (fsum s1 (fun b => zero_pad h w x a b * zero_pad h' w' y (wrap s0 p a) (wrap s1 q b))))).
    + rewrite csum_real. reflexivity.
    + intros a _. rewrite <- csum_real. apply csum_ext. intros b _. rewrite RtoC_mult. reflexivity.
  - intros k Hk. apply idft_ext. intros l Hl. apply (hermitian_product s0 s1 (zero_pad h w x) (zero_pad h' w' y)); assumption.
Qed.
