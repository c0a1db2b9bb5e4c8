(** * Proofs for C156: the mean ellipticity of a ring of galaxies *)
From Coq Require Import Reals Lra Lia ZArith List.
From Coquelicot Require Import Complex.
From Verif Require Import RealFun Py Angle_Model LensBase_Model Light_Model Sim_Model First_Spec Dft_Model Dft_Proofs Gxy_Spec Gxy2_Proofs Wheel_Spec.
Import ListNotations.
Local Open Scope R_scope.

Fixpoint cpow (x : C) (n : nat) : C := match n with O => RtoC 1 | S k => (cpow x k * x)%C end.
Lemma total_csum N f : total N f = csum N f. Proof. induction N as [|N IH]; cbn; [reflexivity|]. rewrite IH. reflexivity. Qed.
Lemma turned_cis e N j : turned e N j = (e * cis (2 * PI * INR j / INR N))%C. Proof. reflexivity. Qed.
Lemma geometric x N : (csum N (cpow x) * (1 - x) = 1 - cpow x N)%C.
Proof. induction N as [|N IH]; cbn [csum cpow]; [ring|]. transitivity (csum N (cpow x) * (1 - x) + cpow x N * (1 - x))%C; [ring|]. rewrite IH. ring. Qed.
Lemma cpow_mult a u n : (cpow (a * u) n = cpow a n * cpow u n)%C.
Proof. induction n as [|n IH]; cbn [cpow]; [ring|]. rewrite IH. ring. Qed.
Lemma cpow_cis t n : cpow (cis t) n = cis (INR n * t).
Proof. induction n as [|n IH]; [cbn [cpow]; rewrite Rmult_0_l, cis_0; reflexivity|]. cbn [cpow]. rewrite IH, <- cis_plus. f_equal. rewrite S_INR. ring. Qed.
Lemma Cmod_cpow x n : Cmod (cpow x n) = Cmod x ^ n.
Proof. induction n as [|n IH]; cbn [cpow]; [rewrite Cmod_1; reflexivity|]. rewrite Cmod_mult, IH. cbn. ring. Qed.
Lemma Cmod_cis t : Cmod (cis t) = 1.
Proof. unfold Cmod, cis. cbn [fst snd]. replace (cos t ^ 2 + sin t ^ 2) with 1; [apply sqrt_1|]. assert (Q := sin2_cos2 t). unfold Rsqr in Q. lra. Qed.
Lemma one_minus x : Cmod x < 1 -> (1 - x <> 0)%C.
Proof. intros H E. assert (X : x = RtoC 1) by (replace x with (1 - (1 - x))%C by ring; rewrite E; ring). rewrite X, Cmod_1 in H. lra. Qed.
Lemma INR_C N : (0 < N)%nat -> RtoC (INR N) <> RtoC 0.
Proof. intros H E. apply RtoC_inj in E. apply lt_0_INR in H. lra. Qed.
Lemma conj_nz g : g <> RtoC 0 -> Cconj g <> RtoC 0.
Proof. intros H F. apply H. destruct g as [g1 g2]. assert (F1 := f_equal fst F). assert (F2 := f_equal snd F). cbn in F1, F2. unfold RtoC. f_equal; lra. Qed.
Lemma Cmod_conj z : Cmod (Cconj z) = Cmod z.
Proof. unfold Cmod, Cconj. cbn [fst snd]. f_equal. ring. Qed.
Lemma Cmod_inv_ z : z <> RtoC 0 -> Cmod (/ z)%C = / Cmod z.
Proof. intros H. assert (P := proj1 (Cmod_gt_0 z) H). apply (Rmult_eq_reg_l (Cmod z)); [|lra]. rewrite Rinv_r, <- Cmod_mult, Cinv_r, Cmod_1 by (assumption || lra). reflexivity. Qed.
(** partial fractions over the roots of unity *)
Lemma fractions a N : (0 < N)%nat -> Cmod a < 1 -> csum N (fun j => / (1 - a * cis (2 * PI * INR j / INR N)))%C = (RtoC (INR N) / (1 - cpow a N))%C.
Proof.
  intros HN Ha. assert (PN := lt_0_INR N HN). assert (A0 := Cmod_ge_0 a).
  assert (HaN : (1 - cpow a N <> 0)%C). { apply one_minus. rewrite Cmod_cpow. destruct N as [|n]; [lia|]. cbn. assert (Cmod a ^ n <= 1) by (rewrite <- (pow1 n); apply pow_incr; lra). assert (0 <= Cmod a ^ n) by (apply pow_le; lra). nra. }
  transitivity (csum N (fun j => csum N (fun n => cpow a n * cis (2 * PI * (INR j * IZR (Z.of_nat n)) / INR N)) * / (1 - cpow a N)))%C.
  { apply csum_ext. intros j _. set (x := (a * cis (2 * PI * INR j / INR N))%C). assert (Hx : (1 - x <> 0)%C) by (apply one_minus; unfold x; rewrite Cmod_mult, Cmod_cis; lra).
    assert (xN : cpow x N = cpow a N). { unfold x. rewrite cpow_mult, cpow_cis. replace (INR N * (2 * PI * INR j / INR N)) with (2 * PI * IZR (Z.of_nat j)) by (rewrite <- INR_IZR_INZ; field; lra). rewrite cis_period. ring. }
    assert (G := geometric x N). rewrite xN in G. replace (csum N (fun n => cpow a n * cis (2 * PI * (INR j * IZR (Z.of_nat n)) / INR N))%C) with (csum N (cpow x)).
    - rewrite <- G. field. split; [exact Hx|]. intros Z. rewrite Z in G. apply HaN. rewrite <- G. ring.
    - apply csum_ext. intros n _. unfold x. rewrite cpow_mult, cpow_cis. f_equal. f_equal. rewrite <- INR_IZR_INZ. field. lra. }
  rewrite csum_scal_r. rewrite csum_swap. unfold Cdiv. f_equal. rewrite (csum_single N _ O HN).
  - cbn [cpow]. rewrite csum_scal, (orth N (Z.of_nat 0) HN). cbn. ring.
  - intros n Hn N0. rewrite csum_scal, (orth N (Z.of_nat n) HN). rewrite Z.mod_small by lia. destruct (Z.eqb_spec (Z.of_nat n) 0) as [E|_]; [lia|]. ring.
Qed.
Section Ring.
Variables (e g : C) (N : nat).
Hypothesis HN : (0 < N)%nat.
Hypothesis He : Cmod e < 1.
Hypothesis Hg : Cmod g < 1.
Let E j := sheared (turned e N j) g.
Lemma mean_zero : g = RtoC 0 -> (1 < N)%nat -> mean N E = RtoC 0.
Proof.
  intros G N1. unfold mean. rewrite total_csum. replace (csum N E) with (RtoC 0); [field; apply INR_C; exact HN|]. symmetry. transitivity (csum N (fun j => e * cis (2 * PI * (INR j * IZR 1) / INR N)))%C.
  - apply csum_ext. intros j _. unfold E, sheared. rewrite G, turned_cis. replace (Cconj 0) with (RtoC 0) by (unfold Cconj, RtoC; cbn; f_equal; ring). replace (INR j * IZR 1) with (INR j) by ring. replace (1 + e * cis (2 * PI * INR j / INR N) * 0)%C with (RtoC 1) by ring. field. intros F. apply RtoC_inj in F. lra.
  - rewrite csum_scal, (orth N 1 HN). rewrite Z.mod_small by lia. cbn. ring.
Qed.
Lemma mean_is : g <> RtoC 0 -> let a := (- e * Cconj g)%C in (mean N E - g = (g - / Cconj g) * (cpow a N / (1 - cpow a N)))%C /\ (1 - cpow a N <> 0)%C.
Proof.
  intros G a. assert (G' : Cconj g <> RtoC 0) by (apply conj_nz; exact G).
  assert (A : Cmod a < 1). { unfold a. rewrite Cmod_mult, Cmod_opp, Cmod_conj. assert (U := Cmod_ge_0 e). assert (V := Cmod_ge_0 g). nra. } assert (A0 := Cmod_ge_0 a).
  assert (HaN : (1 - cpow a N <> 0)%C). { apply one_minus. rewrite Cmod_cpow. destruct N as [|n]; [lia|]. cbn. assert (Cmod a ^ n <= 1) by (rewrite <- (pow1 n); apply pow_incr; lra). assert (0 <= Cmod a ^ n) by (apply pow_le; lra). nra. }
  split; [|exact HaN]. assert (S' : csum N E = (RtoC (INR N) * / Cconj g + (g - / Cconj g) * (RtoC (INR N) / (1 - cpow a N)))%C).
  { rewrite <- (fractions a N HN A), <- csum_scal. transitivity (csum N (fun _ => / Cconj g) + csum N (fun j => (g - / Cconj g) * / (1 - a * cis (2 * PI * INR j / INR N))))%C.
    - rewrite <- csum_plus. apply csum_ext. intros j _. unfold E, sheared. rewrite turned_cis. assert (Hx : (1 - a * cis (2 * PI * INR j / INR N) <> 0)%C) by (apply one_minus; rewrite Cmod_mult, Cmod_cis; lra).
      assert (D : (1 + e * cis (2 * PI * INR j / INR N) * Cconj g = 1 - a * cis (2 * PI * INR j / INR N))%C) by (unfold a; ring). rewrite D. replace (e * cis (2 * PI * INR j / INR N) + g)%C with (/ Cconj g * (1 - a * cis (2 * PI * INR j / INR N)) + (g - / Cconj g))%C by (unfold a; field; exact G'). field. split; assumption.
    - f_equal. clear -HN. induction N as [|n IH]; [cbn; ring|]. cbn [csum]. destruct n as [|n]; [cbn; ring|]. rewrite IH by lia. rewrite (S_INR (S n)), RtoC_plus. ring. }
  unfold mean. rewrite total_csum, S'. field. repeat split; [exact HaN|exact G'|apply INR_C; exact HN].
Qed.
Lemma mean_near : Cmod (mean N E - g)%C <= 2 * Cmod e ^ N * Cmod g ^ (N - 1).
Proof.
  assert (U := Cmod_ge_0 e). assert (V := Cmod_ge_0 g). destruct (Ceq_dec g (RtoC 0)) as [G|G].
  - destruct (Nat.eq_dec N 1) as [N1|N1].
    + unfold mean, E. rewrite N1. cbn [total]. unfold sheared. rewrite G. replace (Cconj 0) with (RtoC 0) by (unfold Cconj, RtoC; cbn; f_equal; ring). cbn [Nat.sub pow]. rewrite turned_cis. cbn [INR].
      replace (((0 + (e * cis (2 * PI * 0 / 1) + 0) / (1 + e * cis (2 * PI * 0 / 1) * 0)) / 1 - 0)%C) with (e * cis (2 * PI * 0 / 1))%C; [rewrite Cmod_mult, Cmod_cis; lra|]. replace (1 + e * cis (2 * PI * 0 / 1) * 0)%C with (RtoC 1) by ring. field. intros F. apply RtoC_inj in F. lra.
    + rewrite (mean_zero G) by lia. rewrite G. replace (RtoC 0 - RtoC 0)%C with (RtoC 0) by ring. rewrite !Cmod_0. apply Rmult_le_pos; [apply Rmult_le_pos; [lra|apply pow_le; exact U]|apply pow_le; lra].
  - destruct (mean_is G) as [Q D]. rewrite Q. clear Q. set (a := (- e * Cconj g)%C) in *. assert (G' : Cconj g <> RtoC 0) by (apply conj_nz; exact G).
    assert (V0 : 0 < Cmod g) by (apply Cmod_gt_0; exact G). assert (A : Cmod a = Cmod e * Cmod g) by (unfold a; rewrite Cmod_mult, Cmod_opp, Cmod_conj; reflexivity).
    assert (F : (g - / Cconj g)%C = ((RtoC (Cmod g ^ 2 - 1)) / Cconj g)%C). { assert (M : (g * Cconj g)%C = RtoC (Cmod g ^ 2)) by (unfold Cmod; rewrite pow2_sqrt; [destruct g as [g1 g2]; unfold Cmult, Cconj, RtoC; cbn; f_equal; ring|assert (X := pow2_ge_0 (fst g)); assert (Y := pow2_ge_0 (snd g)); lra]). unfold Rminus. rewrite RtoC_plus, <- M, RtoC_opp. field. exact G'. }
    rewrite F, !Cmod_mult. unfold Cdiv. rewrite !Cmod_mult, !Cmod_inv_ by assumption. rewrite Cmod_conj, Cmod_R, Cmod_cpow, A. rewrite Rabs_left by nra.
    assert (L : 1 - Cmod g <= Cmod (1 - cpow a N)%C). { assert (T := Cmod_triangle (1 - cpow a N)%C (cpow a N)). replace (1 - cpow a N + cpow a N)%C with (RtoC 1) in T by ring. rewrite Cmod_1, Cmod_cpow, A in T. destruct N as [|n]; [lia|]. cbn [pow] in T. assert ((Cmod e * Cmod g) ^ n <= 1) by (rewrite <- (pow1 n); apply pow_incr; nra). assert (0 <= (Cmod e * Cmod g) ^ n) by (apply pow_le; nra). assert (Z1 : 0 <= Cmod e * Cmod g <= Cmod g) by nra. assert (Z2 : Cmod e * Cmod g * (Cmod e * Cmod g) ^ n <= Cmod g * 1) by (apply Rmult_le_compat; lra). lra. }
    set (d := Cmod (1 - cpow a N)%C) in *. rewrite Rpow_mult_distr. assert (P1 : Cmod g ^ N = Cmod g * Cmod g ^ (N - 1)) by (destruct N as [|n]; [lia|]; cbn [pow Nat.sub]; rewrite Nat.sub_0_r; reflexivity). rewrite P1.
    set (x := Cmod g) in *. set (q := x ^ (N - 1)). assert (Hq : 0 <= q) by (apply pow_le; lra). set (p := Cmod e ^ N). assert (Hp : 0 <= p) by (apply pow_le; exact U). assert (Hd : 0 < d) by lra.
    replace (- (x ^ 2 - 1) * / x * (p * (x * q) * / d)) with (p * q * ((1 + x) * ((1 - x) / d))) by (field; lra). assert (R1 : (1 - x) / d <= 1) by (apply (Rmult_le_reg_r d); [exact Hd|]; unfold Rdiv; rewrite Rmult_assoc, Rinv_l by lra; lra). assert (R0 : 0 <= (1 - x) / d) by (apply Rlt_le, Rdiv_lt_0_compat; lra).
    assert (Hpq : 0 <= p * q) by (apply Rmult_le_pos; assumption). replace (2 * p * q) with (p * q * 2) by ring. apply Rmult_le_compat_l; [exact Hpq|]. nra.
Qed.
End Ring.
Lemma bound_limit (e g : C) : Cmod e < 1 -> Cmod g < 1 -> forall eps, 0 < eps -> exists N0, forall N, (N0 <= N)%nat -> 2 * Cmod e ^ N * Cmod g ^ (N - 1) < eps.
Proof.
  intros He Hg eps Heps. assert (U := Cmod_ge_0 e). assert (V := Cmod_ge_0 g). destruct (pow_lt_1_zero (Cmod e) ltac:(rewrite Rabs_pos_eq; lra) (eps / 2) ltac:(lra)) as [N0 H0]. exists N0. intros N HN.
  assert (A := H0 N ltac:(lia)). assert (P : 0 <= Cmod e ^ N) by (apply pow_le; exact U). rewrite Rabs_pos_eq in A by exact P.
  assert (Q : Cmod g ^ (N - 1) <= 1) by (rewrite <- (pow1 (N - 1)); apply pow_incr; lra). assert (0 <= Cmod g ^ (N - 1)) by (apply pow_le; exact V). nra.
Qed.
Lemma turned_shape e N j : Cmod (turned e N j) = Cmod e.
Proof. rewrite turned_cis, Cmod_mult, Cmod_cis. ring. Qed.
Lemma turned_q e N j : e1e2_to_q (fst (turned e N j)) (snd (turned e N j)) = e1e2_to_q (fst e) (snd e).
Proof. unfold e1e2_to_q. assert (H := turned_shape e N j). unfold Cmod in H. rewrite H. reflexivity. Qed.
Lemma turned_phi e N j : e <> RtoC 0 -> let phi := e1e2_to_phi (fst e) (snd e) in let phi' := e1e2_to_phi (fst (turned e N j)) (snd (turned e N j)) in
  cos (2 * phi') = cos (2 * (phi + PI * INR j / INR N)) /\ sin (2 * phi') = sin (2 * (phi + PI * INR j / INR N)).
Proof.
  intros H phi phi'. assert (P := proj1 (Cmod_gt_0 e) H). assert (M := turned_shape e N j). destruct (atan2_polar (fst e) (snd e)) as [A B]. destruct (atan2_polar (fst (turned e N j)) (snd (turned e N j))) as [A' B']. unfold Cmod in M, P. rewrite M in A', B'. set (r := sqrt (fst e ^ 2 + snd e ^ 2)) in *.
  replace (atan2 (snd e) (fst e)) with (2 * phi) in A, B by (unfold phi, e1e2_to_phi; field). replace (atan2 (snd (turned e N j)) (fst (turned e N j))) with (2 * phi') in A', B' by (unfold phi', e1e2_to_phi; field).
  set (t := 2 * PI * INR j / INR N). replace (2 * (phi + PI * INR j / INR N)) with (2 * phi + t) by (unfold t, Rdiv; ring). rewrite cos_plus, sin_plus.
  assert (T1 : fst (turned e N j) = fst e * cos t - snd e * sin t) by reflexivity. assert (T2 : snd (turned e N j) = fst e * sin t + snd e * cos t) by reflexivity. clearbody phi phi' t r. rewrite T1 in A'. rewrite T2 in B'.
  split; apply (Rmult_eq_reg_l r); try lra.
  - rewrite <- A'. rewrite A at 1. rewrite B at 1. ring.
  - rewrite <- B'. rewrite A at 1. rewrite B at 1. ring.
Qed.
Lemma ring_seen z X0 Y0 kappa e g N : kappa <> 1 -> Cmod e < 1 -> Cmod g < 1 -> (0 < N)%nat ->
  let ray := raytrace (reduced_deflection_angle (singleplane z (map (lens_of z) [Shear X0 Y0 ((1 - kappa) * fst g) ((1 - kappa) * snd g); Sheet X0 Y0 kappa]))) in
  exists (E : nat -> C) (m : nat -> R),
    (forall j, (j < N)%nat -> Cmod (E j) < 1 /\ 0 < m j /\ forall lk soft cx cy n Re Ie x y, Re <> 0 -> let e' := turned e N j in
      sersic_brightness lk soft (fst (ray cx cy)) (snd (ray cx cy)) (e1e2_to_q (fst e') (snd e')) (e1e2_to_phi (fst e') (snd e')) n Re Ie (fst (ray x y)) (snd (ray x y)) =
      sersic_brightness lk (m j * soft) cx cy (e1e2_to_q (fst (E j)) (snd (E j))) (e1e2_to_phi (fst (E j)) (snd (E j))) n (m j * Re) Ie x y) /\
    Cmod (mean N E - g)%C <= 2 * Cmod e ^ N * Cmod g ^ (N - 1).
Proof.
  intros Hk He Hg HN ray. exists (fun j => sheared (turned e N j) g), (fun j => growth kappa (turned e N j) g). split; [|exact (mean_near e g N HN He Hg)].
  intros j _. assert (H := turned_shape e N j). rewrite <- H in He. destruct (turned e N j) as [a b]. destruct g as [g1 g2]. repeat split.
  - exact (E_lt g1 g2 a b He Hg).
  - exact (growth_pos kappa g1 g2 a b Hk He Hg).
  - intros lk soft cx cy n Re Ie x y HR. exact (sersic_sheared z X0 Y0 kappa g1 g2 a b Hk He Hg lk soft cx cy n Re Ie x y HR).
Qed.
