(** * How good the derivatives of the distances are *)
From Coq Require Import Reals Lra Lia Arith ZArith List Bool.
From Coquelicot Require Import Coquelicot.
From Verif Require Import RealFun Derive1 Const_Model Cosmo_Model Interp1_Model Interp1_Proofs CosmoTable_Model CosmoTable_Proofs CosmoTight_Proofs Ad_Model Ad_Spec Ad_Proofs AdLens_Model Rev_Model Rev_Spec
  AdMulti_Spec AdMulti2_Proofs AdCosmo_Model AdCosmo_Spec AdCosmo_Proofs AdCosmo2_Proofs.
Import ListNotations.
Local Open Scope R_scope.
Local Notation env := (nat -> R).

Local Ltac real := match goal with |- ?a = ?b => change (@eq R a b) end.
Lemma helper_slope u : / 1000 < u -> u <= 98 / 10 -> exists l, is_derive comoving_distance_helper u l /\ Rabs (l - dens u) <= / 500 * dens u.
Proof.
  intros L H. assert (Hn : (2 <= table_size)%nat) by (unfold table_size; lia). assert (Hk := last_inner_knot). rewrite <- x_grid_0 in L.
  destruct (find_cell table_size x_grid Hn grid_increasing u L) as (i & Hi & L1 & U). unfold table_size in Hi, U.
  assert (N : i <> 498%nat) by (intros ->; lra). assert (U' : u <= x_grid (S i)) by (apply U; lia).
  exists (dcell table_size x_grid y_grid i u). split; [|apply dcell_tight; [lia|lra]].
  apply (raw_derive table_size x_grid y_grid Hn grid_increasing u i); [unfold table_size; lia|exact L1|intros _; exact U'].
Qed.
(** ** a distance made from any table *)
Section Any.
Variable f : R -> R.
Definition made (z h0 Om0 : R) : R := hubble_distance h0 * (f ((1 + z) * ratio Om0) - f (ratio Om0)) / (Rpower Om0 (1 / 3) * Rpower (1 - Om0) (1 / 6)).
Lemma made_z z h0 Om0 l : 0 < Om0 < 1 -> is_derive f ((1 + z) * ratio Om0) l -> is_derive (fun z => made z h0 Om0) z (hubble_distance h0 * (ratio Om0 * l) / (Rpower Om0 (1 / 3) * Rpower (1 - Om0) (1 / 6))).
Proof.
  intros HO D. assert (N := norm_pos Om0). unfold made. set (r := ratio Om0) in *. set (n := Rpower Om0 (1 / 3) * Rpower (1 - Om0) (1 / 6)) in *.
  assert (E : is_derive (fun z => f ((1 + z) * r)) z (r * l)).
  { apply (is_derive_comp f (fun z => (1 + z) * r) z l r); [exact D|]. auto_derive; [exact I|]. apply Rmult_1_l. }
  replace (hubble_distance h0 * (r * l) / n) with (hubble_distance h0 / n * (r * l - 0)) by (field; lra).
  apply (is_derive_ext (fun z => hubble_distance h0 / n * (f ((1 + z) * r) - f r))); [intros t; real; field; lra|].
  apply (is_derive_scal (fun z => f ((1 + z) * r) - f r)). apply (is_derive_minus (fun z => f ((1 + z) * r))); [exact E|exact (is_derive_const (f r) z)].
Qed.
Lemma made_h z h0 Om0 : h0 <> 0 -> is_derive (fun h => made z h Om0) h0 (- made z h0 Om0 / h0).
Proof.
  intros H. assert (N := norm_pos Om0). unfold made, hubble_distance. set (n := Rpower Om0 (1 / 3) * Rpower (1 - Om0) (1 / 6)) in *. set (df := f _ - f _). clearbody df n.
  assert (K : km_to_Mpc <> 0) by (assert (Q := km_to_Mpc_pos); lra). auto_derive; [exact H|]. field. repeat split; lra.
Qed.
Lemma ratio_derive Om0 : 0 < Om0 < 1 -> is_derive ratio Om0 (ratio Om0 / (3 * Om0 * (1 - Om0))).
Proof.
  intros H. unfold ratio, Rpower. assert (0 < Om0 / (1 - Om0)) by (apply Rdiv_lt_0_compat; lra). auto_derive; [split; [lra|split; [exact H0|exact I]]|].
  change (Om0 * / (1 + - Om0)) with (Om0 / (1 - Om0)). set (e := exp _). field. lra.
Qed.
Definition norm (Om0 : R) : R := Rpower Om0 (1 / 3) * Rpower (1 - Om0) (1 / 6).
Lemma norm_derive Om0 : 0 < Om0 < 1 -> is_derive norm Om0 (norm Om0 * (/ (3 * Om0) - / (6 * (1 - Om0)))).
Proof. intros H. unfold norm, Rpower. auto_derive; [repeat split; lra|]. change (1 + - Om0) with (1 - Om0). set (e := exp _). set (e' := exp _). field. lra. Qed.
Lemma made_Om z h0 Om0 l1 l0 : 0 < Om0 < 1 -> is_derive f ((1 + z) * ratio Om0) l1 -> is_derive f (ratio Om0) l0 ->
  is_derive (fun O => made z h0 O) Om0 ((hubble_distance h0 * (ratio Om0 * l1) / norm Om0 * (1 + z) - hubble_distance h0 * (ratio Om0 * l0) / norm Om0) / (3 * Om0 * (1 - Om0))
     - made z h0 Om0 * (/ (3 * Om0) - / (6 * (1 - Om0)))).
Proof.
  intros H D1 D0. assert (N := norm_pos Om0). fold (norm Om0) in N. set (r' := ratio Om0 / (3 * Om0 * (1 - Om0))). set (n' := norm Om0 * (/ (3 * Om0) - / (6 * (1 - Om0)))).
  assert (R' := ratio_derive Om0 H). fold r' in R'. assert (N' := norm_derive Om0 H). fold n' in N'.
  assert (E1 : is_derive (fun O => f ((1 + z) * ratio O)) Om0 ((1 + z) * r' * l1)).
  { apply (is_derive_comp f (fun O => (1 + z) * ratio O) Om0 l1 ((1 + z) * r')); [exact D1|]. apply (is_derive_scal ratio), R'. }
  assert (E0 : is_derive (fun O => f (ratio O)) Om0 (r' * l0)) by (apply (is_derive_comp f ratio Om0 l0 r'); [exact D0|exact R']).
  apply (is_derive_ext (fun O => hubble_distance h0 * ((f ((1 + z) * ratio O) - f (ratio O)) / norm O))); [intros t; real; unfold made, norm, Rdiv; ring|].
  replace ((hubble_distance h0 * (ratio Om0 * l1) / norm Om0 * (1 + z) - hubble_distance h0 * (ratio Om0 * l0) / norm Om0) / (3 * Om0 * (1 - Om0)) - made z h0 Om0 * (/ (3 * Om0) - / (6 * (1 - Om0))))
    with (hubble_distance h0 * ((((1 + z) * r' * l1 - r' * l0) * norm Om0 - (f ((1 + z) * ratio Om0) - f (ratio Om0)) * n') / norm Om0 ^ 2)).
  2:{ unfold r', n', made. fold (norm Om0). field. lra. }
  apply (is_derive_scal (fun O => (f ((1 + z) * ratio O) - f (ratio O)) / norm O)).
  apply (is_derive_div (fun O => f ((1 + z) * ratio O) - f (ratio O)) norm); [|exact N'|lra]. apply (is_derive_minus (fun O => f ((1 + z) * ratio O))); assumption.
Qed.
End Any.
Lemma made_code z h0 Om0 : flat_comoving_distance z h0 Om0 = made comoving_distance_helper z h0 Om0.
Proof. reflexivity. Qed.
Lemma made_exact z h0 Om0 : 0 < Om0 < 1 -> -1 < z -> true_distance z h0 Om0 = made F z h0 Om0.
Proof. apply exact_F. Qed.
(** r F'((1+z) r) / N is the inverse of the expansion rate *)
Lemma rate z Om0 : 0 < Om0 < 1 -> -1 < z -> ratio Om0 * dens ((1 + z) * ratio Om0) / norm Om0 = / expansion Om0 z.
Proof.
  intros H Z. unfold norm. rewrite norm_factor by exact H. assert (Ra := ratio_pos Om0). assert (So : 0 < sqrt (1 - Om0)) by (apply sqrt_lt_R0; lra).
  unfold dens, expansion. rewrite Rpow_mult_distr, ratio_cube by exact H. assert (P : 0 < (1 + z) ^ 3) by (apply pow_lt; lra). assert (Q : 0 < Om0 * (1 + z) ^ 3) by (apply Rmult_lt_0_compat; lra).
  replace (1 + (1 + z) ^ 3 * (Om0 / (1 - Om0))) with ((Om0 * (1 + z) ^ 3 + (1 - Om0)) / (1 - Om0)) by (field; lra). rewrite sqrt_div_alt by lra.
  assert (0 < sqrt (Om0 * (1 + z) ^ 3 + (1 - Om0))) by (apply sqrt_lt_R0; lra). field. repeat split; lra.
Qed.
Lemma expansion_0 Om0 : expansion Om0 0 = 1.
Proof. unfold expansion. replace (Om0 * (1 + 0) ^ 3 + (1 - Om0)) with 1 by ring. apply sqrt_1. Qed.
Lemma expansion_pos Om0 z : 0 < Om0 < 1 -> -1 < z -> 0 < expansion Om0 z.
Proof. intros H Z. apply sqrt_lt_R0. assert (P : 0 < (1 + z) ^ 3) by (apply pow_lt; lra). assert (Q : 0 < Om0 * (1 + z) ^ 3) by (apply Rmult_lt_0_compat; lra). lra. Qed.

Section Slopes.
Variables z h0 Om0 : R.
Hypotheses (Hh : 0 < h0) (HO : 0 < Om0 < 1) (Hz : 0 <= z) (L : / 1000 < entry0 Om0) (U : (1 + z) * entry0 Om0 <= 98 / 10).
Notation D := (flat_comoving_distance z h0 Om0).
Notation T := (true_distance z h0 Om0).
Notation DH := (hubble_distance h0).
Lemma slope_lo : / 1000 < (1 + z) * ratio Om0 /\ ratio Om0 <= 98 / 10.
Proof. change (entry0 Om0) with (ratio Om0) in *. assert (ratio Om0 * 1 <= ratio Om0 * (1 + z)) by (apply Rmult_le_compat_l; lra). lra. Qed.
Lemma true_nonneg : 0 <= T.
Proof.
  destruct Hz as [P|<-]; [|change (true_distance 0 h0 Om0) with (exact_distance 0 h0 Om0); rewrite exact_zero; lra].
  assert (E := exact_increasing 0 z h0 Om0 HO Hh ltac:(lra) P). rewrite exact_zero in E. change T with (exact_distance z h0 Om0). lra.
Qed.
Lemma close_D : Rabs (D - T) <= / 500 * T.
Proof. apply distance_tight0; try assumption; apply Rlt_le, L. Qed.
Lemma slopes : exists dz dh dO e,
  is_derive (fun z => flat_comoving_distance z h0 Om0) z dz /\ is_derive (fun h => flat_comoving_distance z h Om0) h0 dh /\ is_derive (fun O => flat_comoving_distance z h0 O) Om0 dO /\
  Rabs (dz - DH / expansion Om0 z) <= / 500 * (DH / expansion Om0 z) /\
  dh = - D / h0 /\ Rabs (dh - - T / h0) <= / 500 * (T / h0) /\
  is_derive (fun O => true_distance z h0 O) Om0 e /\ Rabs (dO - e) <= / 500 * ((DH * (1 + (1 + z) / expansion Om0 z) + T) / (3 * Om0 * (1 - Om0))).
Proof.
  destruct slope_lo as [L1 U0]. change (entry0 Om0) with (ratio Om0) in *. assert (HD := hubble_pos h0 Hh). assert (Ra := ratio_pos Om0). assert (N := norm_pos Om0). fold (norm Om0) in N.
  destruct (helper_slope ((1 + z) * ratio Om0) L1 U) as (l1 & D1 & B1). destruct (helper_slope (ratio Om0) L U0) as (l0 & D0 & B0).
  assert (F1 := F_derive ((1 + z) * ratio Om0) ltac:(lra)). assert (F0 := F_derive (ratio Om0) Ra).
  set (d1 := dens ((1 + z) * ratio Om0)) in *. set (d0 := dens (ratio Om0)) in *.
  assert (R1 : DH * (ratio Om0 * d1) / norm Om0 = DH / expansion Om0 z) by (unfold Rdiv at 2; rewrite <- (rate z Om0 HO ltac:(lra)); fold d1; field; lra).
  assert (R0 : DH * (ratio Om0 * d0) / norm Om0 = DH).
  { assert (Q := rate 0 Om0 HO ltac:(lra)). rewrite expansion_0 in Q. replace ((1 + 0) * ratio Om0) with (ratio Om0) in Q by ring. fold d0 in Q. replace (DH * (ratio Om0 * d0) / norm Om0) with (DH * (ratio Om0 * d0 / norm Om0)) by (field; lra). rewrite Q. field. }
  set (k := DH * ratio Om0 / norm Om0). assert (Kp : 0 < k) by (apply Rdiv_lt_0_compat; [apply Rmult_lt_0_compat; lra|exact N]).
  assert (K : forall l, DH * (ratio Om0 * l) / norm Om0 = k * l) by (intros l; unfold k; field; lra). rewrite K in R1, R0.
  assert (C : forall l d, Rabs (l - d) <= / 500 * d -> Rabs (k * l - k * d) <= / 500 * (k * d)).
  { intros l d Q. rewrite <- Rmult_minus_distr_l, Rabs_mult, (Rabs_pos_eq k) by lra. apply (Rmult_le_compat_l k) in Q; lra. }
  assert (C1 := C _ _ B1). assert (C0 := C _ _ B0). rewrite R1 in C1. rewrite R0 in C0.
  exists (k * l1), (- D / h0), ((k * l1 * (1 + z) - k * l0) / (3 * Om0 * (1 - Om0)) - D * (/ (3 * Om0) - / (6 * (1 - Om0)))),
    ((DH / expansion Om0 z * (1 + z) - DH) / (3 * Om0 * (1 - Om0)) - T * (/ (3 * Om0) - / (6 * (1 - Om0)))).
  split; [rewrite <- K; apply (made_z comoving_distance_helper z h0 Om0 l1 HO D1)|].
  split; [apply (made_h comoving_distance_helper z h0 Om0); lra|].
  split; [rewrite <- !K; apply (made_Om comoving_distance_helper z h0 Om0 l1 l0 HO D1 D0)|].
  split; [exact C1|]. split; [reflexivity|].
  assert (CD := close_D). assert (T0 := true_nonneg).
  split. { replace (- D / h0 - - T / h0) with (- ((D - T) / h0)) by (field; lra). rewrite Rabs_Ropp. unfold Rdiv. rewrite Rabs_mult, (Rabs_pos_eq (/ h0)) by (apply Rlt_le, Rinv_0_lt_compat; exact Hh).
    rewrite <- Rmult_assoc. apply Rmult_le_compat_r; [apply Rlt_le, Rinv_0_lt_compat; exact Hh|exact CD]. }
  split. { apply (is_derive_ext_loc (fun O => made F z h0 O)).
    - assert (Q : locally Om0 (fun O => 0 < O < 1)) by (apply filter_and; [apply (open_gt 0); lra|apply (open_lt 1); lra]). revert Q. apply filter_imp. intros O Q. symmetry. apply made_exact; [exact Q|lra].
    - rewrite <- R1, <- R0. rewrite (made_exact z h0 Om0 HO) by lra. rewrite <- !K. apply (made_Om F z h0 Om0 d1 d0 HO F1 F0). }
  set (w := / (3 * Om0) - / (6 * (1 - Om0))). set (q := / (3 * Om0 * (1 - Om0))).
  assert (Qp : 0 < 3 * Om0 * (1 - Om0)) by (apply Rmult_lt_0_compat; lra). assert (Q0 : 0 < q) by (apply Rinv_0_lt_compat, Qp).
  assert (W : Rabs w <= q).
  { assert (E : w = q * (1 - 3 / 2 * Om0)) by (unfold w, q; field; lra). rewrite E, Rabs_mult, (Rabs_pos_eq q) by lra. rewrite <- (Rmult_1_r q) at 2. apply Rmult_le_compat_l; [lra|]. apply Rabs_le. lra. }
  assert (EQ : forall u, u / (3 * Om0 * (1 - Om0)) = u * q) by reflexivity. rewrite !EQ.
  replace ((k * l1 * (1 + z) - k * l0) * q - D * w - ((DH / expansion Om0 z * (1 + z) - DH) * q - T * w)) with ((k * l1 - DH / expansion Om0 z) * ((1 + z) * q) + (- ((k * l0 - DH) * q) + - ((D - T) * w))) by ring.
  set (X := DH / expansion Om0 z) in *. replace ((1 + z) / expansion Om0 z) with ((1 + z) * / expansion Om0 z) by reflexivity.
  replace (DH * (1 + (1 + z) * / expansion Om0 z)) with (DH + X * (1 + z)) by (unfold X, Rdiv; ring).
  eapply Rle_trans; [apply Rabs_triang|]. eapply Rle_trans; [apply Rplus_le_compat_l, Rabs_triang|]. rewrite !Rabs_Ropp, !Rabs_mult, (Rabs_pos_eq q), (Rabs_pos_eq (1 + z)) by lra.
  assert (G1 : Rabs (k * l1 - X) * ((1 + z) * q) <= / 500 * X * ((1 + z) * q)) by (apply Rmult_le_compat_r; [apply Rmult_le_pos; lra|exact C1]).
  assert (G2 : Rabs (k * l0 - DH) * q <= / 500 * DH * q) by (apply Rmult_le_compat_r; [lra|exact C0]).
  assert (G3 : Rabs (D - T) * Rabs w <= / 500 * T * q) by (apply Rmult_le_compat; [apply Rabs_pos|apply Rabs_pos|exact CD|exact W]).
  assert (E : / 500 * ((DH + X * (1 + z) + T) * q) = / 500 * X * ((1 + z) * q) + (/ 500 * DH * q + / 500 * T * q)) by ring. rewrite E. lra.
Qed.
End Slopes.
