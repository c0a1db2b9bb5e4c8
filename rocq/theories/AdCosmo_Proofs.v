(** * Interpolation in a table with dual numbers: exact at the knots as well *)
From Coq Require Import Reals Lra Lia Arith ZArith List Bool.
From Coquelicot Require Import Coquelicot.
From Verif Require Import RealFun Derive1 Const_Model Interp1_Model Interp1_Proofs Ad_Model Ad_Spec Ad_Proofs AdLens_Model Rev_Model Rev_Spec AdMulti_Spec AdMulti2_Proofs AdCosmo_Model.
Import ListNotations.
Local Open Scope R_scope.
Local Notation env := (nat -> R).

Section Table.
Variables (n : nat) (x y : nat -> R).
Hypothesis Hn : (2 <= n)%nat.
Hypothesis Hx : increasing n x.
Notation raw := (interp1d_raw n x y).
Notation idx := (fun u : R => (Z.of_nat (searchsorted x (n - 1) u) - 1)%Z).

Lemma raw_derive u i : (S i < n)%nat -> x i < u -> ((S (S i) < n)%nat -> u <= x (S i)) -> is_derive raw u (dcell n x y i u).
Proof.
  intros Hi L U. assert (L0 : x 0%nat < u) by (destruct i as [|i]; [exact L|]; apply (Rlt_trans _ (x (S i))); [apply Hx; lia|exact L]).
  rewrite <- (dspline_cell n x y Hn Hx (n - 2) i u); [|lia|lia|exact L|intros Q; apply U; lia].
  apply (is_derive_ext_loc (spline n x y (n - 2))); [|apply (spline_C1 n x y Hn Hx); lia].
  generalize (locally_gt u (x 0%nat) L0). apply filter_imp. intros v Hv. symmetry. apply raw_spline; [exact Hn|exact Hx|lra].
Qed.

(** the index fixed *)
Definition t_fixed (xa xb ya yb ma mb : R) (xs : expr) : expr :=
  let dx := Cst (xb - xa) in let hh := t_h_poly (Div (Sub xs (Cst xa)) dx) in
  Add (Add (Add (Mul (hh 0%nat) (Cst ya)) (Mul (Mul (hh 1%nat) (Cst ma)) dx)) (Mul (hh 2%nat) (Cst yb))) (Mul (Mul (hh 3%nat) (Cst mb)) dx).
Lemma ev_fixed b xa xb ya yb ma mb xs : ev b (t_fixed xa xb ya yb ma mb xs) = hermite xa xb ya yb ma mb (ev b xs).
Proof. unfold t_fixed, hermite, h_poly, t_h_poly, t_row. cbn [ev]. ring. Qed.
Lemma ev_interp b xs : ev b (t_interp1d n x y xs) = raw (ev b xs).
Proof. unfold t_interp1d, interp1d_raw, h_poly, t_h_poly, t_row. cbn [ev]. rewrite !Z.add_0_r. ring. Qed.

Section Jvp.
Variables (a : env) (sd : nat -> option R).
Notation J e := (jvp a sd e).
Lemma j_add p q p' q' : J p = J p' -> J q = J q' -> J (Add p q) = J (Add p' q').
Proof. intros H K. cbn [jvp]. rewrite H, K. reflexivity. Qed.
Lemma j_sub p q p' q' : J p = J p' -> J q = J q' -> J (Sub p q) = J (Sub p' q').
Proof. intros H K. cbn [jvp]. rewrite H, K. reflexivity. Qed.
Lemma j_mul p q p' q' : J p = J p' -> J q = J q' -> J (Mul p q) = J (Mul p' q').
Proof. intros H K. cbn [jvp]. rewrite H, K. reflexivity. Qed.
Lemma j_div p q p' q' : J p = J p' -> J q = J q' -> J (Div p q) = J (Div p' q').
Proof. intros H K. cbn [jvp]. rewrite H, K. reflexivity. Qed.
Lemma j_pow p p' m : J p = J p' -> J (Pow p m) = J (Pow p' m).
Proof. intros H. cbn [jvp]. rewrite H. reflexivity. Qed.
Lemma j_pick f xs u : fst (J xs) = Fin u -> J (Pick f xs xs) = J (f u u).
Proof. intros H. cbn [jvp]. rewrite H. reflexivity. Qed.
Lemma j_interp xs u : fst (J xs) = Fin u ->
  J (t_interp1d n x y xs) = J (t_fixed (wrap x n (idx u + 0)) (wrap x n (idx u + 1)) (wrap y n (idx u + 0)) (wrap y n (idx u + 1)) (wrap (tangent n x y) n (idx u + 0)) (wrap (tangent n x y) n (idx u + 1)) xs).
Proof.
  intros H. unfold t_interp1d, t_fixed, t_h_poly, t_row. rewrite Z.add_0_r.
  repeat first [apply j_add|apply j_mul|apply j_pow|apply j_div|apply j_sub|reflexivity|rewrite (j_pick _ xs u H); rewrite ?Z.add_0_r; reflexivity].
Qed.
Lemma fixed_none xa xb ya yb ma mb xs : snd (J (t_fixed xa xb ya yb ma mb xs)) = None -> snd (J xs) = None.
Proof. unfold t_fixed, t_h_poly, t_row. cbn [jvp snd fst]. destruct (snd (J xs)); [discriminate|reflexivity]. Qed.
Lemma fixed_ok xa xb ya yb ma mb xs : xb - xa <> 0 -> Ad_Proofs.ok a sd xs -> Ad_Proofs.ok a sd (t_fixed xa xb ya yb ma mb xs).
Proof.
  intros N O. unfold t_fixed, t_h_poly, t_row.
  assert (T : Ad_Proofs.ok a sd (Div (Sub xs (Cst xa)) (Cst (xb - xa)))) by (apply ok_div; [apply ok_sub; [exact O|apply ok_cst]|apply ok_cst|exact N]).
  repeat first [apply ok_add|apply ok_mul|apply ok_cst|apply ok_pow; exact T].
Qed.
Lemma interp_ok xs : Ad_Proofs.ok a sd xs -> x 0%nat < ev a xs -> Ad_Proofs.ok a sd (t_interp1d n x y xs).
Proof.
  intros O L. destruct (find_cell n x Hn Hx (ev a xs) L) as (i & Hi & L1 & U1).
  assert (E : idx (ev a xs) = Z.of_nat i).
  { destruct (searchsorted_spec x (n - 1) (ev a xs)) as (A & B & C); [intros j k Hjk; apply Hx; lia|].
    assert (Q : searchsorted x (n - 1) (ev a xs) = S i); [|rewrite Q; lia].
    destruct (lt_eq_lt_dec (searchsorted x (n - 1) (ev a xs)) (S i)) as [[Q|Q]|Q]; [|exact Q|].
    - exfalso. assert (ev a xs <= x i) by (apply C; lia). lra.
    - exfalso. assert (x (S i) < ev a xs) by (apply B; lia). assert (ev a xs <= x (S i)) by (apply U1; lia). lra. }
  assert (W : forall t k, wrap t n (Z.of_nat k) = t k) by (intros t k; unfold wrap; destruct (Z.ltb_spec (Z.of_nat k) 0); [lia|]; rewrite Nat2Z.id; reflexivity).
  assert (EJ := j_interp xs (ev a xs) (ok_value _ _ _ O)). cbv beta in EJ, E. rewrite E in EJ. rewrite Z.add_0_r in EJ. replace (Z.of_nat i + 1)%Z with (Z.of_nat (S i)) in EJ by lia. rewrite !W in EJ.
  set (t0 := t_fixed (x i) (x (S i)) (y i) (y (S i)) (tangent n x y i) (tangent n x y (S i)) xs) in EJ.
  assert (NE : x i < x (S i)) by (apply Hx; lia).
  assert (O0 : Ad_Proofs.ok a sd t0) by (apply fixed_ok; [lra|exact O]).
  destruct O as [dX (VX & TX & DX & CX)]. destruct O0 as [d (V0 & T0 & D0 & C0)].
  assert (RD := raw_derive (ev a xs) i Hi L1 U1).
  assert (HD : is_derive (hermite (x i) (x (S i)) (y i) (y (S i)) (tangent n x y i) (tangent n x y (S i))) (ev a xs) (dcell n x y i (ev a xs))) by (apply hermite_derive; lra).
  assert (X0 : ev (along a sd 0) xs = ev a xs) by (apply ev_ext; intros k; unfold along; ring).
  assert (CH : forall f l, is_derive f (ev a xs) l -> is_derive (fun h => f (ev (along a sd h) xs)) 0 (dX * l)).
  { intros f l Hf. apply (is_derive_comp f (fun h => ev (along a sd h) xs) 0 l dX); [rewrite X0; exact Hf|exact DX]. }
  assert (ED : d = dX * dcell n x y i (ev a xs)).
  { rewrite <- (is_derive_unique _ _ _ D0). apply is_derive_unique.
    apply (is_derive_ext (fun h => hermite (x i) (x (S i)) (y i) (y (S i)) (tangent n x y i) (tangent n x y (S i)) (ev (along a sd h) xs))); [intros h; symmetry; apply ev_fixed|]. apply CH, HD. }
  exists d. split; [|split; [|split]].
  - rewrite EJ, V0. f_equal. unfold t0. rewrite ev_fixed, ev_interp. symmetry. apply (raw_cell n x y Hn Hx i); assumption.
  - rewrite EJ. exact T0.
  - apply (is_derive_ext (fun h => raw (ev (along a sd h) xs))); [intros h; symmetry; apply ev_interp|]. rewrite ED. apply CH, RD.
  - intros N. rewrite EJ in N. apply fixed_none in N. generalize (CX N). apply filter_imp. intros h Hh. cbv beta in Hh. rewrite !ev_interp, Hh. reflexivity.
Qed.
End Jvp.
Lemma interp_tame a xs : tame a xs -> x 0%nat < ev a xs -> tame a (t_interp1d n x y xs).
Proof.
  intros T L. destruct (find_cell n x Hn Hx (ev a xs) L) as (i & Hi & L1 & U1).
  assert (N : wrap x n (idx (ev a xs) + 1) - wrap x n (idx (ev a xs)) <> 0).
  { destruct (searchsorted_spec x (n - 1) (ev a xs)) as (A & B & C); [intros j k Hjk; apply Hx; lia|].
    destruct (searchsorted x (n - 1) (ev a xs)) as [|k] eqn:Q; [exfalso; assert (ev a xs <= x 0%nat) by (apply C; lia); lra|].
    replace (Z.of_nat (S k) - 1)%Z with (Z.of_nat k) by lia. replace (Z.of_nat k + 1)%Z with (Z.of_nat (S k)) by lia. unfold wrap.
    destruct (Z.ltb_spec (Z.of_nat (S k)) 0); [lia|]. destruct (Z.ltb_spec (Z.of_nat k) 0); [lia|]. rewrite !Nat2Z.id. assert (x k < x (S k)) by (apply Hx; lia). lra. }
  unfold t_interp1d, t_h_poly, t_row. cbn [tame ev].
  repeat match goal with |- _ /\ _ => apply conj | |- True => exact I | |- tame a xs => exact T | |- _ <> _ => exact N end.
Qed.
Lemma fl_interp a sd f e : followed a sd f e -> x 0%nat < f a -> followed a sd (fun b => raw (f b)) (t_interp1d n x y e).
Proof.
  intros H L. apply fl_of.
  - apply interp_ok; [apply (fl_ok a sd f), H|rewrite <- (fl_val a sd f e H); exact L].
  - generalize (fl_near a sd f e H). apply near_mono. intros b ->. symmetry. apply ev_interp.
Qed.
Lemma fb_interp a req f e : followed_back a req f e -> x 0%nat < f a -> followed_back a req (fun b => raw (f b)) (t_interp1d n x y e).
Proof.
  intros (T & V & H) L. split; [apply interp_tame; [exact T|rewrite V; exact L]|]. split; [rewrite ev_interp, V; reflexivity|]. intros k K. apply fl_interp; auto.
Qed.
End Table.
(** ** powers *)
Lemma fl_pow a sd f d m : followed a sd f d -> followed a sd (fun b => f b ^ m) (Pow d m).
Proof. intros Hf. apply (fl_bin a sd f f d d _ (fun u _ => u ^ m) Hf Hf); [apply ok_pow, (fl_ok a sd f), Hf|reflexivity]. Qed.
Lemma fb_pow a req f d m : followed_back a req f d -> followed_back a req (fun b => f b ^ m) (Pow d m).
Proof. intros (T1 & V1 & H1). split; [exact T1|]. split; [cbn [ev]; rewrite V1; reflexivity|]. intros k K. apply fl_pow; auto. Qed.
Lemma fl_rpow a sd f d p : followed a sd f d -> 0 < f a -> followed a sd (fun b => Rpower (f b) p) (RPow d (Cst p)).
Proof.
  intros Hf P. apply (fl_bin a sd f f d d _ (fun u _ => Rpower u p) Hf Hf); [|reflexivity].
  apply ok_rpow; [apply (fl_ok a sd f), Hf|apply ok_cst|rewrite <- (fl_val a sd f d Hf); exact P].
Qed.
Lemma fb_rpow a req f d p : followed_back a req f d -> 0 < f a -> followed_back a req (fun b => Rpower (f b) p) (RPow d (Cst p)).
Proof.
  intros (T1 & V1 & H1) P. split; [split; [exact T1|split; [exact I|rewrite V1; exact P]]|]. split; [cbn [ev]; rewrite V1; reflexivity|]. intros k K. apply fl_rpow; auto.
Qed.
