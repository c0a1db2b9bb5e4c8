(** * Backpropagation through Jacobian and magnification *)
From Coq Require Import Reals List Lra Lia FunctionalExtensionality.
From Coquelicot Require Import Coquelicot.
From Verif Require Import RealFun Derive1 LensBase_Model LensBasic_Model LensBasic_Proofs Ad_Model Ad_Spec Ad_Proofs AdLens_Model AdJac_Model AdJac_Spec AdJac_Proofs AdJac2_Proofs Rev_Model Rev_Spec Rev_Proofs.
Local Open Scope R_scope.

Lemma tame_trace a s : forall e, tame a e -> tame a (or0 (trace s e)).
Proof.
  fix IH 1. intros [n|r|x y|x y|x y|x y|x|x|x|x|x|x|x|x|x|x|x y|x n|x p|b x|b x|[p q|p q] x y|x|f x y]; cbn [tame trace]; intros H.
  - destruct (s n); exact Logic.I.
  - exact Logic.I.
  - destruct H as [A B]. apply IH in A, B. destruct (trace s x), (trace s y); cbn in *; tauto.
  - destruct H as [A B]. apply IH in A, B. destruct (trace s x), (trace s y); cbn in *; tauto.
  - destruct H as [A B]. assert (A' := IH x A). assert (B' := IH y B). destruct (trace s x), (trace s y); cbn in *; tauto.
  - destruct H as (A & B & C). assert (A' := IH x A). assert (B' := IH y B). destruct (trace s x), (trace s y); cbn in *; tauto.
  - assert (A' := IH x H). destruct (trace s x); cbn in *; tauto.
  - destruct H as [A B]. assert (A' := IH x A). destruct (trace s x); cbn in *; [|exact Logic.I]. assert (0 < sqrt (ev a x)) by (apply sqrt_lt_R0; assumption). repeat split; try assumption; lra.
  - destruct H as [A B]. assert (A' := IH x A). destruct (trace s x); cbn in *; [|exact Logic.I]. repeat split; try assumption; lra.
  - assert (A' := IH x H). destruct (trace s x); cbn in *; tauto.
  - assert (A' := IH x H). destruct (trace s x); cbn in *; tauto.
  - assert (A' := IH x H). destruct (trace s x); cbn in *; tauto.
  - assert (A' := IH x H). destruct (trace s x); cbn in *; [|exact Logic.I]. repeat split; try assumption. nra.
  - destruct H as (A & B). assert (A' := IH x A). destruct (trace s x); cbn in *; [|exact Logic.I]. repeat split; try assumption. nra.
  - destruct H as (A & B). assert (A' := IH x A). destruct (trace s x); cbn in *; [|exact Logic.I].
    assert (L : 0 < - (ev a x * (ev a x * 1)) + 1) by nra. assert (0 < sqrt (- (ev a x * (ev a x * 1)) + 1)) by (apply sqrt_lt_R0, L). repeat split; try assumption; lra.
  - destruct H as (A & B). assert (A' := IH x A). destruct (trace s x); cbn in *; [|exact Logic.I].
    assert (L : 0 < ev a x * (ev a x * 1) - 1) by nra. assert (0 < sqrt (ev a x * (ev a x * 1) - 1)) by (apply sqrt_lt_R0, L). repeat split; try assumption; lra.
  - destruct H as (A & B & C). assert (A' := IH x A). assert (B' := IH y B).
    assert (N : ev a x * (ev a x * 1) + ev a y * (ev a y * 1) <> 0) by (destruct C; nra).
    destruct (trace s x), (trace s y); cbn in *; tauto.
  - assert (A' := IH x H). destruct (trace s x); cbn in *; [|exact Logic.I]. destruct n; cbn; tauto.
  - destruct H as (A & B & C). assert (A' := IH x A). assert (B' := IH p B). destruct (trace s x), (trace s p); cbn in *; tauto.
  - assert (A' := IH x H). destruct (trace s x); cbn in *; tauto.
  - assert (A' := IH x H). destruct (trace s x); cbn in *; tauto.
  - destruct H as (A & D & E). apply IH in D, E. destruct (trace s x), (trace s y); cbn in *; tauto.
  - destruct H as (A & D & E). apply IH in D, E. destruct (trace s x), (trace s y); cbn in *; tauto.
  - assert (A' := IH x H). destruct (trace s x); cbn in *; tauto.
  - destruct H as (A & B & D). cbn. repeat split; try assumption. apply IH, D.
Qed.
Section Rev.
Variables (F : (nat -> R) -> R * R) (t : expr * expr) (a : nat -> R) (req : nat -> bool).
Hypothesis HF : computes F t.
Hypothesis H1 : smooth a (fst t).
Hypothesis H2 : smooth a (snd t).
Hypothesis T1 : tame a (fst t).
Hypothesis T2 : tame a (snd t).
Lemma deflection_jacobian_rev :
  grad_exact (fun b => m00 (deflection_jacobian F b)) (fst (fst (t_jacfwd t))) a req /\ grad_exact (fun b => m01 (deflection_jacobian F b)) (snd (fst (t_jacfwd t))) a req /\
  grad_exact (fun b => m10 (deflection_jacobian F b)) (fst (snd (t_jacfwd t))) a req /\ grad_exact (fun b => m11 (deflection_jacobian F b)) (snd (snd (t_jacfwd t))) a req.
Proof.
  assert (D := fun k => deflection_jacobian_ad F t a (one_of req k) HF H1 H2).
  repeat split; (apply grad_exact_of; [apply tame_trace; assumption|intros k _; apply (D k)]).
Qed.
Lemma magnification_rev : magnification (at_position F a) (a 0%nat) (a 1%nat) <> None ->
  grad_exact_opt (fun b => magnification (at_position F b) (b 0%nat) (b 1%nat)) (t_magnification t) a req.
Proof.
  intros N. apply grad_exact_of; [|intros k _; apply (magnification_ad F t a (one_of req k) HF H1 H2 N)].
  assert (S1 : smooth a (Sub (Var 0) (fst t))) by (split; [exact Logic.I|exact H1]). assert (S2 : smooth a (Sub (Var 1) (snd t))) by (split; [exact Logic.I|exact H2]).
  assert (Z := det_nonzero F t a HF S1 S2 N). set (J := t_jacfwd (Sub (Var 0) (fst t), Sub (Var 1) (snd t))) in *.
  set (det := Sub (Mul (fst (fst J)) (snd (snd J))) (Mul (snd (fst J)) (fst (snd J)))) in *.
  assert (T : tame a det).
  { assert (U1 : tame a (Sub (Var 0) (fst t))) by (split; [exact Logic.I|exact T1]). assert (U2 : tame a (Sub (Var 1) (snd t))) by (split; [exact Logic.I|exact T2]).
    exact (conj (conj (tame_trace a (unit_seed 0) _ U1) (tame_trace a (unit_seed 1) _ U2)) (conj (tame_trace a (unit_seed 1) _ U1) (tame_trace a (unit_seed 0) _ U2))). }
  change (True /\ ((tame a det /\ True) /\ tame a det /\ tame a det) /\ (if Rlt_dec (ev a det) 0 then - ev a det else ev a det) <> 0).
  split; [exact Logic.I|]. split; [tauto|]. destruct (Rlt_dec (ev a det) 0); lra.
Qed.
End Rev.
(** where no branch, clamp or index occurs the two notions are one *)
Local Notation "a @ n" := (a n%nat) (at level 9, only parsing).
Lemma smooth_tame_basic a : (tame a (fst t_sheet) /\ tame a (snd t_sheet)) /\ (tame a (fst t_shear) /\ tame a (snd t_shear)) /\
  (smooth a (fst t_sis) -> smooth a (snd t_sis) -> tame a (fst t_sis) /\ tame a (snd t_sis)) /\
  (smooth a (fst t_point) -> smooth a (snd t_point) -> tame a (fst t_point) /\ tame a (snd t_point)).
Proof. cbn [t_sheet t_shear t_sis t_point t_deflection_mass_sheet t_deflection_external_shear t_deflection_sis t_deflection_point t_translate_rotate fst snd smooth tame]. tauto. Qed.
Lemma sie_tame a : smooth a (fst t_sie) -> smooth a (snd t_sie) -> tame a (fst t_sie) /\ tame a (snd t_sie).
Proof. cbn [t_sie t_deflection_sie t_translate_rotate t_derotate fst snd smooth tame]. intros A B. tauto. Qed.
Lemma sis_rev a : a@0 <> a@2 \/ a@1 <> a@3 -> 0 <= a@5 -> tame a (fst t_sis) /\ tame a (snd t_sis).
Proof. intros H S. destruct (sis_smooth a H S). apply (smooth_tame_basic a); assumption. Qed.
Lemma point_rev a : a@0 <> a@2 \/ a@1 <> a@3 -> 0 <= a@5 -> tame a (fst t_point) /\ tame a (snd t_point).
Proof. intros H S. destruct (point_smooth a H S). apply (smooth_tame_basic a); assumption. Qed.
Lemma sie_rev a : (a@0 <> a@2 \/ a@1 <> a@3) \/ 0 < a@7 -> 0 <= a@7 -> 0 < a@4 < 1 -> tame a (fst t_sie) /\ tame a (snd t_sie).
Proof. intros H S Q. destruct (sie_smooth a H S Q). apply sie_tame; assumption. Qed.
