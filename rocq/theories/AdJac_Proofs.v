(** * Nested automatic differentiation *)
From Coq Require Import Reals List Lra Lia.
From Coquelicot Require Import Coquelicot.
From Verif Require Import RealFun Derive1 Calc2 Py LensBase_Model Ad_Model Ad_Spec Ad_Proofs AdLens_Model AdLens_Proofs AdLens2_Proofs AdJac_Model AdJac_Spec.
Import ListNotations.
Local Open Scope R_scope.

Lemma along0 a s n : along a s 0 n = a n.
Proof. unfold along. ring. Qed.
Lemma ev_along0 a s e : ev (along a s 0) e = ev a e.
Proof. apply ev_ext. intros n. apply along0. Qed.

(** ** smooth formulas are differentiated exactly *)
Lemma smooth_ok a s : forall e, smooth a e -> ok a s e.
Proof.
  fix IH 1. intros [n|r|x y|x y|x y|x y|x|x|x|x|x|x|x|x|x|x|x y|x n|x p|b x|b x|[p q|p q] x y|x|f x y]; cbn [smooth]; intros H.
  - apply ok_var.
  - apply ok_cst.
  - apply ok_add; apply IH, H.
  - apply ok_sub; apply IH, H.
  - apply ok_mul; apply IH, H.
  - apply ok_div; [apply IH, H|apply IH, H|apply H].
  - apply ok_neg, IH, H.
  - apply ok_sqrt; [apply IH, H|right; apply H].
  - apply ok_ln; [apply IH, H|apply H].
  - apply ok_exp, IH, H.
  - apply ok_sin, IH, H.
  - apply ok_cos, IH, H.
  - apply ok_atan, IH, H.
  - apply ok_atanh; [apply IH, H|apply H].
  - apply ok_acos; [apply IH, H|right; apply H].
  - apply ok_acosh; [apply IH, H|right; apply H].
  - apply ok_atan2; [apply IH, H|apply IH, H|right; apply H].
  - apply ok_pow, IH, H.
  - apply ok_rpow; [apply IH, H|apply IH, H|apply H].
  - apply ok_atleast; [apply IH, H|right; apply H].
  - apply ok_atmost; [apply IH, H|right; apply H].
  - destruct H as (Hp & Hq & Hn & Hx & Hy). apply ok_where; [apply IH, Hp|apply IH, Hq|right; exact Hn|]. cbn [holds]. unfold ltb.
    destruct (Rlt_dec (ev a p) (ev a q)); apply IH; [apply Hx; assumption|apply Hy; lra].
  - destruct H as (Hp & Hq & Hn & Hy). apply ok_where; [apply IH, Hp|apply IH, Hq|right; exact Hn|]. cbn [holds]. unfold eqb.
    destruct (Req_EM_T (ev a p) (ev a q)); [contradiction|apply IH, Hy].
  - apply ok_nan, IH, H.
  - destruct H as (Hx & Hy & Hl & Hf). apply ok_pick; [apply IH, Hx|apply IH, Hy|right; exact Hl|apply IH, Hf].
Qed.
Lemma smooth_ext a b : (forall n, a n = b n) -> forall e, smooth a e -> smooth b e.
Proof.
  intros E. fix IH 1. intros e. destruct e as [n|r|x y|x y|x y|x y|x|x|x|x|x|x|x|x|x|x|x y|x n|x p|c x|c x|[p q|p q] x y|x|f x y]; cbn [smooth];
  rewrite ?(ev_ext a b x E), ?(ev_ext a b y E), ?(ev_ext a b p E), ?(ev_ext a b q E); intros H;
  repeat match goal with H : _ /\ _ |- _ => destruct H end; repeat split; try assumption; try (apply IH; assumption); try (apply IH; auto; fail); intros; apply IH; auto.
Qed.
(** ** and stay smooth nearby *)
Section Near.
Variables (a : nat -> R) (s : nat -> option R).
Notation near P := (locally 0 (fun h => P (along a s h))).
Lemma near_cont e : smooth a e -> continuous (fun h => ev (along a s h) e) 0.
Proof. intros H. destruct (smooth_ok a s e H) as [d G]. exact (good_continuous a s e d G). Qed.
Lemma near_gt e c : smooth a e -> c < ev a e -> near (fun b => c < ev b e).
Proof.
  intros H L. apply (near_cont e H (fun y => c < y)). rewrite ev_along0. apply (open_gt c), L.
Qed.
Lemma near_lt e c : smooth a e -> ev a e < c -> near (fun b => ev b e < c).
Proof.
  intros H L. apply (near_cont e H (fun y => y < c)). rewrite ev_along0. apply (open_lt c), L.
Qed.
Lemma near_ball e (d : posreal) : smooth a e -> near (fun b => ball (ev a e) d (ev b e)).
Proof. intros H. apply (near_cont e H (fun y => ball (ev a e) d y)). rewrite ev_along0. exists d. intros y L. exact L. Qed.
Lemma near_ne e c : smooth a e -> ev a e <> c -> near (fun b => ev b e <> c).
Proof. intros H N. destruct (Rtotal_order (ev a e) c) as [L|[L|L]]; [|contradiction|]; [generalize (near_lt e c H L)|generalize (near_gt e c H L)]; apply filter_imp; intros; lra. Qed.
Lemma near_lt2 p q : smooth a p -> smooth a q -> ev a p < ev a q -> near (fun b => ev b p < ev b q).
Proof. intros Hp Hq L. apply (ok_lt a s p q); [apply smooth_ok, Hp|apply smooth_ok, Hq|exact L]. Qed.
Lemma near_and (P Q : R -> Prop) : locally 0 P -> locally 0 Q -> locally 0 (fun h => P h /\ Q h).
Proof. apply filter_and. Qed.
Lemma smooth_near : forall e, smooth a e -> near (fun b => smooth b e).
Proof.
  fix IH 1. intros [n|r|x y|x y|x y|x y|x|x|x|x|x|x|x|x|x|x|x y|x n|x p|b x|b x|[p q|p q] x y|x|f x y]; cbn [smooth]; intros H;
    try (apply filter_forall; exact (fun _ => Logic.I)); try (apply IH; exact H).
  - destruct H. apply near_and; apply IH; assumption.
  - destruct H. apply near_and; apply IH; assumption.
  - destruct H. apply near_and; apply IH; assumption.
  - destruct H as (A & B & C). apply near_and; [apply IH, A|]. apply near_and; [apply IH, B|]. apply near_ne; assumption.
  - destruct H as (A & B). apply near_and; [apply IH, A|]. apply near_gt; assumption.
  - destruct H as (A & B). apply near_and; [apply IH, A|]. apply near_gt; assumption.
  - destruct H as (A & B & C). apply near_and; [apply IH, A|]. apply near_and; [apply near_gt; assumption|apply near_lt; assumption].
  - destruct H as (A & B & C). apply near_and; [apply IH, A|]. apply near_and; [apply near_gt; assumption|apply near_lt; assumption].
  - destruct H as (A & B). apply near_and; [apply IH, A|]. apply near_gt; assumption.
  - destruct H as (A & B & C). apply near_and; [apply IH, A|]. apply near_and; [apply IH, B|].
    destruct C as [C|C]; [generalize (near_gt y 0 B C)|generalize (near_ne x 0 A C)]; apply filter_imp; tauto.
  - destruct H as (A & B & C). apply near_and; [apply IH, A|]. apply near_and; [apply IH, B|]. apply near_gt; assumption.
  - destruct H as (A & B). apply near_and; [apply IH, A|]. apply near_ne; assumption.
  - destruct H as (A & B). apply near_and; [apply IH, A|]. apply near_ne; assumption.
  - destruct H as (A & B & C & D & E). apply near_and; [apply IH, A|]. apply near_and; [apply IH, B|].
    destruct (Rtotal_order (ev a p) (ev a q)) as [L|[L|L]]; [|contradiction|].
    + generalize (near_and _ _ (near_lt2 p q A B L) (IH x (D L))). apply filter_imp. intros h [U V]. repeat split; intros; try assumption; lra.
    + generalize (near_and _ _ (near_lt2 q p B A L) (IH y (E L))). apply filter_imp. intros h [U V]. repeat split; intros; try assumption; lra.
  - destruct H as (A & B & C & D). apply near_and; [apply IH, A|]. apply near_and; [apply IH, B|]. apply near_and; [|apply IH, D].
    destruct (Rtotal_order (ev a p) (ev a q)) as [L|[L|L]]; [generalize (near_lt2 p q A B L)|contradiction|generalize (near_lt2 q p B A L)]; apply filter_imp; intros; lra.
  - destruct H as (A & B & C & D). apply near_and; [apply IH, A|]. apply near_and; [apply IH, B|].
    assert (L : near (fun b => locally (ev b x, ev b y) (fun p => f (fst p) (snd p) = f (ev a x) (ev a y)))).
    { apply locally_locally in C. assert (CP : filterlim (fun h => (ev (along a s h) x, ev (along a s h) y)) (locally 0) (locally (ev a x, ev a y))).
      { intros P [e HP]. assert (X := near_ball x e A). assert (Y := near_ball y e B). unfold filtermap. generalize (filter_and _ _ X Y). apply filter_imp.
        intros h [U V]. apply HP. split; assumption. }
      exact (CP _ C). }
    generalize (near_and _ _ L (IH _ D)). apply filter_imp. intros h [U V].
    assert (E := locally_singleton _ _ U). cbn [fst snd] in E. rewrite E. split; [|exact V].
    revert U. apply filter_imp. intros p K. exact K.
Qed.
End Near.

(** ** the traced tangent *)
Lemma smooth_trace a s : forall e, smooth a e -> smooth a (or0 (trace s e)).
Proof.
  fix IH 1. intros [n|r|x y|x y|x y|x y|x|x|x|x|x|x|x|x|x|x|x y|x n|x p|b x|b x|[p q|p q] x y|x|f x y]; cbn [smooth trace]; intros H.
  - destruct (s n); exact Logic.I.
  - exact Logic.I.
  - destruct H as [A B]. apply IH in A, B. destruct (trace s x), (trace s y); cbn in *; tauto.
  - destruct H as [A B]. apply IH in A, B. destruct (trace s x), (trace s y); cbn in *; tauto.
  - destruct H as [A B]. assert (A' := IH x A). assert (B' := IH y B). destruct (trace s x), (trace s y); cbn in *; tauto.
  - destruct H as (A & B & C). assert (A' := IH x A). assert (B' := IH y B). destruct (trace s x), (trace s y); cbn in *; tauto.
  - assert (A' := IH x H). destruct (trace s x); cbn in *; tauto.
  - destruct H as [A B]. assert (A' := IH x A). destruct (trace s x); cbn in *; [|exact Logic.I]. assert (0 < sqrt (ev a x)) by (apply sqrt_lt_R0; assumption). repeat split; try assumption; lra.
  - destruct H as [A B]. assert (A' := IH x A). destruct (trace s x); cbn in *; [|exact Logic.I]. repeat split; try assumption; lra.
  - assert (A' := IH x H). destruct (trace s x); cbn in *; tauto.
  - assert (A' := IH x H). destruct (trace s x); cbn in *; tauto.
  - assert (A' := IH x H). destruct (trace s x); cbn in *; tauto.
  - assert (A' := IH x H). destruct (trace s x); cbn in *; [|exact Logic.I]. repeat split; try assumption. nra.
  - destruct H as (A & B). assert (A' := IH x A). destruct (trace s x); cbn in *; [|exact Logic.I]. repeat split; try assumption. nra.
  - destruct H as (A & B). assert (A' := IH x A). destruct (trace s x); cbn in *; [|exact Logic.I].
    assert (L : 0 < - (ev a x * (ev a x * 1)) + 1) by nra. assert (0 < sqrt (- (ev a x * (ev a x * 1)) + 1)) by (apply sqrt_lt_R0, L). repeat split; try assumption; lra.
  - destruct H as (A & B). assert (A' := IH x A). destruct (trace s x); cbn in *; [|exact Logic.I].
    assert (L : 0 < ev a x * (ev a x * 1) - 1) by nra. assert (0 < sqrt (ev a x * (ev a x * 1) - 1)) by (apply sqrt_lt_R0, L). repeat split; try assumption; lra.
  - destruct H as (A & B & C). assert (A' := IH x A). assert (B' := IH y B).
    assert (N : ev a x * (ev a x * 1) + ev a y * (ev a y * 1) <> 0) by (destruct C; nra).
    destruct (trace s x), (trace s y); cbn in *; tauto.
  - assert (A' := IH x H). destruct (trace s x); cbn in *; [|exact Logic.I]. destruct n; cbn; tauto.
  - destruct H as (A & B & C). assert (A' := IH x A). assert (B' := IH p B). destruct (trace s x), (trace s p); cbn in *; tauto.
  - destruct H as (A & B). assert (A' := IH x A). destruct (trace s x); cbn in *; tauto.
  - destruct H as (A & B). assert (A' := IH x A). destruct (trace s x); cbn in *; [|exact Logic.I]. repeat split; auto.
  - destruct H as (A & B & C & D & E). assert (D' := fun h => IH x (D h)). assert (E' := fun h => IH y (E h)).
    destruct (trace s x), (trace s y); cbn in *; tauto.
  - destruct H as (A & B & C & D). assert (D' := IH y D). destruct (trace s x), (trace s y); cbn in *; tauto.
  - assert (A' := IH x H). destruct (trace s x); cbn in *; tauto.
  - destruct H as (A & B & C & D). cbn. repeat split; try assumption; [|apply IH, D].
    revert C. apply filter_imp. intros p E. exact (f_equal (fun e => or0 (trace s e)) E).
Qed.

Lemma tan_cases (t : option num) r : tval t = Fin r -> t = Some (Fin r) \/ (t = None /\ r = 0).
Proof. destruct t as [d|]; cbn; intros E; [left; congruence|right; split; [reflexivity|]]. injection E; auto. Qed.
(** the traced tangent has the value of the computed one *)
Lemma trace_tan a s : forall e, smooth a e -> tval (snd (jvp a s e)) = Fin (ev a (or0 (trace s e))).
Proof.
  assert (V : forall e, smooth a e -> fst (jvp a s e) = Fin (ev a e)) by (intros e H; apply ok_value, smooth_ok, H).
  fix IH 1. intros [n|r|x y|x y|x y|x y|x|x|x|x|x|x|x|x|x|x|x y|x n|x p|b x|b x|[p q|p q] x y|x|f x y]; cbn [smooth trace]; intros H.
  - cbn. destruct (s n); reflexivity.
  - reflexivity.
  - destruct H as [A B]. cbn. destruct (tan_cases _ _ (IH x A)) as [E|[E Z0]], (tan_cases _ _ (IH y B)) as [F|[F Z1]]; rewrite E, F; destruct (trace s x), (trace s y); cbn in *; f_equal; lra.
  - destruct H as [A B]. cbn. destruct (tan_cases _ _ (IH x A)) as [E|[E Z0]], (tan_cases _ _ (IH y B)) as [F|[F Z1]]; rewrite E, F; destruct (trace s x), (trace s y); cbn in *; f_equal; lra.
  - destruct H as [A B]. cbn. rewrite (V x A), (V y B). destruct (tan_cases _ _ (IH x A)) as [E|[E Z0]], (tan_cases _ _ (IH y B)) as [F|[F Z1]]; rewrite E, F; destruct (trace s x), (trace s y); cbn in *; f_equal; try rewrite Z0; try rewrite Z1; ring.
  - destruct H as (A & B & C). cbn. rewrite (V x A), (V y B). destruct (tan_cases _ _ (IH x A)) as [E|[E Z0]], (tan_cases _ _ (IH y B)) as [F|[F Z1]]; rewrite E, F; destruct (trace s x), (trace s y); cbn in *;
      destruct (Req_EM_T (ev a y) 0); try contradiction; cbn; try (destruct (Req_EM_T (ev a y) 0); try contradiction); cbn; f_equal; try rewrite Z0; try rewrite Z1; field; assumption.
  - cbn. destruct (tan_cases _ _ (IH x H)) as [E|[E Z0]]; rewrite E; destruct (trace s x); cbn in *; f_equal; lra.
  - destruct H as [A B]. cbn. rewrite (V x A). cbn. assert (0 < sqrt (ev a x)) by (apply sqrt_lt_R0; assumption).
    destruct (tan_cases _ _ (IH x A)) as [E|[E Z0]]; rewrite E; destruct (trace s x); cbn in *; destruct (Rlt_dec (ev a x) 0); try lra; cbn;
      try (destruct (Req_EM_T (2 * sqrt (ev a x)) 0); [lra|]); f_equal; try rewrite Z0; field; lra.
  - destruct H as [A B]. cbn. rewrite (V x A). cbn.
    destruct (tan_cases _ _ (IH x A)) as [E|[E Z0]]; rewrite E; destruct (trace s x); cbn in *; 
      try (destruct (Req_EM_T (ev a x) 0); [lra|]); f_equal; try rewrite Z0; field; lra.
  - cbn. rewrite (V x H). destruct (tan_cases _ _ (IH x H)) as [E|[E Z0]]; rewrite E; destruct (trace s x); cbn in *; f_equal; try rewrite Z0; ring.
  - cbn. rewrite (V x H). destruct (tan_cases _ _ (IH x H)) as [E|[E Z0]]; rewrite E; destruct (trace s x); cbn in *; f_equal; try rewrite Z0; ring.
  - cbn. rewrite (V x H). destruct (tan_cases _ _ (IH x H)) as [E|[E Z0]]; rewrite E; destruct (trace s x); cbn in *; f_equal; try rewrite Z0; ring.
  - cbn. rewrite (V x H). assert (N : ev a x * (ev a x * 1) + 1 <> 0) by nra.
    destruct (tan_cases _ _ (IH x H)) as [E|[E Z0]]; rewrite E; destruct (trace s x); cbn in *;
      try (destruct (Req_EM_T (ev a x * (ev a x * 1) + 1) 0); [contradiction|]); f_equal; try rewrite Z0; field; try exact N; nra.
  - destruct H as (A & B). cbn. rewrite (V x A). assert (N : 1 - ev a x * (ev a x * 1) <> 0) by nra.
    destruct (tan_cases _ _ (IH x A)) as [E|[E Z0]]; rewrite E; destruct (trace s x); cbn in *;
      try (destruct (Req_EM_T (1 - ev a x * (ev a x * 1)) 0); [contradiction|]); f_equal; try rewrite Z0; field; nra.
  - destruct H as (A & B). cbn. rewrite (V x A). cbn. assert (L : 0 < - (ev a x * (ev a x * 1)) + 1) by nra. assert (M := sqrt_lt_R0 _ L).
    destruct (tan_cases _ _ (IH x A)) as [E|[E Z0]]; rewrite E; destruct (trace s x); cbn in *;
      try (destruct (Rlt_dec (- (ev a x * (ev a x * 1)) + 1) 0); [lra|]; destruct (Req_EM_T (- (ev a x * (ev a x * 1)) + 1) 0); [lra|]); cbn;
      f_equal; try rewrite Z0; try (field; lra).
  - destruct H as (A & B). cbn. rewrite (V x A). cbn. assert (L : 0 < ev a x * (ev a x * 1) - 1) by nra. assert (M := sqrt_lt_R0 _ L).
    destruct (tan_cases _ _ (IH x A)) as [E|[E Z0]]; rewrite E; destruct (trace s x); cbn in *;
      try (destruct (Rlt_dec (ev a x * (ev a x * 1) - 1) 0); [lra|]; destruct (Req_EM_T (ev a x * (ev a x * 1) - 1) 0); [lra|]); cbn;
      f_equal; try rewrite Z0; try (field; lra).
  - destruct H as (A & B & C). cbn. rewrite (V x A), (V y B). cbn.
    assert (N : ev a x * (ev a x * 1) + ev a y * (ev a y * 1) <> 0) by (destruct C; nra).
    destruct (tan_cases _ _ (IH x A)) as [E|[E Z0]], (tan_cases _ _ (IH y B)) as [F|[F Z1]]; rewrite E, F; destruct (trace s x), (trace s y); cbn in *;
      try (destruct (Req_EM_T (ev a x * (ev a x * 1) + ev a y * (ev a y * 1)) 0); [contradiction|]); f_equal; try rewrite Z0; try rewrite Z1; field; nra.
  - cbn. rewrite (V x H). destruct (tan_cases _ _ (IH x H)) as [E|[E Z0]]; rewrite E; destruct (trace s x); cbn in *; destruct n; cbn [lift1 lift2 nmul npow ev]; f_equal; try rewrite Z0; ring.
  - destruct H as (A & B & C). cbn. rewrite (V x A), (V p B). cbn.
    destruct (tan_cases _ _ (IH x A)) as [E|[E Z0]], (tan_cases _ _ (IH p B)) as [F|[F Z1]]; rewrite E, F; destruct (trace s x), (trace s p); cbn in *;
      destruct (Rlt_dec (ev a x) 0); try lra; destruct (Req_EM_T (ev a x) 0); try lra; cbn; f_equal; try rewrite Z0; try rewrite Z1; ring.
  - destruct H as (A & B). cbn. unfold clamped. rewrite (V x A).
    destruct (Rle_dec b (ev a x)); destruct (tan_cases _ _ (IH x A)) as [E|[E Z0]]; cbn [snd]; rewrite E; destruct (trace s x); cbn in *;
      try (destruct (Rlt_dec (ev a x) b); try lra); f_equal; auto; lra.
  - destruct H as (A & B). cbn. unfold clamped. rewrite (V x A).
    destruct (Rle_dec (ev a x) b); destruct (tan_cases _ _ (IH x A)) as [E|[E Z0]]; cbn [snd]; rewrite E; destruct (trace s x); cbn in *;
      try (destruct (Rlt_dec b (ev a x)); try lra); f_equal; auto; lra.
  - destruct H as (A & B & C & D & E). cbn. rewrite (V p A), (V q B). cbn. unfold ltb. destruct (Rlt_dec (ev a p) (ev a q)) as [L|L].
    + assert (K := IH x (D L)). cbn [select]. destruct (snd (jvp a s x)) as [d|], (snd (jvp a s y)) as [d'|]; cbn in *; rewrite K;
        destruct (trace s x), (trace s y); cbn in *; try (destruct (Rlt_dec (ev a p) (ev a q)); [|contradiction]); reflexivity.
    + assert (L' : ev a q < ev a p) by lra. assert (K := IH y (E L')). cbn [select]. destruct (snd (jvp a s x)) as [d|], (snd (jvp a s y)) as [d'|]; cbn in *; rewrite K;
        destruct (trace s x), (trace s y); cbn in *; try (destruct (Rlt_dec (ev a p) (ev a q)); [contradiction|]); reflexivity.
  - destruct H as (A & B & C & D). cbn. rewrite (V p A), (V q B). cbn. unfold eqb. destruct (Req_EM_T (ev a p) (ev a q)) as [L|L]; [contradiction|].
    assert (K := IH y D). cbn [select]. destruct (snd (jvp a s x)) as [d|], (snd (jvp a s y)) as [d'|]; cbn in *; rewrite K;
        destruct (trace s x), (trace s y); cbn in *; try (destruct (Req_EM_T (ev a p) (ev a q)); [contradiction|]); reflexivity.
  - cbn. rewrite (V x H). destruct (tan_cases _ _ (IH x H)) as [E|[E Z0]]; rewrite E; destruct (trace s x); cbn in *; f_equal; lra.
  - destruct H as (A & B & C & D). cbn [jvp]. rewrite (V x A), (V y B). exact (IH _ D).
Qed.
Lemma trace_derive a s e : smooth a e -> is_derive (fun h => ev (along a s h) e) 0 (ev a (or0 (trace s e))).
Proof.
  intros H. destruct (smooth_ok a s e H) as [d (_ & T & D & _)]. assert (E := trace_tan a s e H). rewrite T in E. injection E as E. rewrite <- E. exact D.
Qed.

(** ** a differentiation inside a differentiation *)
Lemma nested a s1 s2 e : smooth a e -> ad_exact (fun b => Derive (fun u => ev (along b s1 u) e) 0) (or0 (trace s1 e)) a s2.
Proof.
  intros H. apply ad_of_loc; [apply smooth_ok, smooth_trace, H|].
  generalize (smooth_near a s2 e H). apply filter_imp. intros h K. apply is_derive_unique, trace_derive, K.
Qed.
Lemma derive_shift (f : R -> R) x : Derive (fun h => f (x + h)) 0 = Derive f x.
Proof.
  unfold Derive. f_equal. apply Lim_ext. intros h. rewrite (Rplus_0_l h), Rplus_0_r. reflexivity.
Qed.
Lemma along_moved0 b u : along b (unit_seed 0) u = moved b (b 0%nat + u) (b 1%nat).
Proof. apply along_unit0. Qed.
Lemma column0 F t b : (forall b, F b = ev b t) -> Derive (fun u => F (moved b u (b 1%nat))) (b 0%nat) = Derive (fun u => ev (along b (unit_seed 0) u) t) 0.
Proof.
  intros E. rewrite <- (derive_shift (fun u => F (moved b u (b 1%nat)))). apply Derive_ext. intros h. rewrite along_unit0. apply E.
Qed.
Lemma column1 F t b : (forall b, F b = ev b t) -> Derive (fun v => F (moved b (b 0%nat) v)) (b 1%nat) = Derive (fun u => ev (along b (unit_seed 1) u) t) 0.
Proof.
  intros E. rewrite <- (derive_shift (fun u => F (moved b (b 0%nat) u))). apply Derive_ext. intros h. rewrite along_unit1. apply E.
Qed.

(** ** dual numbers *)
Lemma dx_ext F G d a s : (forall b, F b = G b) -> dual_exact F d a s -> dual_exact G d a s.
Proof.
  intros E (t & V & T & D). exists t. rewrite <- E. split; [exact V|]. split; [exact T|]. apply (is_derive_ext (fun h => F (along a s h))); [intros h; apply E|exact D].
Qed.
Lemma dx_ad F t a s : ad_exact F t a s -> dual_exact F (jvp a s t) a s.
Proof. intros H. exact H. Qed.
Lemma dx_cst r a s : dual_exact (fun _ => r) (dcst r) a s.
Proof. exists 0. split; [reflexivity|]. split; [reflexivity|]. apply dv_const. Qed.
Lemma dx_add F G d e a s : dual_exact F d a s -> dual_exact G e a s -> dual_exact (fun b => F b + G b) (dadd d e) a s.
Proof.
  intros (t & V & T & D) (u & W & U & E). exists (t + u). cbn [dadd fst snd]. rewrite V, W. split; [reflexivity|]. split; [|apply dv_plus; assumption].
  destruct (tan_cases _ _ T) as [->|[-> ->]], (tan_cases _ _ U) as [->|[-> ->]]; cbn; f_equal; ring.
Qed.
Lemma dx_sub F G d e a s : dual_exact F d a s -> dual_exact G e a s -> dual_exact (fun b => F b - G b) (dsub d e) a s.
Proof.
  intros (t & V & T & D) (u & W & U & E). exists (t - u). cbn [dsub fst snd]. rewrite V, W. split; [reflexivity|]. split; [|apply dv_minus; assumption].
  destruct (tan_cases _ _ T) as [->|[-> ->]], (tan_cases _ _ U) as [->|[-> ->]]; cbn; f_equal; ring.
Qed.
Lemma dx_mul F G d e a s : dual_exact F d a s -> dual_exact G e a s -> dual_exact (fun b => F b * G b) (dmul d e) a s.
Proof.
  intros (t & V & T & D) (u & W & U & E). exists (t * G a + F a * u). cbn [dmul fst snd]. rewrite V, W. split; [reflexivity|]. split.
  - destruct (tan_cases _ _ T) as [->|[-> ->]], (tan_cases _ _ U) as [->|[-> ->]]; cbn; f_equal; ring.
  - assert (Z : forall n, along a s 0 n = a n) by apply along0. 
    assert (Za : along a s 0 = a) by (apply FunctionalExtensionality.functional_extensionality, Z).
    eapply dv_val; [apply (dv_mult (fun h => F (along a s h)) (fun h => G (along a s h))); [exact D|exact E]|]. rewrite Za. ring.
Qed.
Lemma dx_quot F G e1 e2 h a s : ad_exact F e1 a s -> ad_exact G e2 a s -> h <> 0 -> dual_exact (fun b => (F b - G b) / h) (jvp a s (Div (Sub e1 e2) (Cst h))) a s.
Proof.
  intros (t & V & T & D) (u & W & U & E) N. exists ((t - u) / h). cbn [jvp fst snd]. rewrite V, W. cbn. destruct (Req_EM_T h 0); [contradiction|]. split; [reflexivity|]. split.
  - destruct (tan_cases _ _ T) as [->|[-> ->]], (tan_cases _ _ U) as [->|[-> ->]]; cbn; try (destruct (Req_EM_T h 0); [contradiction|]); cbn; f_equal; field; exact N.
  - apply (is_derive_ext (fun k => / h * (F (along a s k) - G (along a s k)))); [intros k; unfold Rdiv; apply Rmult_comm|].
    apply (dv_val _ _ (/ h * (t - u))); [apply dv_scal, dv_minus; assumption|field; exact N].
Qed.
Lemma dx_gradient1 n h F t k a s : (2 <= n)%nat -> (k < n)%nat -> h <> 0 -> (forall i, (i < n)%nat -> ad_exact (fun b => F b i) (t i) a s) ->
  dual_exact (fun b => gradient1 n h (F b) k) (jvp a s (t_gradient1 n h t k)) a s.
Proof.
  intros Hn Hk N H. unfold gradient1, t_gradient1.
  destruct (Nat.eqb k 0) eqn:E0; [apply dx_quot; [apply H; lia|apply H; lia|exact N]|].
  apply Nat.eqb_neq in E0. destruct (Nat.eqb k (n - 1)) eqn:E1; [apply dx_quot; [apply H; lia|apply H; lia|exact N]|].
  apply Nat.eqb_neq in E1. apply dx_quot; [apply H; lia|apply H; lia|lra].
Qed.
Lemma dx_eye_minus M J a s : dual_exact_mat M J a s -> dual_exact_mat (fun b => mat2_sub eye2 (M b)) (eye_minus J) a s.
Proof. intros (A & B & C & D). repeat split; cbn -[dsub dcst]; apply dx_sub; try apply dx_cst; assumption. Qed.
Lemma dx_shear M J a s : dual_exact_mat M J a s ->
  dual_exact (fun b => fst (shear_of_jacobian (M b))) (fst (d_shear J)) a s /\ dual_exact (fun b => snd (shear_of_jacobian (M b))) (snd (d_shear J)) a s.
Proof.
  intros (A & B & C & D). unfold shear_of_jacobian, d_shear. cbn [fst snd m00 m01 m10 m11].
  split; repeat (apply dx_mul || apply dx_sub || apply dx_add || apply dx_cst || assumption).
Qed.
Lemma dx_conv M J a s : dual_exact_mat M J a s ->
  dual_exact (fun b => effective_convergence_div (M b)) (d_effective_convergence_div J) a s /\ dual_exact (fun b => effective_convergence_curl (M b)) (d_effective_convergence_curl J) a s.
Proof.
  intros (A & B & C & D). split; unfold effective_convergence_div, effective_convergence_curl, d_effective_convergence_div, d_effective_convergence_curl;
  repeat (apply dx_mul || apply dx_sub || apply dx_add || apply dx_cst || assumption).
Qed.
(** ** the Jacobian of the deflection *)
Section Lens.
Variables (F : (nat -> R) -> R * R) (t : expr * expr) (a : nat -> R) (s : nat -> option R).
Hypothesis HF : computes F t.
Hypothesis H1 : smooth a (fst t).
Hypothesis H2 : smooth a (snd t).
Lemma HF1 b : fst (F b) = ev b (fst t). Proof. rewrite HF. reflexivity. Qed.
Lemma HF2 b : snd (F b) = ev b (snd t). Proof. rewrite HF. reflexivity. Qed.
Lemma deflection_jacobian_ad : dual_exact_mat (deflection_jacobian F) (d_jacobian_deflection_autograd t a s) a s.
Proof.
  unfold d_jacobian_deflection_autograd, run, t_jacfwd, dual_exact_mat. cbn [fst snd]. unfold deflection_jacobian, jacfwd, at_position. cbn [m00 m01 m10 m11].
  repeat split.
  - apply (dx_ext _ _ _ _ _ (fun b => eq_sym (column0 _ _ b HF1))), dx_ad, nested, H1.
  - apply (dx_ext _ _ _ _ _ (fun b => eq_sym (column1 _ _ b HF1))), dx_ad, nested, H1.
  - apply (dx_ext _ _ _ _ _ (fun b => eq_sym (column0 _ _ b HF2))), dx_ad, nested, H2.
  - apply (dx_ext _ _ _ _ _ (fun b => eq_sym (column1 _ _ b HF2))), dx_ad, nested, H2.
Qed.
Lemma lens_jacobian_values : values (d_jacobian_lens_equation_autograd t a s) (lens_jacobian F a).
Proof.
  destruct deflection_jacobian_ad as ((t1 & V1 & _) & (t2 & V2 & _) & (t3 & V3 & _) & (t4 & V4 & _)).
  unfold values, d_jacobian_lens_equation_autograd, eye_minus, dmap, detach, dsub, dcst. cbn [fst snd]. rewrite V1, V2, V3, V4. cbn. repeat split.
Qed.
End Lens.
Lemma lens_jacobian_no_tangent t a s : no_tangent (d_jacobian_lens_equation_autograd t a s).
Proof. repeat split. Qed.
Lemma shear_no_tangent t a s : snd (fst (d_shear (d_jacobian_lens_equation_autograd t a s))) = None /\ snd (snd (d_shear (d_jacobian_lens_equation_autograd t a s))) = None.
Proof. split; reflexivity. Qed.
