(** * Proofs about cluster_means *)
From Coq Require Import Reals List Arith Lia Lra.
From Verif Require Import Py Cluster_Model.
Import ListNotations.
Local Open Scope R_scope.

(** what argmax and argmin promise *)
Definition is_argmax (am : list R -> nat) : Prop :=
  forall l, l <> [] -> (am l < length l)%nat /\ forall i, (i < length l)%nat -> nth i l 0 <= nth (am l) l 0.
Definition is_argmin (am : list R -> nat) : Prop :=
  forall l, l <> [] -> (am l < length l)%nat /\ forall i, (i < length l)%nat -> nth (am l) l 0 <= nth i l 0.

(** the first position of an extreme value *)
Fixpoint best (better : R -> R -> bool) (l : list R) : nat :=
  match l with
  | [] => 0
  | a :: t => match t with [] => 0 | _ => if better (nth (best better t) t 0) a then S (best better t) else 0 end
  end.
Definition rltb (a b : R) : bool := if Rlt_dec a b then true else false.
Lemma best_max : is_argmax (best (fun a b => rltb b a)).
Proof.
  intros l H. induction l as [|a t IH]; [contradiction|]. destruct t as [|b t].
  - cbn. split; [lia|]. intros [|i] Hi; [lra|cbn in Hi; lia].
  - destruct (IH ltac:(discriminate)) as [I1 I2]. set (u := b :: t) in *. cbn [best]. fold u.
    assert (E : best (fun a0 b0 => rltb b0 a0) (a :: u) = if rltb a (nth (best (fun a0 b0 => rltb b0 a0) u) u 0) then S (best (fun a0 b0 => rltb b0 a0) u) else 0%nat) by reflexivity.
    cbn [best] in E. rewrite E. set (m := best (fun a0 b0 => rltb b0 a0) u) in *. unfold rltb. destruct (Rlt_dec a (nth m u 0)) as [L|L].
    + split; [cbn [length]; lia|]. intros [|i] Hi; cbn [nth]; [lra|]. apply I2. cbn [length] in Hi. lia.
    + split; [cbn [length]; lia|]. intros [|i] Hi; cbn [nth]; [lra|]. cbn [length] in Hi. specialize (I2 i ltac:(lia)). lra.
Qed.
Lemma best_min : is_argmin (best (fun a b => rltb a b)).
Proof.
  intros l H. induction l as [|a t IH]; [contradiction|]. destruct t as [|b t].
  - cbn. split; [lia|]. intros [|i] Hi; [lra|cbn in Hi; lia].
  - destruct (IH ltac:(discriminate)) as [I1 I2]. set (u := b :: t) in *. cbn [best]. fold u.
    assert (E : best (fun a0 b0 => rltb a0 b0) (a :: u) = if rltb (nth (best (fun a0 b0 => rltb a0 b0) u) u 0) a then S (best (fun a0 b0 => rltb a0 b0) u) else 0%nat) by reflexivity.
    cbn [best] in E. rewrite E. set (m := best (fun a0 b0 => rltb a0 b0) u) in *. unfold rltb. destruct (Rlt_dec (nth m u 0) a) as [L|L].
    + split; [cbn [length]; lia|]. intros [|i] Hi; cbn [nth]; [lra|]. apply I2. cbn [length] in Hi. lia.
    + split; [cbn [length]; lia|]. intros [|i] Hi; cbn [nth]; [lra|]. cbn [length] in Hi. specialize (I2 i ltac:(lia)). lra.
Qed.

(** ** the unselected points *)
Lemma in_enumerate {A} (l : list A) d i x : In (i, x) (enumerate l) <-> (i < length l)%nat /\ nth i l d = x.
Proof.
  unfold enumerate. 
  assert (G : forall off, In (i, x) (combine (seq off (length l)) l) <-> (off <= i < off + length l)%nat /\ nth (i - off) l d = x).
  { revert i. induction l as [|a t IH]; intros i off; cbn [length seq combine]; [split; [intros []|lia]|].
    cbn [In]. rewrite IH. split.
    - intros [E|[H1 H2]].
      + injection E as <- <-. rewrite Nat.sub_diag. split; [lia|reflexivity].
      + split; [lia|]. replace (i - off)%nat with (S (i - S off)) by lia. exact H2.
    - intros [H1 H2]. destruct (Nat.eq_dec i off) as [->|D].
      + left. rewrite Nat.sub_diag in H2. cbn in H2. rewrite H2. reflexivity.
      + right. split; [lia|]. replace (i - off)%nat with (S (i - S off)) in H2 by lia. exact H2. }
  rewrite G, Nat.sub_0_r. intuition lia.
Qed.
Lemma in_unselected xs idxs p : In p (unselected xs idxs) <-> exists i, (i < length xs)%nat /\ ~ In i idxs /\ nth i xs [] = p.
Proof.
  unfold unselected. rewrite in_map_iff. split.
  - intros ([i x] & <- & H). apply filter_In in H. destruct H as [H1 H2]. apply (in_enumerate xs []) in H1.
    exists i. split; [apply H1|]. split; [|apply H1]. cbn in H2. intros I. apply Bool.negb_true_iff in H2.
    assert (X : existsb (Nat.eqb i) idxs = true) by (apply existsb_exists; exists i; split; [exact I|apply Nat.eqb_refl]). congruence.
  - intros (i & Hi & Hn & <-). exists (i, nth i xs []). split; [reflexivity|]. apply filter_In. split.
    + apply (in_enumerate xs []). auto.
    + cbn. apply Bool.negb_true_iff. destruct (existsb (Nat.eqb i) idxs) eqn:E; [|reflexivity].
      apply existsb_exists in E. destruct E as (j & Hj & E). apply Nat.eqb_eq in E. subst j. contradiction.
Qed.
Lemma unselected_nonempty xs idxs : (length idxs < length xs)%nat -> unselected xs idxs <> [].
Proof.
  intros H E.
  assert (I : incl (seq 0 (length xs)) idxs).
  { intros i Hi. apply in_seq in Hi. destruct (in_dec Nat.eq_dec i idxs) as [Y|N]; [exact Y|].
    assert (X : In (nth i xs []) (unselected xs idxs)) by (apply in_unselected; exists i; split; [lia|auto]).
    rewrite E in X. destruct X. }
  apply NoDup_incl_length in I; [|apply seq_NoDup]. rewrite seq_length in I. lia.
Qed.

Section Facts.
Variables (argmax argmin : list R -> nat).
Hypotheses (Hmax : is_argmax argmax) (Hmin : is_argmin argmin).

Lemma pass_ok xs idxs means : (length idxs < length xs)%nat ->
  exists i p, cluster_pass argmax argmin xs (idxs, means) = Ok (idxs ++ [i], means ++ [p]) /\ In p (unselected xs idxs) /\
    forall x, In x (unselected xs idxs) -> d2_closest argmin means x <= d2_closest argmin means p.
Proof.
  intros H. assert (NE := unselected_nonempty xs idxs H). unfold cluster_pass.
  set (un := unselected xs idxs) in *. set (d := map (d2_closest argmin means) un).
  assert (NEd : d <> []) by (intros E; apply map_eq_nil in E; contradiction).
  destruct (Hmax d NEd) as [M1 M2]. assert (Ld : length d = length un) by apply map_length.
  exists (argmax d), (nth (argmax d) un []). split; [destruct un; [contradiction|reflexivity]|].
  split; [apply nth_In; lia|]. intros x Hx. destruct (In_nth un x [] Hx) as (i & Hi & <-).
  specialize (M2 i ltac:(lia)).
  assert (V : forall i, (i < length un)%nat -> nth i d 0 = d2_closest argmin means (nth i un [])).
  { intros k Hk. unfold d. rewrite (nth_indep _ 0 (d2_closest argmin means [])) by (rewrite map_length; exact Hk). apply map_nth. }
  rewrite !V in M2 by lia. exact M2.
Qed.
Lemma loop_ok xs n : forall idxs means, (length idxs + n <= length xs)%nat -> length idxs = length means ->
  (forall m, In m means -> In m xs) ->
  exists idxs' means', cluster_loop argmax argmin n xs (idxs, means) = Ok (idxs', means ++ means') /\ length means' = n /\
    forall m, In m means' -> In m xs.
Proof.
  induction n as [|n IH]; intros idxs means H1 H2 H3.
  - exists idxs, []. rewrite app_nil_r. split; [reflexivity|]. split; [reflexivity|]. intros m [].
  - cbn [cluster_loop]. destruct (pass_ok xs idxs means ltac:(lia)) as (i & p & -> & Hp & _). cbn [bind].
    assert (Ip : In p xs). { apply in_unselected in Hp. destruct Hp as (k & Hk & _ & <-). apply nth_In, Hk. }
    destruct (IH (idxs ++ [i]) (means ++ [p])) as (idxs' & means' & E & L & I).
    + rewrite app_length. cbn. lia.
    + rewrite !app_length. cbn. lia.
    + intros m Hm. apply in_app_or in Hm. destruct Hm as [Hm|[<-|[]]]; auto.
    + exists idxs', (p :: means'). rewrite E, <- app_assoc. cbn. split; [reflexivity|]. split; [lia|].
      intros m [<-|Hm]; auto.
Qed.
Lemma cluster_members first xs k : (first < length xs)%nat -> (1 <= k <= length xs)%nat ->
  exists means, cluster_means argmax argmin first xs k = Ok means /\ length means = k /\
    (forall m, In m means -> In m xs) /\ nth 0 means [] = nth first xs [].
Proof.
  intros Hf Hk. unfold cluster_means. destruct xs as [|a t]; [cbn in Hf; lia|]. set (xs := a :: t) in *.
  destruct (loop_ok xs (k - 1) [first] [nth first xs []]) as (idxs' & means' & E & L & I).
  - cbn. cbn in Hk. lia.
  - reflexivity.
  - intros m [<-|[]]. apply nth_In, Hf.
  - rewrite E. cbn [bind snd]. eexists. split; [reflexivity|]. split; [cbn; lia|]. split; [|reflexivity].
    intros m Hm. apply in_app_or in Hm. destruct Hm as [[<-|[]]|Hm]; [apply nth_In, Hf|auto].
Qed.
Lemma d2_closest_one m x : d2_closest argmin [m] x = d2 x m.
Proof.
  unfold d2_closest. cbn [map]. destruct (Hmin [d2 x m] ltac:(discriminate)) as [H _]. cbn in H.
  replace (argmin [d2 x m]) with 0%nat by lia. reflexivity.
Qed.
Lemma cluster_two first xs : (first < length xs)%nat -> (2 <= length xs)%nat -> NoDup xs ->
  exists a b, cluster_means argmax argmin first xs 2 = Ok [a; b] /\ a <> b /\ In a xs /\ In b xs /\
    forall x, In x xs -> x <> a -> d2 x a <= d2 b a.
Proof.
  intros Hf Hl ND. unfold cluster_means. destruct xs as [|a0 t]; [cbn in Hf; lia|]. set (xs := a0 :: t) in *.
  set (a := nth first xs []). cbn [Nat.sub cluster_loop].
  destruct (pass_ok xs [first] [a] ltac:(cbn [length]; lia)) as (i & b & -> & Hb & M). cbn [bind snd app].
  exists a, b. split; [reflexivity|]. assert (Hb' := Hb). apply in_unselected in Hb'. destruct Hb' as (j & Hj & Nj & Ej).
  split; [|split; [apply nth_In, Hf|]].
  - intros E. apply Nj. left. apply (proj1 (NoDup_nth xs []) ND); try assumption. unfold a in E. congruence.
  - split; [rewrite <- Ej; apply nth_In, Hj|]. intros x Hx Hxa. specialize (M x). rewrite !d2_closest_one in M. apply M.
    apply in_unselected. destruct (In_nth xs x [] Hx) as (k & Hk & Ek). exists k. split; [exact Hk|]. split; [|exact Ek].
    intros [E|[]]. subst k. apply Hxa. symmetry. exact Ek.
Qed.
Definition xs3 : list point := [[0]; [5]; [10]].
Lemma cluster_repeats : cluster_means argmax argmin 0 xs3 3 = Ok [[0]; [10]; [10]].
Proof.
  assert (P : cluster_pass argmax argmin xs3 ([0%nat], [[0]]) = Ok ([0%nat; 1%nat], [[0]; [10]])).
  { unfold cluster_pass. change (unselected xs3 [0%nat]) with [[5]; [10]]. cbn [map].
    rewrite !d2_closest_one.
    assert (E5 : d2 [5] [0] = 25) by (unfold d2; cbn; ring). assert (E10 : d2 [10] [0] = 100) by (unfold d2; cbn; ring).
    rewrite E5, E10. destruct (Hmax [25; 100] ltac:(discriminate)) as [A1 A2]. cbn [length] in A1, A2.
    specialize (A2 1%nat ltac:(lia)). destruct (argmax [25; 100]) as [|[|n]]; [cbn in A2; lra|reflexivity|lia]. }
  assert (Q : cluster_pass argmax argmin xs3 ([0%nat; 1%nat], [[0]; [10]]) = Ok ([0%nat; 1%nat; 0%nat], [[0]; [10]; [10]])).
  { unfold cluster_pass. change (unselected xs3 [0%nat; 1%nat]) with [[10]]. cbn [map].
    set (v := d2_closest argmin [[0]; [10]] [10]). destruct (Hmax [v] ltac:(discriminate)) as [A1 _]. cbn [length] in A1.
    replace (argmax [v]) with 0%nat by lia. reflexivity. }
  change (cluster_means argmax argmin 0 xs3 3) with
    (bind (bind (cluster_pass argmax argmin xs3 ([0%nat], [[0]])) (cluster_loop argmax argmin 1 xs3)) (fun st => Ok (snd st))).
  rewrite P. cbn [bind].
  change (cluster_loop argmax argmin 1 xs3 ([0%nat; 1%nat], [[0]; [10]])) with
    (bind (cluster_pass argmax argmin xs3 ([0%nat; 1%nat], [[0]; [10]])) (cluster_loop argmax argmin 0 xs3)).
  rewrite Q. reflexivity.
Qed.
End Facts.

Lemma not_distinct argmax argmin : is_argmax argmax -> is_argmin argmin ->
  exists first xs k means, (first < length xs)%nat /\ (1 <= k <= length xs)%nat /\ NoDup xs /\
    cluster_means argmax argmin first xs k = Ok means /\ ~ NoDup means.
Proof.
  intros Hmax Hmin. exists 0%nat, xs3, 3%nat, [[0]; [10]; [10]].
  split; [cbn; lia|]. split; [cbn; lia|]. split; [|split; [apply cluster_repeats; assumption|]].
  - assert (N1 : [0] <> [5]) by (intros E; injection E; lra). assert (N2 : [0] <> [10]) by (intros E; injection E; lra).
    assert (N3 : [5] <> [10]) by (intros E; injection E; lra).
    constructor; [intros [E|[E|[]]]; congruence|]. constructor; [intros [E|[]]; congruence|].
    constructor; [intros []|constructor].
  - intros H. inversion H as [|? ? _ H2]; subst. inversion H2 as [|? ? N _]; subst. apply N. left. reflexivity.
Qed.
