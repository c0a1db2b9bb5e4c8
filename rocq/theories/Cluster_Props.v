(** * C15: cluster_means *)
From Coq Require Import Reals List Lia Lra.
From Verif Require Import Py Cluster_Model Cluster_Proofs.
Import ListNotations.
Local Open Scope R_scope.

(** REFUTED: the returned means need not be distinct although the input points are: the position of the new mean among the
    points not yet selected is recorded as if it were its position in the input.  However ties are resolved. *)
Theorem C15_distinct_refuted : forall argmax argmin, is_argmax argmax -> is_argmin argmin ->
  exists first xs k means, (first < length xs)%nat /\ (1 <= k <= length xs)%nat /\ NoDup xs /\
    cluster_means argmax argmin first xs k = Ok means /\ ~ NoDup means.
Proof. exact not_distinct. Qed.
Print Assumptions C15_distinct_refuted.
(** what holds: k points of the input, the first being the randomly chosen one *)
Theorem C15_members_partial : forall argmax argmin, is_argmax argmax -> is_argmin argmin -> forall first xs k,
  (first < length xs)%nat -> (1 <= k <= length xs)%nat ->
  exists means, cluster_means argmax argmin first xs k = Ok means /\ length means = k /\
    (forall m, In m means -> In m xs) /\ nth 0 means [] = nth first xs [].
Proof. intros argmax argmin H1 H2. exact (cluster_members argmax argmin H1). Qed.
Print Assumptions C15_members_partial.
(** and for k = 2 the two means are distinct and the second is the farthest from the first *)
Theorem C15_two_partial : forall argmax argmin, is_argmax argmax -> is_argmin argmin -> forall first xs,
  (first < length xs)%nat -> (2 <= length xs)%nat -> NoDup xs ->
  exists a b, cluster_means argmax argmin first xs 2 = Ok [a; b] /\ a <> b /\ In a xs /\ In b xs /\
    forall x, In x xs -> x <> a -> d2 x a <= d2 b a.
Proof. exact cluster_two. Qed.
Print Assumptions C15_two_partial.
(** the position of the first largest element is an argmax *)
Example C15_hyps : is_argmax (best (fun a b => rltb b a)) /\ is_argmin (best (fun a b => rltb a b)) /\
  (0 < length xs3)%nat /\ (1 <= 3 <= length xs3)%nat /\ NoDup xs3.
Proof.
  split; [exact best_max|]. split; [exact best_min|]. split; [cbn; lia|]. split; [cbn; lia|].
  constructor; [intros [E|[E|[]]]; injection E; lra|]. constructor; [intros [E|[]]; injection E; lra|].
  constructor; [intros []|constructor].
Qed.
