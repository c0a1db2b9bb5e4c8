(** * Proofs about duplicate removal and the image search *)
From Coq Require Import Reals List Arith Lia Lra ZArith Psatz.
From Verif Require Import Py Fsum LM_Model Gauss_Model Tri_Model Tri_Spec Tri_Proofs.
Import ListNotations.
Local Open Scope R_scope.

(** ** duplicate removal *)
Section Keep.
Context {A : Type} (near : A -> A -> bool).
Definition kstep (u : list A) (x : A) := if existsb (near x) u then u else u ++ [x].
Lemma existsb_false (f : A -> bool) l : existsb f l = false <-> forall x, In x l -> f x = false.
Proof.
  split.
  - intros H x Hx. destruct (f x) eqn:E; [|reflexivity]. assert (existsb f l = true) by (apply existsb_exists; eauto). congruence.
  - intros H. destruct (existsb f l) eqn:E; [|reflexivity]. apply existsb_exists in E. destruct E as (x & Hx & E). rewrite (H x Hx) in E. discriminate.
Qed.
Lemma sublist_refl (l : list A) : sublist l l.
Proof. induction l; constructor; assumption. Qed.
Lemma sublist_app (l m l' m' : list A) : sublist l m -> sublist l' m' -> sublist (l ++ l') (m ++ m').
Proof. intros H H'. induction H; cbn; [assumption|constructor; assumption|constructor; assumption]. Qed.
Lemma sublist_in (l m : list A) x : sublist l m -> In x l -> In x m.
Proof. intros H. induction H; intros I; [exact I|destruct I as [<-|I]; [left; reflexivity|right; auto]|right; auto]. Qed.
Lemma keep_snoc l x : keep near (l ++ [x]) = kstep (keep near l) x.
Proof. unfold keep. rewrite fold_left_app. reflexivity. Qed.
Lemma keep_sublist l : sublist (keep near l) l.
Proof.
  induction l as [|x l IH] using rev_ind; [constructor|]. rewrite keep_snoc. unfold kstep. destruct (existsb _ _).
  - rewrite <- (app_nil_r (keep near l)). apply sublist_app; [exact IH|constructor; constructor].
  - apply sublist_app; [exact IH|apply sublist_refl].
Qed.
(** a later kept entry is not near an earlier one *)
Fixpoint apart (l : list A) : Prop := match l with [] => True | x :: t => (forall y, In y t -> near y x = false) /\ apart t end.
Lemma apart_snoc l x : apart l -> (forall y, In y l -> near x y = false) -> apart (l ++ [x]).
Proof.
  induction l as [|a t IH]; intros H1 H2; cbn; [split; [intros y []|exact I]|]. destruct H1 as [H1 H1'].
  split; [|apply IH; [exact H1'|intros; apply H2; right; assumption]].
  intros y Hy. apply in_app_or in Hy. destruct Hy as [Hy|[<-|[]]]; [apply H1, Hy|apply H2; left; reflexivity].
Qed.
Lemma keep_apart l : apart (keep near l).
Proof.
  induction l as [|x l IH] using rev_ind; [exact I|]. rewrite keep_snoc. unfold kstep. destruct (existsb _ _) eqn:E; [exact IH|].
  apply apart_snoc; [exact IH|]. apply existsb_false, E.
Qed.
Lemma keep_covers l x : In x l -> In x (keep near l) \/ exists y, In y (keep near l) /\ near x y = true.
Proof.
  induction l as [|a l IH] using rev_ind; intros H; [destruct H|]. rewrite keep_snoc. unfold kstep.
  apply in_app_or in H. destruct (existsb (near a) (keep near l)) eqn:E.
  - destruct H as [H|[<-|[]]]; [apply IH, H|]. right. apply existsb_exists in E. exact E.
  - destruct H as [H|[<-|[]]].
    + destruct (IH H) as [K|(y & K & N)]; [left; apply in_or_app; left; exact K|right; exists y; split; [apply in_or_app; left; exact K|exact N]].
    + left. apply in_or_app. right. left. reflexivity.
Qed.
Lemma keep_apart_id l : apart l -> keep near l = l.
Proof.
  induction l as [|x l IH] using rev_ind; intros H; [reflexivity|].
  assert (S : apart l /\ forall y, In y l -> near x y = false).
  { clear IH. induction l as [|a t IH]; [split; [exact I|intros y []]|]. cbn in H. destruct H as [H1 H2]. destruct (IH H2) as [I1 I2].
    split; [split; [intros y Hy; apply H1, in_or_app; left; exact Hy|exact I1]|].
    intros y [<-|Hy]; [apply H1, in_or_app; right; left; reflexivity|apply I2, Hy]. }
  rewrite keep_snoc, (IH (proj1 S)). unfold kstep. rewrite (proj2 (existsb_false (near x) l) (proj2 S)). reflexivity.
Qed.
Lemma keep_idem l : keep near (keep near l) = keep near l.
Proof. apply keep_apart_id, keep_apart. Qed.
Lemma keep_first x l : exists t, keep near (x :: l) = x :: t.
Proof.
  induction l as [|a l IH] using rev_ind; [exists []; reflexivity|].
  change (x :: l ++ [a]) with ((x :: l) ++ [a]). rewrite keep_snoc. destruct IH as [t ->]. unfold kstep.
  destruct (existsb _ _); [exists t; reflexivity|exists (t ++ [a]); reflexivity].
Qed.
Lemma apart_nth l d i j : (forall x y, near x y = near y x) -> apart l -> (i < length l)%nat -> (j < length l)%nat -> i <> j -> near (nth i l d) (nth j l d) = false.
Proof.
  intros S. revert i j. induction l as [|a t IH]; intros i j H Hi Hj D; [cbn in Hi; lia|]. destruct H as [H1 H2]. cbn [length] in Hi, Hj.
  destruct i as [|i], j as [|j]; cbn [nth]; [congruence| | |].
  - rewrite S. apply H1, nth_In. lia.
  - apply H1, nth_In. lia.
  - apply IH; try assumption; lia.
Qed.
End Keep.

Lemma distance_norm a b : norm2 (psub a b) = distance a b.
Proof. reflexivity. Qed.
Lemma distance_sym a b : distance a b = distance b a.
Proof. unfold distance. f_equal. ring. Qed.
Lemma dedup_points x epsilon :
  sublist (remove_duplicate_points x epsilon) x /\
  (forall a t, x = a :: t -> exists t', remove_duplicate_points x epsilon = a :: t') /\
  (forall i j, (i < length (remove_duplicate_points x epsilon))%nat -> (j < length (remove_duplicate_points x epsilon))%nat -> i <> j ->
     epsilon <= distance (nth i (remove_duplicate_points x epsilon) (0, 0)) (nth j (remove_duplicate_points x epsilon) (0, 0))) /\
  (forall a, In a x -> In a (remove_duplicate_points x epsilon) \/ exists b, In b (remove_duplicate_points x epsilon) /\ distance a b < epsilon) /\
  remove_duplicate_points (remove_duplicate_points x epsilon) epsilon = remove_duplicate_points x epsilon.
Proof.
  unfold remove_duplicate_points. set (near := fun a b => rlt (norm2 (psub a b)) epsilon).
  assert (S : forall a b, near a b = near b a) by (intros a b; unfold near; rewrite !distance_norm, distance_sym; reflexivity).
  split; [apply keep_sublist|]. split; [intros a t ->; apply keep_first|]. split; [|split; [|apply keep_idem]].
  - intros i j Hi Hj D. assert (H := apart_nth near (keep near x) (0, 0) i j S (keep_apart near x) Hi Hj D).
    unfold near in H at 1. apply rlt_false in H. rewrite distance_norm in H. exact H.
  - intros a Ha. destruct (keep_covers near x a Ha) as [H|(b & Hb & H)]; [left; exact H|right; exists b; split; [exact Hb|]].
    unfold near in H. apply rlt_true in H. exact H.
Qed.
Lemma triangle_equals_iff p q : triangle_equals p q = true <-> same_within (1 / 10 ^ 6) p q.
Proof.
  destruct p as [[p0 p1] p2], q as [[q0 q1] q2]. unfold triangle_equals, close_pt, same_within.
  rewrite !Bool.andb_true_iff, !rlt_true. tauto.
Qed.
Lemma same_within_sym tol p q : same_within tol p q -> same_within tol q p.
Proof.
  destruct p as [[p0 p1] p2], q as [[q0 q1] q2]. unfold same_within. intros (H1 & H2 & H3 & H4 & H5 & H6).
  rewrite Rabs_minus_sym in H1, H2, H3, H4, H5, H6. tauto.
Qed.
Lemma dedup_triangles l d :
  sublist (remove_triangle_duplicates l) l /\
  (forall a t, l = a :: t -> exists t', remove_triangle_duplicates l = a :: t') /\
  (forall i j, (i < length (remove_triangle_duplicates l))%nat -> (j < length (remove_triangle_duplicates l))%nat -> i <> j ->
     ~ same_within (1 / 10 ^ 6) (nth i (remove_triangle_duplicates l) d) (nth j (remove_triangle_duplicates l) d)) /\
  (forall a, In a l -> In a (remove_triangle_duplicates l) \/ exists b, In b (remove_triangle_duplicates l) /\ same_within (1 / 10 ^ 6) a b) /\
  remove_triangle_duplicates (remove_triangle_duplicates l) = remove_triangle_duplicates l.
Proof.
  unfold remove_triangle_duplicates.
  assert (S : forall a b, triangle_equals a b = triangle_equals b a).
  { intros a b. destruct (triangle_equals a b) eqn:E, (triangle_equals b a) eqn:F; try reflexivity.
    - apply triangle_equals_iff, same_within_sym, triangle_equals_iff in E. congruence.
    - apply triangle_equals_iff, same_within_sym, triangle_equals_iff in F. congruence. }
  split; [apply keep_sublist|]. split; [intros a t ->; apply keep_first|]. split; [|split; [|apply keep_idem]].
  - intros i j Hi Hj D H. apply triangle_equals_iff in H.
    rewrite (apart_nth triangle_equals _ d i j S (keep_apart triangle_equals l) Hi Hj D) in H. discriminate.
  - intros a Ha. destruct (keep_covers triangle_equals l a Ha) as [H|(b & Hb & H)]; [left; exact H|right; exists b; split; [exact Hb|]].
    apply triangle_equals_iff, H.
Qed.

(** ** what forward_raytrace returns *)
Section Result.
Variables (raytrace : pt -> pt) (rootfind : pt -> list pt -> result (list pt)) (s : pt) (epsilon : R).
Definition good (e : pt) : Prop :=
  Rabs (fst (raytrace e) - fst s) <= epsilon + 1 / 10 ^ 5 * Rabs (fst s) /\ Rabs (snd (raytrace e) - snd s) <= epsilon + 1 / 10 ^ 5 * Rabs (snd s).
Lemma distance_components a b : Rabs (fst a - fst b) <= distance a b /\ Rabs (snd a - snd b) <= distance a b.
Proof.
  unfold distance. split; rewrite <- sqrt_Rsqr_abs; apply sqrt_le_1_alt; unfold Rsqr;
    [assert (H := pow2_ge_0 (snd a - snd b))|assert (H := pow2_ge_0 (fst a - fst b))]; cbn [pow] in *; lra.
Qed.
Lemma search_good left : forall first E Emid r, search raytrace rootfind s epsilon left first E Emid = Ok (Some r) ->
  (forall l, Emid = Some l -> forall e, In e l -> good e) -> forall e, In e r -> good e.
Proof.
  induction left as [|left IH]; intros first E Emid r H HE e He; cbn [search] in H; cbv zeta in H.
  all: destruct (locate raytrace s (if first then E else refine E)) as [|p t] eqn:EL; [discriminate|].
  all: destruct (rlt (triangle_area p) (epsilon ^ 2)).
  all: cbn [bind] in H.
  1,3: destruct (rootfind s (map centroid (p :: t))) as [Emid1|]; cbn [bind] in H; [|discriminate].
  1,2: destruct (negb (length Emid1 =? length (p :: t))%nat); [discriminate|].
  1,2: destruct (all_inside (p :: t) Emid1 && allclose (map raytrace Emid1) s epsilon)%bool eqn:EA; cbn [bind] in H.
  - injection H as <-. apply andb_prop in EA. destruct EA as [_ EA]. unfold allclose in EA. rewrite forallb_forall in EA.
    specialize (EA (raytrace e) (in_map _ _ _ He)). apply andb_prop in EA. destruct EA as [E1 E2].
    destruct (Rle_dec _ _) as [L1|] in E1; [|discriminate]. destruct (Rle_dec _ _) as [L2|] in E2; [|discriminate]. split; assumption.
  - injection H as <-. apply filter_In in He. destruct He as [_ He]. apply rlt_true in He. rewrite distance_norm in He.
    destruct (distance_components (raytrace e) s) as [D1 D2]. assert (P1 := Rabs_pos (fst s)). assert (P2 := Rabs_pos (snd s)). split; lra.
  - injection H as <-. apply andb_prop in EA. destruct EA as [_ EA]. unfold allclose in EA. rewrite forallb_forall in EA.
    specialize (EA (raytrace e) (in_map _ _ _ He)). apply andb_prop in EA. destruct EA as [E1 E2].
    destruct (Rle_dec _ _) as [L1|] in E1; [|discriminate]. destruct (Rle_dec _ _) as [L2|] in E2; [|discriminate]. split; assumption.
  - eapply IH; [exact H| |exact He]. intros l El. injection El as <-. intros e' He'. apply filter_In in He'. destruct He' as [_ He']. apply rlt_true in He'. rewrite distance_norm in He'.
    destruct (distance_components (raytrace e') s) as [D1 D2]. assert (P1 := Rabs_pos (fst s)). assert (P2 := Rabs_pos (snd s)). split; lra.
  - injection H as ->. apply (HE r eq_refl e He).
  - eapply IH; [exact H|exact HE|exact He].
Qed.
Lemma forward_good x0 y0 fov n max_depth r : forward_raytrace raytrace rootfind s epsilon x0 y0 fov n max_depth = Ok r ->
  (forall e, In e r -> good e) /\
  (forall i j, (i < length r)%nat -> (j < length r)%nat -> i <> j -> epsilon <= distance (nth i r (0, 0)) (nth j r (0, 0))).
Proof.
  unfold forward_raytrace. destruct (search _ _ _ _ _ _ _ _) as [[l|]|] eqn:E; cbn [bind]; try discriminate. intros H. injection H as <-.
  destruct (dedup_points l epsilon) as (S & _ & D & _). split; [|exact D].
  intros e He. apply (search_good _ _ _ _ _ E); [discriminate|]. eapply sublist_in; [exact S|exact He].
Qed.
(** ** the search goes on as long as some triangle contains the source *)
Fixpoint stage (x0 y0 fov : R) (n : nat) (depth : nat) : list tri :=
  match depth with
  | O => locate raytrace s (initial_triangles x0 y0 fov n)
  | S d => locate raytrace s (refine (stage x0 y0 fov n d))
  end.
Hypothesis rootfind_total : forall g, exists l, rootfind s g = Ok l /\ length l = length g.
Lemma search_never_empty (st : nat -> list tri) left : forall (first : bool) (E : list tri) Emid,
  st 0%nat = locate raytrace s (if first then E else refine E) -> (forall d, st (S d) = locate raytrace s (refine (st d))) ->
  (forall d, st d <> []) -> exists r, search raytrace rootfind s epsilon left first E Emid = Ok r.
Proof.
  revert st. induction left as [|left IH]; intros st first E Emid H0 HS HN; cbn [search]; cbv zeta; rewrite <- H0.
  all: assert (N0 := HN 0%nat); destruct (st 0%nat) as [|p t] eqn:E0; [contradiction|].
  all: destruct (rlt (triangle_area p) (epsilon ^ 2)); cbn [bind].
  1,3: destruct (rootfind_total (map centroid (p :: t))) as (l & -> & Hl); cbn [bind]; rewrite map_length in Hl; rewrite Hl, Nat.eqb_refl; cbn [negb].
  1,2: destruct (_ && _)%bool; cbn [bind].
  - eexists; reflexivity.
  - eexists; reflexivity.
  - eexists; reflexivity.
  - apply (IH (fun d => st (S d))); [rewrite HS, E0; reflexivity|intros d; apply HS|intros d; apply HN].
  - eexists; reflexivity.
  - apply (IH (fun d => st (S d))); [rewrite HS, E0; reflexivity|intros d; apply HS|intros d; apply HN].
Qed.
End Result.
