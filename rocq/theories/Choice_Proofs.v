(** * Proofs for C149: the array backend *)
From Coq Require Import List String Bool Lia.
From Verif Require Import Choice_Model Choice_Spec.
Import ListNotations.
Local Open Scope string_scope.

Lemma bind_all_other f tbl a n : ~ In n (map fst tbl) -> bind_all f tbl a n = a n.
Proof.
  unfold bind_all. revert a. induction tbl as [|[x m] t IH]; intros a H; [reflexivity|]. cbn [fold_left map fst snd] in *. rewrite IH by (intros X; apply H; right; exact X).
  unfold upd. destruct (String.eqb_spec x n); [exfalso; apply H; left; assumption|reflexivity].
Qed.
Lemma bind_all_in f tbl a n : (forall p, In p tbl -> snd p = method_of (fst p)) -> In n (map fst tbl) -> bind_all f tbl a n = Some (Method (method_of n) f).
Proof.
  intros V. unfold bind_all. revert a. induction tbl as [|[x m] t IH]; intros a H; [destruct H|]. cbn [fold_left map fst snd] in *.
  destruct (in_dec string_dec n (map fst t)) as [I|I].
  - apply IH; [intros p Hp; apply V; right; exact Hp|exact I].
  - change (bind_all f t (upd a x (Method m f)) n = Some (Method (method_of n) f)). rewrite bind_all_other by exact I. destruct H as [H|H]; [subst x|contradiction]. unfold upd. rewrite String.eqb_refl.
    assert (W := V (n, m) (or_introl eq_refl)). change (m = method_of n) in W. rewrite W. reflexivity.
Qed.
Definition own (p : string * string) : bool := String.eqb (snd p) (method_of (fst p)).
Lemma own_all (tbl : list (string * string)) : forallb own tbl = true -> forall p, In p tbl -> snd p = method_of (fst p).
Proof. intros H p Hp. rewrite forallb_forall in H. apply String.eqb_eq. exact (H p Hp). Qed.
Lemma all_in (tbl : list (string * string)) : forallb (fun n => existsb (String.eqb n) (map fst tbl)) functions = true -> forall n, In n functions -> In n (map fst tbl).
Proof. intros H n Hn. rewrite forallb_forall in H. specialize (H n Hn). apply existsb_exists in H as (x & Hx & E). apply String.eqb_eq in E. subst x. exact Hx. Qed.
Lemma not_special : forall n, In n functions -> n <> "LinAlgErr" /\ n <> "key" /\ n <> "jax".
Proof. intros n H. repeat split; intros ->; revert H; unfold functions; cbn; intuition discriminate. Qed.
Lemma upd_other a n m v : n <> m -> upd a n v m = a m.
Proof. intros H. unfold upd. destruct (String.eqb_spec n m); [contradiction|reflexivity]. Qed.
Lemma upd_same a n v : upd a n v n = Some v.
Proof. unfold upd. rewrite String.eqb_refl. reflexivity. Qed.
Lemma torch_set a : (forall n, In n functions -> setup_torch a n = Some (Method (method_of n) Torch)) /\ setup_torch a "LinAlgErr" = Some TorchLinAlgError.
Proof.
  unfold setup_torch. split; [|apply upd_same]. intros n H. destruct (not_special n H) as (A & _ & _). rewrite upd_other by (intros E; apply A; symmetry; exact E).
  apply bind_all_in; [apply own_all; reflexivity|apply all_in; [reflexivity|exact H]].
Qed.
Lemma jax_set d a : (forall n, In n functions -> setup_jax d a n = Some (Method (method_of n) Jax)) /\ setup_jax d a "LinAlgErr" = Some PyException.
Proof.
  unfold setup_jax. split; [|rewrite upd_other by discriminate; apply upd_same]. intros n H. destruct (not_special n H) as (A & B & _). rewrite upd_other by (intros E; apply B; symmetry; exact E). rewrite upd_other by (intros E; apply A; symmetry; exact E).
  apply bind_all_in; [apply own_all; reflexivity|apply all_in; [reflexivity|exact H]].
Qed.

Section Choice.
Variables (accepts : string -> bool) (installed : flavour -> bool).
Lemma assign_ok env b w f : asked env b w = flavour_name f -> accepts (flavour_name f) = true -> installed f = true ->
  let w' := fst (assign accepts installed env b w) in snd (assign accepts installed env b w) = None /\ consistent f (obj w') /\ ck w' = flavour_name f /\ draws w' = match f with Torch => draws w | Jax => S (draws w) end.
Proof.
  intros E A I. unfold assign. fold (asked env b w). rewrite E, A. destruct f; cbn [flavour_name]; unfold load_backend; cbn [String.eqb Ascii.eqb Bool.eqb]; rewrite I; cbn [fst snd obj ck draws name module attrs].
  - split; [reflexivity|]. split; [|split; reflexivity]. destruct (torch_set (attrs (obj w))) as [P Q]. repeat split; assumption.
  - split; [reflexivity|]. split; [|split; reflexivity]. destruct (jax_set (draws w) (attrs (obj w))) as [P Q]. repeat split; assumption.
Qed.
Lemma assign_bad env b w : (forall f, asked env b w = flavour_name f -> accepts (flavour_name f) = true -> installed f = false) ->
  let w' := fst (assign accepts installed env b w) in (exists e, snd (assign accepts installed env b w) = Some e) /\ obj w' = obj w /\ draws w' = draws w /\ (ck w' = ck w \/ ck w' = asked env b w).
Proof.
  intros H. unfold assign. fold (asked env b w). set (n := asked env b w) in *. destruct (accepts n) eqn:A; [|cbn; split; [eexists; reflexivity|auto]].
  unfold load_backend. destruct (String.eqb_spec n "torch") as [->|T].
  { rewrite (H Torch eq_refl A). cbn. split; [eexists; reflexivity|auto]. }
  destruct (String.eqb_spec n "jax") as [->|J].
  { rewrite (H Jax eq_refl A). cbn. split; [eexists; reflexivity|auto]. }
  cbn. split; [eexists; reflexivity|auto].
Qed.
(** what an assignment does, in one statement *)
Lemma assign_cases env b w : (exists f, asked env b w = flavour_name f /\ accepts (flavour_name f) = true /\ installed f = true) \/ (forall f, asked env b w = flavour_name f -> accepts (flavour_name f) = true -> installed f = false).
Proof.
  destruct (String.eqb_spec (asked env b w) "torch") as [T|T]; [|destruct (String.eqb_spec (asked env b w) "jax") as [J|J]].
  - destruct (accepts "torch") eqn:A; [destruct (installed Torch) eqn:I|]; [left; exists Torch; auto|right|right]; intros [|] E; cbn in *; congruence.
  - destruct (accepts "jax") eqn:A; [destruct (installed Jax) eqn:I|]; [left; exists Jax; auto|right|right]; intros [|] E; cbn in *; congruence.
  - right. intros [|] E; contradiction.
Qed.
Lemma succeeds_iff env b w : snd (assign accepts installed env b w) = None <-> exists f, asked env b w = flavour_name f /\ accepts (flavour_name f) = true /\ installed f = true.
Proof.
  split.
  - intros S. destruct (assign_cases env b w) as [H|H]; [exact H|]. destruct (assign_bad env b w H) as [(e & E) _]. congruence.
  - intros (f & E & A & I). exact (proj1 (assign_ok env b w f E A I)).
Qed.
Lemma success env b w : snd (assign accepts installed env b w) = None -> exists f, asked env b w = flavour_name f /\ consistent f (obj (fst (assign accepts installed env b w))) /\ ck (fst (assign accepts installed env b w)) = flavour_name f /\
  draws (fst (assign accepts installed env b w)) = match f with Torch => draws w | Jax => S (draws w) end.
Proof. intros S. apply succeeds_iff in S as (f & E & A & I). exists f. destruct (assign_ok env b w f E A I) as (_ & X & Y & Z). auto. Qed.
Lemma failure env b w e : snd (assign accepts installed env b w) = Some e -> obj (fst (assign accepts installed env b w)) = obj w /\ draws (fst (assign accepts installed env b w)) = draws w.
Proof. intros F. destruct (assign_cases env b w) as [(f & E & A & I)|H]; [destruct (assign_ok env b w f E A I) as [S _]; congruence|]. destruct (assign_bad env b w H) as (_ & X & Y & _). auto. Qed.
Lemma run_consistent h w : (exists f, consistent f (obj w)) -> exists f, consistent f (obj (run accepts installed h w)).
Proof.
  unfold run. revert w. induction h as [|[env b] h IH]; intros w C; [exact C|]. cbn [fold_left fst snd]. apply IH.
  destruct (snd (assign accepts installed env b w)) as [e|] eqn:S; [rewrite (proj1 (failure env b w e S)); exact C|]. destruct (success env b w S) as (f & _ & X & _). exists f. exact X.
Qed.
Lemma always_consistent env c n h : snd (start accepts installed env c n) = None -> exists f, consistent f (obj (run accepts installed h (fst (start accepts installed env c n)))).
Proof. intros S. apply run_consistent. unfold start in *. destruct (success _ _ _ S) as (f & _ & X & _). exists f. exact X. Qed.
(** if caskade takes only the two names, and only when the library is there, both agree *)
Hypothesis only : forall s, accepts s = true -> exists f, s = flavour_name f /\ installed f = true.
Lemma agree_step env b w : name (obj w) = Some (ck w) -> let w' := fst (assign accepts installed env b w) in name (obj w') = Some (ck w').
Proof.
  intros H. cbv zeta. destruct (snd (assign accepts installed env b w)) as [e|] eqn:S.
  - assert (F := failure env b w e S). destruct F as [F _]. rewrite F. rewrite H. f_equal. unfold assign in *. fold (asked env b w) in *. destruct (accepts (asked env b w)) eqn:A; [|reflexivity].
    destruct (only _ A) as (f & E & I). rewrite E in A. destruct (assign_ok env b w f E A I) as [Z _]. unfold assign in Z. fold (asked env b w) in Z. rewrite E in Z, S. rewrite A in Z. congruence.
  - destruct (success env b w S) as (f & _ & X & Y & _). rewrite Y. exact (proj1 X).
Qed.
Lemma always_agree env c n h : snd (start accepts installed env c n) = None -> let w := run accepts installed h (fst (start accepts installed env c n)) in name (obj w) = Some (ck w).
Proof.
  intros S. cbv zeta. assert (B : name (obj (fst (start accepts installed env c n))) = Some (ck (fst (start accepts installed env c n)))).
  { unfold start in *. destruct (success _ _ _ S) as (f & _ & X & Y & _). rewrite Y. exact (proj1 X). }
  revert B. generalize (fst (start accepts installed env c n)). unfold run. induction h as [|[e b] h IH]; intros w B; [exact B|]. cbn [fold_left fst snd]. apply IH. exact (agree_step e b w B).
Qed.
End Choice.
(** a name that caskade takes and caustics does not *)
Lemma disagree : exists accepts installed h w, snd (start accepts installed None "torch" 0) = None /\ w = run accepts installed h (fst (start accepts installed None "torch" 0)) /\ consistent Torch (obj w) /\ ck w <> "torch".
Proof.
  exists (fun s => String.eqb s "torch" || String.eqb s "jax" || String.eqb s "numpy")%bool, (fun _ => true), [(None, Some "numpy")]. eexists. split; [reflexivity|]. split; [reflexivity|]. split; [|discriminate].
  destruct (always_consistent (fun s => String.eqb s "torch" || String.eqb s "jax" || String.eqb s "numpy")%bool (fun _ => true) None "torch" 0 [(None, Some "numpy")] eq_refl) as ([|] & C); [exact C|]. destruct C as (N & _). discriminate N.
Qed.
