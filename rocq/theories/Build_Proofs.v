(** * build_simulator: proofs *)
From Coq Require Import List Bool Arith Lia String.
From Verif Require Import Py Build_Model Build_Spec.
Import ListNotations.
Local Open Scope string_scope.

Lemma assoc_set_same k v d : assoc k (set_key k v d) = Some v.
Proof.
  induction d as [|[k' v'] d IH]; cbn; [rewrite String.eqb_refl; reflexivity|]. destruct (String.eqb_spec k k') as [->|N]; cbn; [rewrite String.eqb_refl; reflexivity|].
  rewrite (proj2 (String.eqb_neq k k') N). exact IH.
Qed.
Lemma assoc_set_other k k' v d : k <> k' -> assoc k (set_key k' v d) = assoc k d.
Proof.
  intros N. induction d as [|[k2 v2] d IH]; cbn; [rewrite (proj2 (String.eqb_neq k k') N); reflexivity|].
  destruct (String.eqb_spec k' k2) as [->|M]; cbn; [rewrite (proj2 (String.eqb_neq k k2) N); reflexivity|]. rewrite IH. reflexivity.
Qed.
Lemma assoc_put h a k v b k' : assoc k' (put h a k v b) = if (Nat.eqb b a && String.eqb k' k)%bool then Some v else assoc k' (h b).
Proof.
  unfold put. destruct (Nat.eqb b a); [|reflexivity]. cbn [andb]. destruct (String.eqb_spec k' k) as [->|N]; [apply assoc_set_same|apply assoc_set_other, N].
Qed.
Lemma put_other h a k v b : b <> a -> put h a k v b = h b.
Proof. intros N. unfold put. rewrite (proj2 (Nat.eqb_neq b a) N). reflexivity. Qed.
Lemma assoc_In {A} k (v : A) d : assoc k d = Some v -> In (k, v) d.
Proof. induction d as [|[k' v'] d IH]; cbn; [discriminate|]. destruct (String.eqb_spec k k') as [->|N]; [intros H; injection H as ->; auto|auto]. Qed.
Lemma In_keys {A} k (d : list (string * A)) : In k (map fst d) -> exists v, assoc k d = Some v.
Proof. induction d as [|[k' v'] d IH]; cbn; [contradiction|]. intros [->|H]; [rewrite String.eqb_refl; eauto|]. destruct (String.eqb k k'); eauto. Qed.
Lemma all_opt_true {A} (f : A -> option bool) l : all_opt f l = Some true -> forall a, In a l -> f a = Some true.
Proof.
  induction l as [|b l IH]; cbn; [contradiction|]. destruct (f b) as [[|]|] eqn:E; try discriminate. intros H a [<-|I]; [exact E|apply IH; assumption].
Qed.
(** two dicts that differ at a key are not equal *)
Lemma not_equal fuel h a b key u v : a <> b -> assoc key (h a) = Some u -> assoc key (h b) = Some v -> (forall f, eqv f h u v <> Some true) -> eqv fuel h (VRef a) (VRef b) <> Some true.
Proof.
  intros N A B D. destruct fuel as [|f]; cbn; rewrite (proj2 (Nat.eqb_neq a b) N); [discriminate|]. destruct (Nat.eqb _ _); [|discriminate]. intros H.
  assert (T := all_opt_true _ _ H (key, u) (assoc_In _ _ _ A)). cbn in T. rewrite B in T. exact (D f T).
Qed.
Lemma scalar_diff f h s t : s <> t -> eqv f h (VScalar s) (VScalar t) <> Some true.
Proof. intros N. destruct f; cbn; rewrite (proj2 (String.eqb_neq s t) N); discriminate. Qed.
Lemma eqv_same f h a : eqv f h (VRef a) (VRef a) = Some true.
Proof. destruct f; cbn; rewrite Nat.eqb_refl; reflexivity. Qed.
Lemma before_app done name a rest : ~ In name (map fst done) -> before name (done ++ (name, a) :: rest)%list = done.
Proof.
  induction done as [|[n b] d IH]; cbn; intros H; [rewrite String.eqb_refl; reflexivity|]. rewrite (proj2 (String.eqb_neq n name)) by (intros ->; apply H; left; reflexivity). rewrite IH; [reflexivity|]. intros I. apply H. right. exact I.
Qed.

Section Build.
Variables (limit : nat) (known has_name : string -> bool) (construct : string -> dict -> result unit) (H0 : heap) (c : config).
Hypothesis WF : well_formed has_name H0 c.
Lemma fun_c n a a' : In (n, a) c -> In (n, a') c -> a = a'.
Proof.
  intros A B. assert (N := wf_names _ _ _ WF). clear WF. induction c as [|[m b] l IH]; [contradiction|]. cbn [map fst] in N. apply NoDup_cons_iff in N. destruct N as [N1 N2]. destruct A as [A|A], B as [B|B].
  - congruence.
  - injection A as -> ->. exfalso. apply N1. apply (in_map fst) in B. exact B.
  - injection B as -> ->. exfalso. apply N1. apply (in_map fst) in A. exact A.
  - apply IH; assumption.
Qed.
Lemma apart_addr n1 a n2 : In (n1, a) c -> In (n2, a) c -> n1 = n2.
Proof.
  intros A B. destruct (string_dec n1 n2) as [|N]; [assumption|]. exfalso. destruct (wf_apart _ _ _ WF _ _ _ _ A B N) as [(key & s & t & _ & E1 & E2 & D)|(k1 & k2 & c1 & c2 & E1 & E2 & P1 & P2 & _)].
  - congruence.
  - apply N. symmetry. unfold kwargs_of in *. rewrite E1 in E2. injection E2 as <-. apply (P1 n2 a B E1).
Qed.
Definition faithful (v w : option value) : Prop :=
  v = w \/ exists m b, v = Some (VMod m) /\ w = Some (VRef b) /\ forall n, In (n, b) c -> m = n.
(** the heap after the objects [done] were built *)
Record inv (done : config) (h : heap) : Prop := {
  i_entry : forall n a, In (n, a) c -> h a = H0 a;
  i_value : forall n a k kw, In (n, a) c -> kwargs_of H0 a k -> kw <> "name" -> faithful (assoc kw (h k)) (assoc kw (H0 k));
  i_name : forall n a k kind, In (n, a) done -> kwargs_of H0 a k -> private H0 c n k -> assoc "kind" (H0 a) = Some (VScalar kind) -> has_name kind = true -> assoc "name" (h k) = Some (VScalar n) }.
Lemma apart_now done h n1 a1 n2 a2 : inv done h -> incl done c -> In (n1, a1) done -> In (n2, a2) done -> n1 <> n2 -> eqv limit h (VRef a1) (VRef a2) <> Some true.
Proof.
  intros I INC A B N. assert (A' := INC _ A). assert (B' := INC _ B). assert (NA : a1 <> a2) by (intros ->; apply N, (apart_addr n1 a2 n2); assumption).
  destruct (wf_apart _ _ _ WF _ _ _ _ A' B' N) as [(key & s & t & K & E1 & E2 & D)|(k1 & k2 & c1 & c2 & E1 & E2 & P1 & P2 & K1 & K2 & N1 & N2)].
  - apply (not_equal limit h a1 a2 key (VScalar s) (VScalar t) NA).
    + rewrite (i_entry _ _ I _ _ A'). exact E1.
    + rewrite (i_entry _ _ I _ _ B'). exact E2.
    + intros f. apply scalar_diff, D.
  - apply (not_equal limit h a1 a2 "init_kwargs" (VRef k1) (VRef k2) NA).
    + rewrite (i_entry _ _ I _ _ A'). exact E1.
    + rewrite (i_entry _ _ I _ _ B'). exact E2.
    + intros f. apply (not_equal f h k1 k2 "name" (VScalar n1) (VScalar n2)).
      * intros ->. apply N. symmetry. apply (P1 n2 a2 B' E2).
      * apply (i_name _ _ I n1 a1 k1 c1); assumption.
      * apply (i_name _ _ I n2 a2 k2 c2); assumption.
      * intros g. apply scalar_diff, N.
Qed.
(** storing a module among the keyword arguments of an object that is being built *)
Lemma inv_put done h name a k kw m : inv done h -> incl done c -> In (name, a) c -> ~ In name (map fst done) -> kwargs_of H0 a k ->
  (kw <> "name" -> faithful (Some (VMod m)) (assoc kw (H0 k))) -> inv done (put h k kw (VMod m)).
Proof.
  intros I INC A ND K F. split.
  - intros n b B. rewrite put_other; [apply (i_entry _ _ I _ _ B)|]. intros ->. exact (wf_kwargs _ _ _ WF _ _ _ _ _ A K B eq_refl).
  - intros n b k' kw' B K' N. rewrite assoc_put. destruct (Nat.eqb_spec k' k) as [->|Nk]; [|apply (i_value _ _ I _ _ _ _ B K' N)].
    destruct (String.eqb_spec kw' kw) as [->|Nw]; cbn [andb]; [apply F, N|apply (i_value _ _ I _ _ _ _ B K' N)].
  - intros n b k' kind B K' P KI HN. rewrite assoc_put. destruct (Nat.eqb_spec k' k) as [->|Nk]; [|apply (i_name _ _ I n b k' kind); assumption].
    exfalso. apply ND. assert (E := P name a A K). subst. apply (in_map fst) in B. exact B.
Qed.
Lemma match_loop_ok done modules name a k kw : incl done c -> In (name, a) c -> ~ In name (map fst done) -> kwargs_of H0 a k -> before name c = done ->
  forall l h h', incl l done -> inv done h -> match_loop limit modules k kw l h = Ok h' ->
  inv done h' /\ (forall k' kw', (k', kw') <> (k, kw) -> assoc kw' (h' k') = assoc kw' (h k')) /\
  (kw <> "name" -> forall sub b, assoc kw (H0 k) = Some (VRef b) -> In (sub, b) l \/ assoc kw (h k) = Some (VMod sub) -> In (sub, b) c -> assoc kw (h' k) = Some (VMod sub)) /\
  (forall m, assoc kw (h k) = Some (VMod m) -> assoc kw (h' k) = Some (VMod m)) /\
  (forall s, assoc kw (h k) = Some (VScalar s) -> assoc kw (h' k) = Some (VScalar s)).
Proof.
  intros INC A ND K BE. induction l as [|[s e] l IH]; intros h h' IL I; cbn [match_loop].
  - intros E. injection E as <-. split; [exact I|]. split; [reflexivity|]. split; [|split; auto]. intros _ sub b _ [[]|E] _. exact E.
  - destruct (assoc kw (h k)) as [cur|] eqn:C; [|discriminate]. destruct (eqv limit h (VRef e) cur) as [eq|] eqn:Q; [|discriminate].
    assert (IS : In (s, e) done) by (apply IL; left; reflexivity). assert (IL' : incl l done) by (intros x X; apply IL; right; exact X).
    destruct (eq && is_dict cur)%bool eqn:G.
    + apply andb_prop in G. destruct G as [-> G]. destruct cur as [s0|l0|b0|m0]; try discriminate G.
      destruct (assoc s modules); [|discriminate].
      assert (FA : kw <> "name" -> assoc kw (H0 k) = Some (VRef b0)).
      { intros N. destruct (i_value _ _ I _ _ _ kw A K N) as [E|(m1 & b & E & _)]; congruence. }
      assert (FN : kw <> "name" -> forall n, In (n, b0) c -> s = n).
      { intros N n B. destruct (string_dec s n) as [|D]; [assumption|]. exfalso. assert (BD : In (n, b0) done) by (rewrite <- BE; exact (wf_order _ _ _ WF _ _ _ _ _ _ A K (FA N) B)).
        exact (apart_now done h s e n b0 I INC IS BD D Q). }
      intros E. destruct (IH (put h k kw (VMod s)) h' IL') as (R1 & R2 & R3 & R4 & R5).
      * apply (inv_put done h name a k kw s I INC A ND K). intros N. right. exists s, b0. split; [reflexivity|]. split; [apply FA, N|apply FN, N].
      * exact E.
      * assert (P : assoc kw (put h k kw (VMod s) k) = Some (VMod s)) by (rewrite assoc_put, Nat.eqb_refl, String.eqb_refl; reflexivity).
        split; [exact R1|]. split; [|split; [|split]].
        -- intros k' kw' N. rewrite R2 by exact N. rewrite assoc_put. destruct (Nat.eqb_spec k' k) as [->|]; [|reflexivity]. destruct (String.eqb_spec kw' kw) as [->|]; [congruence|reflexivity].
        -- intros N sub b EB _ BC. rewrite (FA N) in EB. injection EB as <-. rewrite <- (FN N _ BC). apply R4, P.
        -- intros m1 X. discriminate X.
        -- intros s1 X. discriminate X.
    + intros E. destruct (IH h h' IL' I E) as (R1 & R2 & R3 & R4 & R5). rewrite C in R3, R4, R5. split; [exact R1|]. split; [exact R2|]. split; [|split; [exact R4|exact R5]].
      intros N sub b EB [[IN|IN]|X] BC.
      * injection IN as -> ->. destruct (i_value _ _ I _ _ _ kw A K N) as [V|(m & b' & V & V' & F)].
        -- rewrite C, EB in V. injection V as ->. rewrite eqv_same in Q. injection Q as <-. discriminate G.
        -- rewrite C in V. injection V as ->. rewrite EB in V'. injection V' as <-. rewrite <- (F _ BC). apply R4. reflexivity.
      * apply (R3 N sub b EB); auto.
      * apply (R3 N sub b EB); auto.
Qed.
Lemma kwarg_loop_ok done modules name a k : incl done c -> In (name, a) c -> ~ In name (map fst done) -> kwargs_of H0 a k -> before name c = done ->
  forall kws h h', inv done h -> kwarg_loop limit modules k done kws h = Ok h' ->
  inv done h' /\
  (forall kw, kw <> "name" -> In kw kws -> forall sub b, assoc kw (H0 k) = Some (VRef b) -> In (sub, b) done -> assoc kw (h' k) = Some (VMod sub)) /\
  (forall kw m, assoc kw (h k) = Some (VMod m) -> assoc kw (h' k) = Some (VMod m)) /\ (forall kw s, assoc kw (h k) = Some (VScalar s) -> assoc kw (h' k) = Some (VScalar s)).
Proof.
  intros INC A ND K BE. induction kws as [|kw0 kws IH]; intros h h' I; cbn [kwarg_loop].
  - intros E. injection E as <-. split; [exact I|]. split; [intros kw _ []|]. split; auto.
  - destruct (match_loop limit modules k kw0 done h) as [h1|] eqn:M; [|discriminate]. cbn [bind]. intros E.
    destruct (match_loop_ok done modules name a k kw0 INC A ND K BE done h h1 (incl_refl _) I M) as (R1 & R2 & R3 & R4 & R5).
    destruct (IH h1 h' R1 E) as (Q1 & Q2 & Q3 & Q4). split; [exact Q1|]. split; [|split].
    + intros kw N [->|IN] sub b EB D.
      * apply Q3. apply (R3 N sub b EB); [left; exact D|apply INC, D].
      * apply (Q2 kw N IN sub b EB D).
    + intros kw m X. apply Q3. destruct (string_dec kw kw0) as [->|Nw]; [apply R4, X|]. rewrite R2; [exact X|congruence].
    + intros kw s X. apply Q4. destruct (string_dec kw kw0) as [->|Nw]; [apply R5, X|]. rewrite R2; [exact X|congruence].
Qed.
Local Notation received := (received has_name H0 c).
Lemma inv_name done h name a k kind : inv done h -> incl done c -> In (name, a) c -> ~ In name (map fst done) -> kwargs_of H0 a k -> assoc "kind" (H0 a) = Some (VScalar kind) -> has_name kind = true ->
  inv (done ++ [(name, a)])%list (put h k "name" (VScalar name)).
Proof.
  intros I INC A ND K KI HN. split.
  - intros n b B. rewrite put_other; [apply (i_entry _ _ I _ _ B)|]. intros ->. exact (wf_kwargs _ _ _ WF _ _ _ _ _ A K B eq_refl).
  - intros n b k' kw' B K' N. rewrite assoc_put. rewrite (proj2 (String.eqb_neq kw' "name") N), andb_false_r. apply (i_value _ _ I _ _ _ _ B K' N).
  - intros n b k' kind' B K' P KI' HN'. rewrite assoc_put, String.eqb_refl, andb_true_r. destruct (Nat.eqb_spec k' k) as [->|Nk].
    + rewrite (P name a A K). reflexivity.
    + apply in_app_iff in B. destruct B as [B|[B|[]]]; [apply (i_name _ _ I n b k' kind'); assumption|]. injection B as <- <-. unfold kwargs_of in *. congruence.
Qed.
Lemma inv_skip done h name a : inv done h -> (forall k kind, kwargs_of H0 a k -> assoc "kind" (H0 a) = Some (VScalar kind) -> has_name kind = true -> False) -> inv (done ++ [(name, a)])%list h.
Proof.
  intros I F. split; [apply (i_entry _ _ I)|apply (i_value _ _ I)|]. intros n b k kind B K P KI HN. apply in_app_iff in B. destruct B as [B|[B|[]]]; [apply (i_name _ _ I n b k kind); assumption|]. injection B as <- <-. exfalso. exact (F k kind K KI HN).
Qed.
Lemma build_one_ok done rest name a h modules h' modules' : c = (done ++ (name, a) :: rest)%list -> inv done h -> build_one limit known has_name construct c name a (h, modules) = Ok (h', modules') ->
  inv (done ++ [(name, a)])%list h' /\ exists m, modules' = (modules ++ [(name, m)])%list /\ received name a m.
Proof.
  intros EC I. assert (A : In (name, a) c) by (rewrite EC; apply in_app_iff; right; left; reflexivity). assert (INC : incl done c) by (intros x X; rewrite EC; apply in_app_iff; auto).
  assert (ND : ~ In name (map fst done)).
  { assert (N := wf_names _ _ _ WF). rewrite EC, map_app in N. cbn [map fst] in N. apply NoDup_remove_2 in N. intros X. apply N. apply in_app_iff. auto. }
  assert (BE : before name c = done) by (rewrite EC; apply before_app, ND).
  unfold build_one. rewrite BE. rewrite (i_entry _ _ I _ _ A). destruct (assoc "init_kwargs" (H0 a)) as [[s|l|k|m]|] eqn:K; try discriminate.
  - destruct (kwarg_loop limit modules k done (map fst (h k)) h) as [h1|] eqn:E; [|discriminate]. cbn [bind].
    destruct (kwarg_loop_ok done modules name a k INC A ND K BE _ _ _ I E) as (I1 & R1 & R2 & R3). rewrite (i_entry _ _ I1 _ _ A).
    assert (RV : forall kw, kw <> "name" -> (forall sub b, assoc kw (H0 k) = Some (VRef b) -> In (sub, b) done -> assoc kw (h1 k) = Some (VMod sub)) /\
        (forall s, assoc kw (H0 k) = Some (VScalar s) -> assoc kw (h1 k) = Some (VScalar s)) /\ (assoc kw (H0 k) = None -> assoc kw (h1 k) = None)).
    { intros kw N. split; [|split].
      - intros sub b EB D. apply (R1 kw N) with b; try assumption. assert (V := i_value _ _ I _ _ _ kw A K N). assert (X : exists v, assoc kw (h k) = Some v).
        { destruct V as [V|(m & b' & V & _)]; rewrite V; rewrite ?EB; eauto. }
        destruct X as [v X]. apply assoc_In in X. apply (in_map fst) in X. exact X.
      - intros s ES. apply R3. destruct (i_value _ _ I _ _ _ kw A K N) as [V|(m & b' & V & V' & _)]; congruence.
      - intros EN. destruct (i_value _ _ I1 _ _ _ kw A K N) as [V|(m & b' & V & V' & _)]; congruence. }
    destruct (assoc "kind" (H0 a)) as [[kind| | |]|] eqn:KI; try discriminate. destruct (known kind); [|discriminate]. destruct (has_name kind) eqn:HN.
    + destruct (construct kind (put h1 k "name" (VScalar name) k)); [|discriminate]. cbn [bind]. intros X. injection X as <- <-. split; [apply (inv_name done h1 name a k kind); assumption|].
      eexists. split; [reflexivity|]. split; [exact KI|]. cbn [mod_kind mod_kwargs]. split; [intros _; rewrite assoc_put, Nat.eqb_refl; reflexivity|].
      intros k' kw K' N. unfold kwargs_of in K'. rewrite K in K'. injection K' as <-. rewrite assoc_put, (proj2 (String.eqb_neq kw "name") N), andb_false_r. rewrite BE. apply RV, N.
    + destruct (construct kind (h1 k)); [|discriminate]. cbn [bind]. intros X. injection X as <- <-. split; [apply inv_skip; [exact I1|]; intros; congruence|].
      eexists. split; [reflexivity|]. split; [exact KI|]. cbn [mod_kind mod_kwargs]. split; [congruence|]. intros k' kw K' N. unfold kwargs_of in K'. rewrite K in K'. injection K' as <-. rewrite BE. apply RV, N.
  - destruct (assoc "kind" (H0 a)) as [[kind| | |]|] eqn:KI; try discriminate. destruct (known kind); [|discriminate]. destruct (has_name kind) eqn:HN.
    + destruct (construct kind _); [|discriminate]. cbn [bind]. intros X. injection X as <- <-. split; [apply inv_skip; [exact I|]; unfold kwargs_of; intros; congruence|].
      eexists. split; [reflexivity|]. split; [exact KI|]. cbn [mod_kind mod_kwargs]. split; [reflexivity|]. unfold kwargs_of. intros; congruence.
    + destruct (construct kind _); [|discriminate]. cbn [bind]. intros X. injection X as <- <-. split; [apply inv_skip; [exact I|]; unfold kwargs_of; intros; congruence|].
      eexists. split; [reflexivity|]. split; [exact KI|]. cbn [mod_kind mod_kwargs]. split; [congruence|]. unfold kwargs_of. intros; congruence.
Qed.
Lemma build_all_ok todo : forall done h modules h' modules', c = (done ++ todo)%list -> inv done h -> map fst modules = map fst done ->
  (forall n a, In (n, a) done -> exists m, In (n, m) modules /\ received n a m) ->
  build_all limit known has_name construct c todo (h, modules) = Ok (h', modules') ->
  map fst modules' = map fst c /\ forall n a, In (n, a) c -> exists m, In (n, m) modules' /\ received n a m.
Proof.
  induction todo as [|[name a] todo IH]; intros done h modules h' modules' EC I L R; cbn [build_all].
  - intros E. injection E as <- <-. rewrite app_nil_r in EC. split; [rewrite L, EC; reflexivity|]. intros n a B. apply R. rewrite <- EC. exact B.
  - destruct (build_one limit known has_name construct c name a (h, modules)) as [[h1 m1]|] eqn:E; [|discriminate]. cbn [bind].
    destruct (build_one_ok done todo name a h modules h1 m1 EC I E) as (I1 & m & -> & RM). apply (IH (done ++ [(name, a)])%list).
    + rewrite <- app_assoc. exact EC.
    + exact I1.
    + rewrite !map_app, L. reflexivity.
    + intros n b B. apply in_app_iff in B. destruct B as [B|[B|[]]].
      * destruct (R n b B) as (m' & IN & RE). exists m'. split; [apply in_app_iff; auto|exact RE].
      * injection B as <- <-. exists m. split; [apply in_app_iff; right; left; reflexivity|exact RM].
Qed.
Lemma inv_init : inv [] H0.
Proof. split; [reflexivity|left; reflexivity|contradiction]. Qed.
Lemma build_ok modules result_ : build_simulator limit known has_name construct H0 c = Ok (modules, result_) ->
  map fst modules = map fst c /\ (forall n a, In (n, a) c -> exists m, In (n, m) modules /\ received n a m) /\
  exists init, modules = (init ++ [result_])%list.
Proof.
  unfold build_simulator. destruct (build_all limit known has_name construct c c (H0, [])) as [[h ms]|] eqn:E; [|discriminate]. cbn [bind snd].
  destruct (build_all_ok c [] H0 [] h ms eq_refl inv_init eq_refl ltac:(contradiction) E) as [L R]. destruct (rev ms) as [|m t] eqn:RV; [discriminate|]. intros X. injection X as <- <-.
  split; [exact L|]. split; [exact R|]. exists (rev t). rewrite <- (rev_involutive ms), RV. reflexivity.
Qed.
End Build.
(** ** witnesses *)
Definition heap_of (l : list dict) : heap := fun a => nth a l [].
Definition accept_all (_ : string) (_ : dict) : result unit := Ok tt.
(** two cosmologies written the same way; the lens refers to the second *)
Definition twin_heap : heap := heap_of [[("kind", VScalar "FlatLambdaCDM")]; [("kind", VScalar "FlatLambdaCDM")]; [("kind", VScalar "SIS"); ("init_kwargs", VRef 3)]; [("cosmology", VRef 1)]].
Definition twin_config : config := [("near", 0); ("far", 1); ("lens", 2)].
Lemma twins : exists ms m, build_simulator 1000 (fun _ => true) (fun _ => true) accept_all twin_heap twin_config = Ok (ms, ("lens", m)) /\ assoc "cosmology" (mod_kwargs m) = Some (VMod "near").
Proof. do 2 eexists. split; [vm_compute; reflexivity|reflexivity]. Qed.
(** a list of references *)
Definition list_heap : heap := heap_of [[("kind", VScalar "SIS")]; [("kind", VScalar "SinglePlane"); ("init_kwargs", VRef 2)]; [("lenses", VList [VRef 0])]].
Definition list_config : config := [("sis", 0); ("plane", 1)].
Lemma listed : exists ms m, build_simulator 1000 (fun _ => true) (fun _ => true) accept_all list_heap list_config = Ok (ms, ("plane", m)) /\ assoc "lenses" (mod_kwargs m) = Some (VList [VRef 0]).
Proof. do 2 eexists. split; [vm_compute; reflexivity|reflexivity]. Qed.
(** a usual configuration: two lenses of the same kind with keyword arguments of their own *)
Definition good_heap : heap := heap_of [[("kind", VScalar "FlatLambdaCDM")]; [("kind", VScalar "SIS"); ("init_kwargs", VRef 3)]; [("kind", VScalar "SIS"); ("init_kwargs", VRef 4)];
  [("cosmology", VRef 0); ("z_l", VScalar "0.5")]; [("cosmology", VRef 0); ("z_l", VScalar "0.5")]; [("kind", VScalar "LensSource"); ("init_kwargs", VRef 6)]; [("lens", VRef 2); ("pixels_x", VScalar "60")]].
Definition good_config : config := [("cosmo", 0); ("first", 1); ("second", 2); ("sim", 5)].
Lemma good_apart : forall n1 a1 n2 a2, In (n1, a1) good_config -> In (n2, a2) good_config -> n1 <> n2 -> apart (fun _ => true) good_heap good_config n1 a1 n2 a2.
Proof.
  assert (KI : forall n1 a1 n2 a2 s t, assoc "kind" (good_heap a1) = Some (VScalar s) -> assoc "kind" (good_heap a2) = Some (VScalar t) -> s <> t -> apart (fun _ => true) good_heap good_config n1 a1 n2 a2).
  { intros. left. exists "kind", s, t. repeat split; try assumption. discriminate. }
  assert (PR : forall n a k, In (n, a, k) [("first", 1, 3); ("second", 2, 4)] -> private good_heap good_config n k).
  { intros n a k H n' a' H'. cbn in H, H'. destruct H as [H|[H|[]]]; injection H as <- <- <-; destruct H' as [H'|[H'|[H'|[H'|[]]]]]; injection H' as <- <-; vm_compute; congruence. }
  intros n1 a1 n2 a2 A B N. cbn in A, B.
  destruct A as [A|[A|[A|[A|[]]]]]; injection A as <- <-; destruct B as [B|[B|[B|[B|[]]]]]; injection B as <- <-; try congruence; try (eapply KI; [reflexivity|reflexivity|discriminate]).
  - right. exists 3, 4, "SIS", "SIS". repeat split; try reflexivity; [apply (PR _ 1 _)|apply (PR _ 2 _)]; cbn; auto.
  - right. exists 4, 3, "SIS", "SIS". repeat split; try reflexivity; [apply (PR _ 2 _)|apply (PR _ 1 _)]; cbn; auto.
Qed.
Lemma good_wf : well_formed (fun _ => true) good_heap good_config.
Proof.
  split.
  - repeat constructor; cbn; intuition discriminate.
  - intros n a k n' a' A K B. cbn in A, B. destruct A as [A|[A|[A|[A|[]]]]]; injection A as <- <-; vm_compute in K; try discriminate; injection K as <-; destruct B as [B|[B|[B|[B|[]]]]]; injection B as <- <-; discriminate.
  - intros n a k kw b n' A K E B. cbn in A, B. destruct A as [A|[A|[A|[A|[]]]]]; injection A as <- <-; vm_compute in K; try discriminate; injection K as <-; cbn in E;
    repeat match type of E with context [String.eqb kw ?s] => destruct (String.eqb kw s); try discriminate end; try (injection E as <-); try discriminate;
    destruct B as [B|[B|[B|[B|[]]]]]; try discriminate B; injection B as <-; cbn; auto.
  - apply good_apart.
Qed.
Lemma good_builds : exists ms m, build_simulator 1000 (fun _ => true) (fun _ => true) accept_all good_heap good_config = Ok (ms, ("sim", m)) /\
  assoc "lens" (mod_kwargs m) = Some (VMod "second").
Proof. do 2 eexists. split; [vm_compute; reflexivity|reflexivity]. Qed.
