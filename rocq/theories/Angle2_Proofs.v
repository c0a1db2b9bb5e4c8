(** Histories: the invariants of Angle_Proofs read through the observations of Angle_Spec. *)
From Coq Require Import Reals List String Bool Lra Lia.
From Verif Require Import Py RealFun Angle_Model Angle_Spec Angle_Proofs.
Import ListNotations.
Open Scope R_scope.
Open Scope string_scope.

Lemma literal_plain r : ~ is_pointer (literal r).
Proof. destruct r; simpl; tauto. Qed.

Lemma plain_free s k i : attr s k = Some i -> plain (heap s i) -> is_free s k.
Proof.
  intros H [P L]. split; [unfold exists_param; congruence|]. split.
  - intros (j & f & Hj & Hf). assert (j = i) by congruence; subst. rewrite Hf in P. simpl in P; tauto.
  - exists i. split; [exact H|]. rewrite L. reflexivity.
Qed.
Lemma free_plain s k : is_free s k -> exists i, attr s k = Some i /\ plain (heap s i).
Proof.
  intros (_ & C & (i & Hi & L)). exists i. split; [exact Hi|]. split.
  - destruct (val (heap s i)) eqn:E; simpl; try tauto. intros _. apply C. exists i. eauto.
  - destruct (links (heap s i)); [reflexivity|discriminate].
Qed.

Section Hist.
Variable pol : policy.

Lemma angle_new s : new_object "q_phi" ["q"; "phi"] ["e1"; "e2"; "c1"; "c2"] s -> angle_inv s.
Proof.
  intros (Hs & Ho & ids & Hm & Hn & Hl & Hf).
  destruct ids as [|iq [|ip [|]]]; try discriminate. injection Hm as Hq Hp.
  inversion Hn as [|? ? Hn1 _]; subst. inversion Hl as [|? ? L1 Hl']; subst. inversion Hl' as [|? ? L2 _]; subst.
  inversion Hf as [|? ? F1 Hf']; subst. inversion Hf' as [|? ? F2 _]; subst.
  inversion Ho as [|? ? O1 Ho1]; subst. inversion Ho1 as [|? ? O2 Ho2]; subst.
  inversion Ho2 as [|? ? O3 Ho3]; subst. inversion Ho3 as [|? ? O4 _]; subst.
  exists iq, ip. repeat (split; [assumption|]). split; [intro; subst; simpl in Hn1; tauto|].
  repeat (split; [assumption|]). left. repeat (split; [assumption|]).
  apply free_plain in F1. apply free_plain in F2. destruct F1 as (i & E1 & P1), F2 as (j & E2 & P2).
  rewrite Hq in E1. rewrite Hp in E2. injection E1 as ->. injection E2 as ->. tauto.
Qed.
Lemma angle_reach s :
  reachable pol (set_angle_system pol) free_params (new_object "q_phi" ["q"; "phi"] ["e1"; "e2"; "c1"; "c2"]) s ->
  angle_inv s.
Proof.
  induction 1 as [s H|s v _ IH|s k r _ IH Hk].
  - apply angle_new; exact H.
  - cbn [perform]. destruct (set_angle_inv pol s v IH) as (r & -> & Hv & Hi).
    destruct (String.eqb_spec v "q_phi"); [apply Hv; tauto|]. destruct (String.eqb_spec v "e1_e2"); [apply Hv; tauto|].
    destruct (String.eqb_spec v "c1_c2"); [apply Hv; tauto|]. rewrite Hi by tauto. exact IH.
  - cbn [perform]. destruct (assign_inv pol s k (literal r) IH Hk (literal_plain r)) as (s' & -> & H & _). exact H.
Qed.

Lemma inv2_observe s iq ip x y fq fp nq np : x <> y ->
  attr s nq = Some iq -> attr s np = Some ip -> inv2 s iq ip x y fq fp ->
  is_free s x /\ is_free s y /\ depends_on s nq [x; y] /\ depends_on s np [x; y] /\
  forall u v, value_of s x = Some u -> value_of s y = Some v ->
    value_of s nq = Some (fq u v) /\ value_of s np = Some (fp u v).
Proof.
  intros Hxy Hq Hp N. destruct (inv2_values s iq ip x y fq fp nq np Hxy Hq Hp N) as [V1 V2].
  destruct N as (a & b & Ha & Hb & _ & _ & _ & _ & _ & _ & _ & Pa & Pb & Eq & Ep).
  split; [eapply plain_free; eassumption|]. split; [eapply plain_free; eassumption|].
  split; [exists iq; split; [exact Hq|]; rewrite Eq; simpl; rewrite Ha, Hb; reflexivity|].
  split; [exists ip; split; [exact Hp|]; rewrite Ep; simpl; rewrite Ha, Hb; reflexivity|].
  intros u v Hu Hv. rewrite V1, V2, Hu, Hv. split; reflexivity.
Qed.

Lemma angle_observe s : angle_inv s ->
  (sys s = "q_phi" /\ Forall (absent s) ["e1"; "e2"; "c1"; "c2"] /\ is_free s "q" /\ is_free s "phi") \/
  (sys s = "e1_e2" /\ Forall (absent s) ["c1"; "c2"] /\ is_free s "e1" /\ is_free s "e2" /\
   depends_on s "q" ["e1"; "e2"] /\ depends_on s "phi" ["e1"; "e2"] /\
   forall e1 e2, value_of s "e1" = Some e1 -> value_of s "e2" = Some e2 -> e1 ^ 2 + e2 ^ 2 <= 1 ->
     exists q phi, value_of s "q" = Some q /\ value_of s "phi" = Some phi /\ 0 <= q <= 1 /\
       e1 = (1 - q) * cos (2 * phi) / (1 + q) /\ e2 = (1 - q) * sin (2 * phi) / (1 + q)) \/
  (sys s = "c1_c2" /\ Forall (absent s) ["e1"; "e2"] /\ is_free s "c1" /\ is_free s "c2" /\
   depends_on s "q" ["c1"; "c2"] /\ depends_on s "phi" ["c1"; "c2"] /\
   forall c1 c2, value_of s "c1" = Some c1 -> value_of s "c2" = Some c2 ->
     exists q phi, value_of s "q" = Some q /\ value_of s "phi" = Some phi /\ 0 < q <= 1 /\
       c1 = (1 - q) * cos (2 * phi) / q /\ c2 = (1 - q) * sin (2 * phi) / q).
Proof.
  intros (iq & ip & Hq & Hp & Hne & Hlq & Hlp & [(Hs & H1 & H2 & H3 & H4 & Pq & Pp)|[(Hs & H3 & H4 & N)|(Hs & H1 & H2 & N)]]).
  - left. split; [exact Hs|]. split; [repeat constructor; assumption|].
    split; eapply plain_free; eassumption.
  - right; left. split; [exact Hs|]. split; [repeat constructor; assumption|].
    destruct (inv2_observe s iq ip "e1" "e2" _ _ "q" "phi" ltac:(discriminate) Hq Hp N) as (F1 & F2 & D1 & D2 & V).
    repeat (split; [assumption|]). intros e1 e2 V1 V2 Hd. destruct (V e1 e2 V1 V2) as [-> ->].
    do 2 eexists. split; [reflexivity|]. split; [reflexivity|]. split; [apply e_q_range|].
    pose proof (e_roundtrip e1 e2 Hd) as Hr. unfold e1e2_to_qphi, qphi_to_e1e2 in Hr. injection Hr as R1 R2.
    split; symmetry; assumption.
  - right; right. split; [exact Hs|]. split; [repeat constructor; assumption|].
    destruct (inv2_observe s iq ip "c1" "c2" _ _ "q" "phi" ltac:(discriminate) Hq Hp N) as (F1 & F2 & D1 & D2 & V).
    repeat (split; [assumption|]). intros c1 c2 V1 V2. destruct (V c1 c2 V1 V2) as [-> ->].
    do 2 eexists. split; [reflexivity|]. split; [reflexivity|]. split; [apply c_q_range|].
    pose proof (c_roundtrip c1 c2) as Hr. unfold c1c2_to_qphi, qphi_to_c1c2 in Hr.
    destruct (Req_EM_T (c1c2_to_q c1 c2) 0); [discriminate|]. injection Hr as R1 R2. split; symmetry; assumption.
Qed.

(** shear *)
Lemma shear_new s : new_object "cartesian" ["gamma_1"; "gamma_2"] ["gamma"; "phi"] s -> shear_inv s.
Proof.
  intros (Hs & Ho & ids & Hm & Hn & Hl & Hf).
  destruct ids as [|iq [|ip [|]]]; try discriminate. injection Hm as Hq Hp.
  inversion Hn as [|? ? Hn1 _]; subst. inversion Hl as [|? ? L1 Hl']; subst. inversion Hl' as [|? ? L2 _]; subst.
  inversion Hf as [|? ? F1 Hf']; subst. inversion Hf' as [|? ? F2 _]; subst.
  inversion Ho as [|? ? O1 Ho1]; subst. inversion Ho1 as [|? ? O2 Ho2]; subst.
  exists iq, ip. repeat (split; [assumption|]). split; [intro; subst; simpl in Hn1; tauto|].
  repeat (split; [assumption|]). left. repeat (split; [assumption|]).
  apply free_plain in F1. apply free_plain in F2. destruct F1 as (i & E1 & P1), F2 as (j & E2 & P2).
  rewrite Hq in E1. rewrite Hp in E2. injection E1 as ->. injection E2 as ->. tauto.
Qed.
Lemma shear_reach s :
  reachable pol (set_parametrization_shear pol) shear_free
    (new_object "cartesian" ["gamma_1"; "gamma_2"] ["gamma"; "phi"]) s -> shear_inv s.
Proof.
  induction 1 as [s H|s v _ IH|s k r _ IH Hk].
  - apply shear_new; exact H.
  - cbn [perform]. destruct (set_shear_inv pol s v IH) as (r & -> & Hv & Hi).
    destruct (String.eqb_spec v "cartesian"); [apply Hv; tauto|].
    destruct (String.eqb_spec v "angular"); [apply Hv; tauto|]. rewrite Hi by tauto. exact IH.
  - cbn [perform]. destruct (shear_assign_inv pol s k (literal r) IH Hk (literal_plain r)) as (s' & -> & H & _). exact H.
Qed.
Lemma shear_observe s : shear_inv s ->
  (sys s = "cartesian" /\ Forall (absent s) ["gamma"; "phi"] /\ is_free s "gamma_1" /\ is_free s "gamma_2") \/
  (sys s = "angular" /\ is_free s "gamma" /\ is_free s "phi" /\
   depends_on s "gamma_1" ["gamma"; "phi"] /\ depends_on s "gamma_2" ["gamma"; "phi"] /\
   forall g p, value_of s "gamma" = Some g -> value_of s "phi" = Some p ->
     value_of s "gamma_1" = Some (g * cos (2 * p)) /\ value_of s "gamma_2" = Some (g * sin (2 * p))).
Proof.
  intros (iq & ip & Hq & Hp & Hne & Hlq & Hlp & [(Hs & H1 & H2 & Pq & Pp)|(Hs & N)]).
  - left. split; [exact Hs|]. split; [repeat constructor; assumption|]. split; eapply plain_free; eassumption.
  - right. split; [exact Hs|]. exact (inv2_observe s iq ip "gamma" "phi" _ _ "gamma_1" "gamma_2" ltac:(discriminate) Hq Hp N).
Qed.

(** Rein *)
Lemma rein_new alt ap conv s : new_object "Rein" ["Rein"; "z_l"; "z_s"] [ap] s -> rein_inv alt ap conv s.
Proof.
  intros (Hs & Ho & ids & Hm & Hn & Hl & Hf).
  destruct ids as [|ir [|il [|is_ [|]]]]; try discriminate. injection Hm as Hr Hil His.
  inversion Hn as [|? ? Hn1 Hn']; subst. inversion Hn' as [|? ? Hn2 _]; subst.
  inversion Hl as [|? ? L1 Hl']; subst. inversion Hl' as [|? ? L2 Hl2]; subst. inversion Hl2 as [|? ? L3 _]; subst.
  inversion Hf as [|? ? F1 Hf']; subst. inversion Hf' as [|? ? F2 Hf2]; subst. inversion Hf2 as [|? ? F3 _]; subst.
  inversion Ho as [|? ? O1 _]; subst. simpl in Hn1, Hn2.
  apply free_plain in F1. apply free_plain in F2. apply free_plain in F3.
  destruct F1 as (i & E1 & P1), F2 as (j & E2 & P2), F3 as (k & E3 & P3).
  rewrite Hr in E1. rewrite Hil in E2. rewrite His in E3. injection E1 as <-. injection E2 as <-. injection E3 as <-.
  exists ir, il, is_. repeat (split; [assumption|]). do 3 (split; [intro; subst; tauto|]).
  repeat (split; [assumption|]). left. tauto.
Qed.
Lemma point_reach conv s : auto_unlink pol = true ->
  reachable pol (set_parametrization_rein pol "mass" "mass" conv) (rein_free "mass")
    (new_object "Rein" ["Rein"; "z_l"; "z_s"] ["mass"]) s -> rein_inv "mass" "mass" conv s.
Proof.
  intros Eau. induction 1 as [s H|s v _ IH|s k r _ IH Hk].
  - apply rein_new; exact H.
  - cbn [perform]. destruct (set_point_inv pol conv s v Eau IH) as (r & -> & Hv & Hi).
    destruct (String.eqb_spec v "Rein"); [apply Hv; tauto|].
    destruct (String.eqb_spec v "mass"); [apply Hv; tauto|]. rewrite Hi by tauto. exact IH.
  - cbn [perform]. destruct (rein_assign_inv pol "mass" "mass" conv s k (literal r) ltac:(discriminate) IH Hk (literal_plain r)) as (s' & -> & H & _). exact H.
Qed.
Lemma sie_reach conv s : auto_unlink pol = true ->
  reachable pol (set_parametrization_rein pol "velocity_dispersion" "sigma_v" conv) (rein_free "sigma_v")
    (new_object "Rein" ["Rein"; "z_l"; "z_s"] ["sigma_v"]) s -> rein_inv "velocity_dispersion" "sigma_v" conv s.
Proof.
  intros Eau. induction 1 as [s H|s v _ IH|s k r _ IH Hk].
  - apply rein_new; exact H.
  - cbn [perform]. destruct (set_sie_inv pol conv s v Eau IH) as (r & -> & Hv & Hi).
    destruct (String.eqb_spec v "Rein"); [apply Hv; tauto|].
    destruct (String.eqb_spec v "velocity_dispersion"); [apply Hv; tauto|]. rewrite Hi by tauto. exact IH.
  - cbn [perform]. destruct (rein_assign_inv pol "velocity_dispersion" "sigma_v" conv s k (literal r) ltac:(discriminate) IH Hk (literal_plain r)) as (s' & -> & H & _). exact H.
Qed.
Lemma rein_observe alt ap conv s : alt <> "Rein" -> ap <> "z_l" -> ap <> "z_s" -> rein_inv alt ap conv s ->
  (sys s = "Rein" /\ absent s ap /\ is_free s "Rein") \/
  (sys s = alt /\ is_free s ap /\ depends_on s "Rein" [ap; "z_s"; "z_l"] /\
   forall m zl zs, value_of s ap = Some m -> value_of s "z_l" = Some zl -> value_of s "z_s" = Some zs ->
     value_of s "Rein" = Some (conv m zl zs)).
Proof.
  intros N0 N1 N2 H. pose proof (rein_values alt ap conv s N0 N1 N2 H) as V.
  destruct H as (ir & il & is_ & Hr & Hl & Hs & ? & ? & ? & ? & ? & ? & Pl & Ps & Hc).
  destruct Hc as [(Hy & Hap & Pr)|(Hy & b & Hb & ? & ? & ? & ? & Pb & Er)].
  - left. split; [exact Hy|]. split; [exact Hap|]. eapply plain_free; eassumption.
  - right. split; [exact Hy|]. split; [eapply plain_free; eassumption|].
    split; [exists ir; split; [exact Hr|]; rewrite Er; simpl; rewrite Hb, Hs, Hl; reflexivity|].
    intros m zl zs V1 V2 V3. rewrite (V Hy), V1, V2, V3. reflexivity.
Qed.

(** stale links of Point when caskade does not drop them on assignment *)
Definition point0 : module_ :=
  Module (fun k => if String.eqb k "Rein" then Some 0%nat else if String.eqb k "z_l" then Some 1%nat
                   else if String.eqb k "z_s" then Some 2%nat else None)
         (fun _ => Param Unset []) 3%nat "Rein".
Lemma point0_new ap : ap <> "Rein" -> ap <> "z_l" -> ap <> "z_s" ->
  new_object "Rein" ["Rein"; "z_l"; "z_s"] [ap] point0.
Proof.
  intros N0 N1 N2. split; [reflexivity|]. split.
  - repeat constructor. unfold absent. cbn.
    destruct (String.eqb_spec ap "Rein"); [contradiction|]. destruct (String.eqb_spec ap "z_l"); [contradiction|].
    destruct (String.eqb_spec ap "z_s"); [contradiction|]. reflexivity.
  - exists [0%nat; 1%nat; 2%nat]. split; [reflexivity|].
    split; [repeat constructor; simpl; intuition discriminate|]. split; [repeat constructor|].
    repeat constructor; try (eexists; split; [reflexivity|reflexivity]);
      try (intros (? & ? & _ & Hf); discriminate); unfold exists_param; cbn; discriminate.
Qed.
End Hist.

Lemma switch_cases (pol : policy) (f : string -> M unit) (inv : module_ -> Prop) (names : list string) s v :
  (exists r, f v s = r /\
    (In v names -> snd r = Ok tt /\ sys (fst r) = v /\ inv (fst r) /\ (sys s = v -> fst r = s)) /\
    (~ In v names -> r = (s, Raise ValueError))) ->
  (In v names -> snd (f v s) = Ok tt /\ sys (fst (f v s)) = v /\ (sys s = v -> fst (f v s) = s)) /\
  (~ In v names -> f v s = (s, Raise ValueError)).
Proof. intros (r & -> & H1 & H2). split; [intros H; destruct (H1 H) as (? & ? & ? & ?); auto|exact H2]. Qed.

Lemma angle_switch pol s v : angle_inv s ->
  (In v ["q_phi"; "e1_e2"; "c1_c2"] -> snd (set_angle_system pol v s) = Ok tt /\
     sys (fst (set_angle_system pol v s)) = v /\ (sys s = v -> fst (set_angle_system pol v s) = s)) /\
  (~ In v ["q_phi"; "e1_e2"; "c1_c2"] -> set_angle_system pol v s = (s, Raise ValueError)).
Proof.
  intros H. apply (switch_cases pol (set_angle_system pol) angle_inv).
  destruct (set_angle_inv pol s v H) as (r & Hr & H1 & H2). exists r. split; [exact Hr|].
  split; [intros Hv; apply H1; simpl in Hv; intuition|intros Hv; apply H2; simpl in Hv; intuition].
Qed.
Lemma shear_switch pol s v : shear_inv s ->
  (In v ["cartesian"; "angular"] -> snd (set_parametrization_shear pol v s) = Ok tt /\
     sys (fst (set_parametrization_shear pol v s)) = v /\ (sys s = v -> fst (set_parametrization_shear pol v s) = s)) /\
  (~ In v ["cartesian"; "angular"] -> set_parametrization_shear pol v s = (s, Raise ValueError)).
Proof.
  intros H. apply (switch_cases pol (set_parametrization_shear pol) shear_inv).
  destruct (set_shear_inv pol s v H) as (r & Hr & H1 & H2). exists r. split; [exact Hr|].
  split; [intros Hv; apply H1; simpl in Hv; intuition|intros Hv; apply H2; simpl in Hv; intuition].
Qed.
Lemma point_switch pol conv s v : auto_unlink pol = true -> rein_inv "mass" "mass" conv s ->
  let set := set_parametrization_rein pol "mass" "mass" conv in
  (In v ["Rein"; "mass"] -> snd (set v s) = Ok tt /\ sys (fst (set v s)) = v /\ (sys s = v -> fst (set v s) = s)) /\
  (~ In v ["Rein"; "mass"] -> set v s = (s, Raise ValueError)).
Proof.
  intros Ea H set. apply (switch_cases pol set (rein_inv "mass" "mass" conv)).
  destruct (set_point_inv pol conv s v Ea H) as (r & Hr & H1 & H2). exists r. split; [exact Hr|].
  split; [intros Hv; apply H1; simpl in Hv; intuition|intros Hv; apply H2; simpl in Hv; intuition].
Qed.
Lemma sie_switch pol conv s v : auto_unlink pol = true -> rein_inv "velocity_dispersion" "sigma_v" conv s ->
  let set := set_parametrization_rein pol "velocity_dispersion" "sigma_v" conv in
  (In v ["Rein"; "velocity_dispersion"] -> snd (set v s) = Ok tt /\ sys (fst (set v s)) = v /\ (sys s = v -> fst (set v s) = s)) /\
  (~ In v ["Rein"; "velocity_dispersion"] -> set v s = (s, Raise ValueError)).
Proof.
  intros Ea H set. apply (switch_cases pol set (rein_inv "velocity_dispersion" "sigma_v" conv)).
  destruct (set_sie_inv pol conv s v Ea H) as (r & Hr & H1 & H2). exists r. split; [exact Hr|].
  split; [intros Hv; apply H1; simpl in Hv; intuition|intros Hv; apply H2; simpl in Hv; intuition].
Qed.

(** the three theorems on histories *)
Lemma point_stale conv : exists s,
  reachable (Policy false true) (set_parametrization_rein (Policy false true) "mass" "mass" conv) (rein_free "mass")
    (new_object "Rein" ["Rein"; "z_l"; "z_s"] ["mass"]) s /\
  sys s = "Rein" /\ ~ depends_on s "Rein" [] /\
  snd (set_parametrization_rein (Policy false true) "mass" "mass" conv "mass" s) = Raise AttributeError.
Proof.
  eexists. split.
  - eapply (reach_switch _ _ _ _ _ "Rein"), (reach_switch _ _ _ _ _ "mass"), (reach_new _ _ _ _ point0).
    apply point0_new; discriminate.
  - split; [reflexivity|]. split; [|reflexivity].
    intros (i & Hi & L). cbv in Hi. injection Hi as <-. cbv in L. discriminate.
Qed.
Lemma point_stale_any du conv : exists s,
  reachable (Policy false du) (set_parametrization_rein (Policy false du) "mass" "mass" conv) (rein_free "mass")
    (new_object "Rein" ["Rein"; "z_l"; "z_s"] ["mass"]) s /\
  sys s = "Rein" /\ ~ depends_on s "Rein" [].
Proof.
  eexists. split.
  - eapply (reach_switch _ _ _ _ _ "Rein"), (reach_switch _ _ _ _ _ "mass"), (reach_new _ _ _ _ point0).
    apply point0_new; discriminate.
  - split; [reflexivity|].
    intros (i & Hi & L). cbv in Hi. injection Hi as <-. cbv in L. discriminate.
Qed.
