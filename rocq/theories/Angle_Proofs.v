From Coq Require Import Reals List String Bool Lra Lia.
From Coquelicot Require Import Coquelicot.
From Verif Require Import Py RealFun Angle_Model Angle_Spec.
Import ListNotations.
Open Scope R_scope.

(** ** conversions *)
Lemma clamp01_id c : 0 <= c <= 1 -> clamp01 c = c.
Proof. intros H; unfold clamp01. rewrite Rmax_left by lra. apply Rmin_left; lra. Qed.
Lemma clamp01_range c : 0 <= clamp01 c <= 1.
Proof.
  unfold clamp01. split; [apply Rmin_glb; [apply Rmax_r|lra]|apply Rmin_r].
Qed.
Lemma half_double a : 2 * (1 / 2 * a) = a.
Proof. field. Qed.

Lemma e_roundtrip e1 e2 : e1 ^ 2 + e2 ^ 2 <= 1 ->
  (let '(q, phi) := e1e2_to_qphi e1 e2 in qphi_to_e1e2 q phi) = (e1, e2).
Proof.
  intros H. unfold e1e2_to_qphi, qphi_to_e1e2, e1e2_to_q, e1e2_to_phi.
  destruct (atan2_polar e1 e2) as [A B].
  assert (Hs := sqrt_pos (e1 ^ 2 + e2 ^ 2)).
  assert (Hs1 : sqrt (e1 ^ 2 + e2 ^ 2) <= 1) by (rewrite <- sqrt_1; apply sqrt_le_1_alt; exact H).
  rewrite clamp01_id by lra. rewrite half_double. set (c := sqrt (e1 ^ 2 + e2 ^ 2)) in *.
  f_equal; [rewrite A at 2|rewrite B at 2]; field; lra.
Qed.

Lemma norm_cs r t : 0 <= r -> sqrt ((r * cos t) ^ 2 + (r * sin t) ^ 2) = r.
Proof.
  intros Hr. replace ((r * cos t) ^ 2 + (r * sin t) ^ 2) with (r ^ 2 * ((sin t)² + (cos t)²)) by (unfold Rsqr; ring).
  rewrite sin2_cos2, Rmult_1_r. apply sqrt_pow2; exact Hr.
Qed.

Lemma q_roundtrip_e q phi : 0 <= q <= 1 ->
  let '(e1, e2) := qphi_to_e1e2 q phi in
  e1e2_to_q e1 e2 = q /\ (q < 1 -> exists k : Z, e1e2_to_phi e1 e2 = phi + IZR k * PI).
Proof.
  intros H. unfold qphi_to_e1e2, e1e2_to_q, e1e2_to_phi.
  replace ((1 - q) * cos (2 * phi) / (1 + q)) with (((1 - q) / (1 + q)) * cos (2 * phi)) by (field; lra).
  replace ((1 - q) * sin (2 * phi) / (1 + q)) with (((1 - q) / (1 + q)) * sin (2 * phi)) by (field; lra).
  assert (Hr : 0 <= (1 - q) / (1 + q) <= 1).
  { split; [apply Rdiv_le_0_compat; lra|]. apply Rmult_le_reg_r with (1 + q); [lra|].
    unfold Rdiv; rewrite Rmult_assoc, Rinv_l; lra. }
  rewrite norm_cs by lra. rewrite clamp01_id by lra. split; [field; lra|].
  intros Hq. destruct (atan2_mod ((1 - q) / (1 + q)) (2 * phi)) as [k Hk].
  { apply Rdiv_lt_0_compat; lra. }
  exists k. rewrite Hk. field.
Qed.

Lemma e_q_range e1 e2 : 0 <= e1e2_to_q e1 e2 <= 1.
Proof.
  unfold e1e2_to_q. destruct (clamp01_range (sqrt (e1 ^ 2 + e2 ^ 2))). set (c := clamp01 _) in *.
  split; [apply Rdiv_le_0_compat; lra|]. apply Rmult_le_reg_r with (1 + c); [lra|].
  unfold Rdiv; rewrite Rmult_assoc, Rinv_l; lra.
Qed.

Lemma c_roundtrip c1 c2 :
  (let '(q, phi) := c1c2_to_qphi c1 c2 in qphi_to_c1c2 q phi) = Some (c1, c2).
Proof.
  unfold c1c2_to_qphi, qphi_to_c1c2, c1c2_to_q, c1c2_to_phi.
  destruct (atan2_polar c1 c2) as [A B].
  assert (Hs := sqrt_pos (c1 ^ 2 + c2 ^ 2)). set (c := sqrt (c1 ^ 2 + c2 ^ 2)) in *.
  assert (Hq : 1 - c / (1 + c) = / (1 + c)) by (field; lra).
  assert (Hp : 0 < / (1 + c)) by (apply Rinv_0_lt_compat; lra).
  destruct (Req_EM_T (1 - c / (1 + c)) 0) as [E|E]; [rewrite Hq in E; lra|].
  rewrite half_double, Hq. f_equal. f_equal; [rewrite A at 2|rewrite B at 2]; field; lra.
Qed.

Lemma q_roundtrip_c q phi : 0 < q <= 1 ->
  exists c1 c2, qphi_to_c1c2 q phi = Some (c1, c2) /\
  c1c2_to_q c1 c2 = q /\ (q < 1 -> exists k : Z, c1c2_to_phi c1 c2 = phi + IZR k * PI).
Proof.
  intros H. unfold qphi_to_c1c2, c1c2_to_q, c1c2_to_phi.
  destruct (Req_EM_T q 0); [lra|]. do 2 eexists. split; [reflexivity|].
  replace ((1 - q) * cos (2 * phi) / q) with (((1 - q) / q) * cos (2 * phi)) by (field; lra).
  replace ((1 - q) * sin (2 * phi) / q) with (((1 - q) / q) * sin (2 * phi)) by (field; lra).
  assert (Hr : 0 <= (1 - q) / q) by (apply Rdiv_le_0_compat; lra).
  rewrite norm_cs by lra. split; [field; lra|].
  intros Hq. destruct (atan2_mod ((1 - q) / q) (2 * phi)) as [k Hk].
  { apply Rdiv_lt_0_compat; lra. }
  exists k. rewrite Hk. field.
Qed.

Lemma c_q_range c1 c2 : 0 < c1c2_to_q c1 c2 <= 1.
Proof.
  unfold c1c2_to_q. assert (Hs := sqrt_pos (c1 ^ 2 + c2 ^ 2)). set (c := sqrt (c1 ^ 2 + c2 ^ 2)) in *.
  replace (1 - c / (1 + c)) with (/ (1 + c)) by (field; lra).
  split; [apply Rinv_0_lt_compat; lra|]. rewrite <- Rinv_1. apply Rinv_le_contravar; lra.
Qed.

(** ** angle_system *)
Definition is_pointer (v : pval) : Prop := match v with Pointer _ => True | _ => False end.

Section Angle.
Variable pol : policy.

Definition plain (p : param) : Prop := ~ is_pointer (val p) /\ links p = [].
Definition inv2 (s : module_) (iq ip : nat) (x y : string) (fq fp : R -> R -> R) : Prop :=
  exists a b, attr s x = Some a /\ attr s y = Some b /\ a <> b /\ a <> iq /\ a <> ip /\ b <> iq /\ b <> ip /\
    (a < next s)%nat /\ (b < next s)%nat /\ plain (heap s a) /\ plain (heap s b) /\
    heap s iq = Param (ptr2 fq x y) [(x, a); (y, b)] /\
    heap s ip = Param (ptr2 fp x y) [(x, a); (y, b)].
Open Scope string_scope.
Definition angle_inv (s : module_) : Prop :=
  exists iq ip, attr s "q" = Some iq /\ attr s "phi" = Some ip /\ iq <> ip /\
    (iq < next s)%nat /\ (ip < next s)%nat /\
    ((sys s = "q_phi" /\ attr s "e1" = None /\ attr s "e2" = None /\ attr s "c1" = None /\ attr s "c2" = None /\
      plain (heap s iq) /\ plain (heap s ip)) \/
     (sys s = "e1_e2" /\ attr s "c1" = None /\ attr s "c2" = None /\
      inv2 s iq ip "e1" "e2" e1e2_to_q e1e2_to_phi) \/
     (sys s = "c1_c2" /\ attr s "e1" = None /\ attr s "e2" = None /\
      inv2 s iq ip "c1" "c2" c1c2_to_q c1c2_to_phi)).


Lemma bind_ok {A B} (m : M A) (f : A -> M B) s s' a r : m s = (s', Ok a) -> f a s' = r -> bindM m f s = r.
Proof. unfold bindM. intros ->. tauto. Qed.
Lemma bind_raise {A B} (m : M A) (f : A -> M B) s s' e : m s = (s', Raise e) -> bindM m f s = (s', Raise e).
Proof. unfold bindM. intros ->. reflexivity. Qed.
Lemma getattr_ok k s i : attr s k = Some i -> getattr k s = (s, Ok i).
Proof. unfold getattr. intros ->. reflexivity. Qed.
Lemma getattr_raise k s : attr s k = None -> getattr k s = (s, Raise AttributeError).
Proof. unfold getattr. intros ->. reflexivity. Qed.
Lemma try_ok m s s' : m s = (s', Ok tt) -> try_attr m s = (s', Ok tt).
Proof. unfold try_attr. intros ->. reflexivity. Qed.
Lemma try_caught m s s' : m s = (s', Raise AttributeError) -> try_attr m s = (s', Ok tt).
Proof. unfold try_attr. intros ->. reflexivity. Qed.
Lemma set_value_ptr k f s i v l : attr s k = Some i -> heap s i = Param v l ->
  set_value pol k (Pointer f) s = (upd_heap i (Param (Pointer f) l) s, Ok tt).
Proof. intros H E. unfold set_value. erewrite bind_ok; [|apply getattr_ok; exact H|reflexivity]. rewrite E. reflexivity. Qed.
Lemma set_value_unset k s i v l l' : attr s k = Some i -> heap s i = Param v l -> (if auto_unlink pol then [] else l) = l' ->
  set_value pol k Unset s = (upd_heap i (Param Unset l') s, Ok tt).
Proof. intros H E <-. unfold set_value. erewrite bind_ok; [|apply getattr_ok; exact H|reflexivity]. rewrite E. reflexivity. Qed.
Lemma link_ok k ch s i c v l : attr s k = Some i -> attr s ch = Some c -> heap s i = Param v l -> lookup ch l = None ->
  link pol k ch s = (upd_heap i (Param v (l ++ [(ch, c)])) s, Ok tt).
Proof.
  intros H H1 E H2. unfold link. erewrite bind_ok; [|apply getattr_ok; exact H|reflexivity].
  erewrite bind_ok; [|apply getattr_ok; exact H1|reflexivity]. rewrite E. cbn [links val]. rewrite H2. reflexivity.
Qed.
Lemma unlink_ok k ch s i c v l l' : attr s k = Some i -> attr s ch = Some c -> heap s i = Param v l ->
  filter (fun kc => negb (Nat.eqb (snd kc) c)) l = l' ->
  unlink k ch s = (upd_heap i (Param v l') s, Ok tt).
Proof.
  intros H H1 E <-. unfold unlink. erewrite bind_ok; [|apply getattr_ok; exact H|reflexivity].
  erewrite bind_ok; [|apply getattr_ok; exact H1|reflexivity]. rewrite E. reflexivity.
Qed.
Lemma unlink_raise k ch s i : attr s k = Some i -> attr s ch = None ->
  unlink k ch s = (s, Raise AttributeError).
Proof.
  intros H H1. unfold unlink. erewrite bind_ok; [|apply getattr_ok; exact H|reflexivity].
  erewrite bind_raise; [reflexivity|apply getattr_raise; exact H1].
Qed.
Lemma delattr_ok k s i : attr s k = Some i -> delattr k s = (upd_attr k None s, Ok tt).
Proof. intros H. unfold delattr. erewrite bind_ok; [|apply getattr_ok; exact H|reflexivity]. reflexivity. Qed.

Ltac neqb :=
  repeat match goal with
  | |- context [Nat.eqb ?a ?a] => rewrite (Nat.eqb_refl a)
  | |- context [Nat.eqb ?a ?b] => rewrite (proj2 (Nat.eqb_neq a b)) by lia
  end.
Ltac use_attr :=
  repeat match goal with H : ?a ?k = Some _ |- context [?a ?k] => rewrite H | H : ?a ?k = None |- context [?a ?k] => rewrite H end.
Ltac use_heap :=
  repeat match goal with H : ?h ?k = Param _ _ |- context [?h ?k] => rewrite H end.
Ltac red1 := cbn [attr heap next sys set_sys upd_attr upd_heap String.eqb Ascii.eqb Bool.eqb val links app filter lookup negb
                  snd fst auto_unlink dup_link_raises ptr2 ptr3].
Ltac step := progress (red1; use_attr; neqb; use_heap).
Ltac run := repeat step.
Ltac side := run; reflexivity.
Ltac aval s k cont :=
  let v := eval cbn [attr heap next sys set_sys upd_attr upd_heap String.eqb Ascii.eqb Bool.eqb] in (attr s k) in
  lazymatch v with
  | Some ?i => cont i
  | ?x => match goal with H : x = Some ?i |- _ => cont i end
  end.
Ltac hval s i cont :=
  let Hh := fresh "Hh" in
  eassert (Hh : heap s i = _) by (run; reflexivity);
  lazymatch type of Hh with _ = Param ?v ?l => cont Hh v l end; clear Hh.
Ltac exec :=
  lazymatch goal with
  | |- bindM _ _ _ = _ =>
      first [eapply bind_ok; [exec | cbv beta; exec] | eapply bind_raise; exec]
  | |- (if ?b then _ else _) _ = _ => let b' := eval cbv in b in change b with b'; cbv iota; exec
  | |- getattr ?k ?s = _ => first [aval s k ltac:(fun i => apply (getattr_ok k s i); side) | apply getattr_raise; side]
  | |- set_value _ ?k ?f ?s = _ =>
      let f' := eval cbv delta [ptr2 ptr3] beta in f in
      lazymatch f' with
      | Unset => aval s k ltac:(fun i => hval s i ltac:(fun Hh v l =>
          let Hf := fresh "Hf" in
          eassert (Hf : (if auto_unlink pol then [] else l) = _)
            by (match goal with H : auto_unlink pol = _ |- _ => rewrite H end; reflexivity);
          eapply (set_value_unset k s i v l); [side|exact Hh|exact Hf]; clear Hf))
      | _ => aval s k ltac:(fun i => hval s i ltac:(fun Hh v l =>
          apply (set_value_ptr k _ s i v l); [side|exact Hh]))
      end
  | |- link _ ?k ?ch ?s = _ => aval s k ltac:(fun i => aval s ch ltac:(fun c => hval s i ltac:(fun Hh v l =>
       apply (link_ok k ch s i c v l); [side|side|exact Hh|reflexivity])))
  | |- unlink ?k ?ch ?s = _ => aval s k ltac:(fun i => first [aval s ch ltac:(fun c => hval s i ltac:(fun Hh v l =>
          let Hf := fresh "Hf" in
          eassert (Hf : filter (fun kc : string * nat => negb (Nat.eqb (snd kc) c)) l = _) by (run; reflexivity);
          eapply (unlink_ok k ch s i c v l); [side|side|exact Hh|exact Hf]; clear Hf))
       | apply (unlink_raise k ch s i); side])
  | |- delattr ?k ?s = _ => aval s k ltac:(fun i => apply (delattr_ok k s i); side)
  | |- new_param _ _ = _ => reflexivity
  | |- set_sys _ _ = _ => reflexivity
  | |- get_sys _ = _ => reflexivity
  | |- ret _ _ = _ => reflexivity
  | |- try_attr _ _ = _ => first [eapply try_ok; exec | eapply try_caught; exec]
  end.
Ltac op := exec.

Ltac exec_with f :=
  match goal with |- context [f ?v ?s] =>
    let E := fresh "E" in
    eassert (E : f v s = _);
    [unfold set_parametrization_shear, set_parametrization_rein;
     cbn [existsb String.eqb Ascii.eqb Bool.eqb orb negb]; eapply bind_ok; [exec|];
     cbn [sys String.eqb Ascii.eqb Bool.eqb andb negb];
     eapply bind_ok; [exec|]; cbv beta; eapply bind_ok; [exec|reflexivity] | rewrite E; clear E]
  end.
Ltac exec_angle :=
  match goal with |- context [set_angle_system ?p ?v ?s] =>
    let E := fresh "E" in
    eassert (E : set_angle_system p v s = _);
    [unfold set_angle_system; cbn [existsb String.eqb Ascii.eqb Bool.eqb orb negb]; eapply bind_ok; [op|];
     cbn [sys String.eqb Ascii.eqb Bool.eqb andb negb]; eapply bind_ok; [exec|reflexivity] | rewrite E; clear E]
  end.

Lemma plain_inv p : plain p -> exists v, p = Param v [] /\ ~ is_pointer v.
Proof. destruct p as [v l]; unfold plain; simpl; intros [H ->]; eauto. Qed.

Lemma set_angle_inv s v : angle_inv s ->
  exists r, set_angle_system pol v s = r /\
  ((v = "q_phi" \/ v = "e1_e2" \/ v = "c1_c2") -> snd r = Ok tt /\ sys (fst r) = v /\ angle_inv (fst r) /\ (sys s = v -> fst r = s)) /\
  (~ (v = "q_phi" \/ v = "e1_e2" \/ v = "c1_c2") -> r = (s, Raise ValueError)).
Proof.
  intros H. eexists; split; [reflexivity|]. split.
  2:{ intros Hv. unfold set_angle_system.
      replace (existsb (String.eqb v) ["q_phi"; "e1_e2"; "c1_c2"]) with false; [reflexivity|].
      symmetry. cbn [existsb].
      destruct (String.eqb_spec v "q_phi"); [tauto|]. destruct (String.eqb_spec v "e1_e2"); [tauto|].
      destruct (String.eqb_spec v "c1_c2"); [tauto|]. reflexivity. }
  destruct s as [a h n y]. destruct H as (iq & ip & Hq & Hp & Hne & Hlq & Hlp & Hc).
  cbn [attr heap next sys] in *.

  intros [->|[->| ->]].
  - (* to q_phi *)
    destruct Hc as [(-> & H1 & H2 & H3 & H4 & Pq & Pp)|[(-> & H3 & H4 & (b & c & Hb & Hc & N))|(-> & H1 & H2 & (b & c & Hb & Hc & N))]];
      cbn [attr heap next sys] in *.
    + exec_angle. split; [reflexivity|]. split; [reflexivity|]. split; [|reflexivity].
      exists iq, ip. cbn. repeat (split; [assumption|]). left. tauto.
    + destruct N as (? & ? & ? & ? & ? & ? & ? & Pb & Pc & Eq & Ep). 
      destruct (auto_unlink pol) eqn:Eau; exec_angle;
      (split; [reflexivity|split; [reflexivity|split; [|discriminate]]]);
      (exists iq, ip; run; repeat (split; [assumption || reflexivity|]); left; repeat (split; [assumption || reflexivity|]);
       split; (split; [simpl; tauto|reflexivity])).
    + destruct N as (? & ? & ? & ? & ? & ? & ? & Pb & Pc & Eq & Ep). 
      destruct (auto_unlink pol) eqn:Eau; exec_angle;
      (split; [reflexivity|split; [reflexivity|split; [|discriminate]]]);
      (exists iq, ip; run; repeat (split; [assumption || reflexivity|]); left; repeat (split; [assumption || reflexivity|]);
       split; (split; [simpl; tauto|reflexivity])).
  - (* to e1_e2 *)
    destruct Hc as [(-> & H1 & H2 & H3 & H4 & Pq & Pp)|[(-> & H3 & H4 & (b & c & Hb & Hc & N))|(-> & H1 & H2 & (b & c & Hb & Hc & N))]];
      cbn [attr heap next sys] in *.
    + apply plain_inv in Pq. apply plain_inv in Pp. destruct Pq as (vq & Eq & _), Pp as (vp & Ep & _). exec_angle.
      split; [reflexivity|split; [reflexivity|split; [|discriminate]]].
      exists iq, ip. run. repeat (split; [assumption || reflexivity || lia|]). right; left.
      repeat (split; [assumption || reflexivity|]). exists n, (S n). run.
      repeat (split; [reflexivity || lia|]). repeat split; try reflexivity; simpl; tauto.
    + exec_angle. split; [reflexivity|]. split; [reflexivity|]. split; [|reflexivity].
      exists iq, ip. cbn. repeat (split; [assumption|]). right; left. repeat (split; [assumption || reflexivity|]).
      exists b, c. cbn. tauto.
    + destruct N as (? & ? & ? & ? & ? & ? & ? & Pb & Pc & Eq & Ep). exec_angle.
      split; [reflexivity|split; [reflexivity|split; [|discriminate]]].
      exists iq, ip. run. repeat (split; [assumption || reflexivity || lia|]). right; left.
      repeat (split; [assumption || reflexivity|]). exists n, (S n). run.
      repeat (split; [reflexivity || lia|]). repeat split; try reflexivity; simpl; tauto.
  - (* to c1_c2 *)
    destruct Hc as [(-> & H1 & H2 & H3 & H4 & Pq & Pp)|[(-> & H3 & H4 & (b & c & Hb & Hc & N))|(-> & H1 & H2 & (b & c & Hb & Hc & N))]];
      cbn [attr heap next sys] in *.
    + apply plain_inv in Pq. apply plain_inv in Pp. destruct Pq as (vq & Eq & _), Pp as (vp & Ep & _). exec_angle.
      split; [reflexivity|split; [reflexivity|split; [|discriminate]]].
      exists iq, ip. run. repeat (split; [assumption || reflexivity || lia|]). right; right.
      repeat (split; [assumption || reflexivity|]). exists n, (S n). run.
      repeat (split; [reflexivity || lia|]). repeat split; try reflexivity; simpl; tauto.
    + destruct N as (? & ? & ? & ? & ? & ? & ? & Pb & Pc & Eq & Ep). exec_angle.
      split; [reflexivity|split; [reflexivity|split; [|discriminate]]].
      exists iq, ip. run. repeat (split; [assumption || reflexivity || lia|]). right; right.
      repeat (split; [assumption || reflexivity|]). exists n, (S n). run.
      repeat (split; [reflexivity || lia|]). repeat split; try reflexivity; simpl; tauto.
    + exec_angle. split; [reflexivity|]. split; [reflexivity|]. split; [|reflexivity].
      exists iq, ip. cbn. repeat (split; [assumption|]). right; right. repeat (split; [assumption || reflexivity|]).
      exists b, c. cbn. tauto.
Qed.

(** user assignments to a parameter *)
Lemma set_value_plain k v s i : attr s k = Some i -> plain (heap s i) -> ~ is_pointer v ->
  set_value pol k v s = (upd_heap i (Param v []) s, Ok tt).
Proof.
  intros H P Hv. unfold set_value. erewrite bind_ok; [|apply getattr_ok; exact H|reflexivity].
  destruct P as [_ ->]. destruct v; [| |simpl in Hv; tauto]; destruct (auto_unlink pol); reflexivity.
Qed.
Lemma plain_upd v i s j : ~ is_pointer v -> plain (heap s j) -> plain (heap (upd_heap i (Param v []) s) j).
Proof. intros Hv P. cbn. destruct (Nat.eqb j i); [split; [exact Hv|reflexivity]|exact P]. Qed.
Lemma heap_upd_other i p s j : j <> i -> heap (upd_heap i p s) j = heap s j.
Proof. intros H. cbn. rewrite (proj2 (Nat.eqb_neq j i)) by exact H. reflexivity. Qed.

Lemma assign_inv s k v : angle_inv s -> In k (free_params (sys s)) -> ~ is_pointer v ->
  exists s', set_value pol k v s = (s', Ok tt) /\ angle_inv s' /\ sys s' = sys s.
Proof.
  intros (iq & ip & Hq & Hp & Hne & Hlq & Hlp & Hc) Hk Hv.
  assert (K : exists i, attr s k = Some i /\ plain (heap s i) /\ angle_inv (upd_heap i (Param v []) s)).
  { destruct Hc as [(Hs & H1 & H2 & H3 & H4 & Pq & Pp)|[(Hs & H3 & H4 & (b & c & Hb & Hc & N))|(Hs & H1 & H2 & (b & c & Hb & Hc & N))]];
    rewrite Hs in Hk; cbn in Hk.
    - assert (A : forall i, angle_inv (upd_heap i (Param v []) s)).
      { intros i. exists iq, ip. repeat (split; [assumption|]). left. repeat (split; [assumption|]).
        split; apply plain_upd; assumption. }
      destruct Hk as [<-|[<-|[]]]; eexists; (split; [eassumption|split; [assumption|apply A]]).
    - destruct N as (? & ? & ? & ? & ? & ? & ? & Pb & Pc & Eq & Ep).
      assert (A : forall i, i <> iq -> i <> ip -> angle_inv (upd_heap i (Param v []) s)).
      { intros i Hi Hj. exists iq, ip. repeat (split; [assumption|]). right; left. repeat (split; [assumption|]).
        exists b, c. repeat (split; [assumption|]). split; [apply plain_upd; assumption|]. split; [apply plain_upd; assumption|].
        rewrite !heap_upd_other by (intro; subst; congruence). split; assumption. }
      destruct Hk as [<-|[<-|[]]]; eexists; (split; [eassumption|split; [assumption|apply A; assumption]]).
    - destruct N as (? & ? & ? & ? & ? & ? & ? & Pb & Pc & Eq & Ep).
      assert (A : forall i, i <> iq -> i <> ip -> angle_inv (upd_heap i (Param v []) s)).
      { intros i Hi Hj. exists iq, ip. repeat (split; [assumption|]). right; right. repeat (split; [assumption|]).
        exists b, c. repeat (split; [assumption|]). split; [apply plain_upd; assumption|]. split; [apply plain_upd; assumption|].
        rewrite !heap_upd_other by (intro; subst; congruence). split; assumption. }
      destruct Hk as [<-|[<-|[]]]; eexists; (split; [eassumption|split; [assumption|apply A; assumption]]). }
  destruct K as (i & Hi & P & A). eexists. split; [apply set_value_plain; eassumption|]. split; [exact A|reflexivity].
Qed.

(** ** external shear *)
Definition shear_inv (s : module_) : Prop :=
  exists iq ip, attr s "gamma_1" = Some iq /\ attr s "gamma_2" = Some ip /\ iq <> ip /\
    (iq < next s)%nat /\ (ip < next s)%nat /\
    ((sys s = "cartesian" /\ attr s "gamma" = None /\ attr s "phi" = None /\
      plain (heap s iq) /\ plain (heap s ip)) \/
     (sys s = "angular" /\ inv2 s iq ip "gamma" "phi" gamma_phi_to_gamma1 gamma_phi_to_gamma2)).

Lemma set_shear_inv s v : shear_inv s ->
  exists r, set_parametrization_shear pol v s = r /\
  ((v = "cartesian" \/ v = "angular") -> snd r = Ok tt /\ sys (fst r) = v /\ shear_inv (fst r) /\ (sys s = v -> fst r = s)) /\
  (~ (v = "cartesian" \/ v = "angular") -> r = (s, Raise ValueError)).
Proof.
  intros H. eexists; split; [reflexivity|]. split.
  2:{ intros Hv. unfold set_parametrization_shear.
      replace (existsb (String.eqb v) ["cartesian"; "angular"]) with false; [reflexivity|].
      symmetry. cbn [existsb].
      destruct (String.eqb_spec v "cartesian"); [tauto|]. destruct (String.eqb_spec v "angular"); [tauto|]. reflexivity. }
  destruct s as [a h n y]. destruct H as (iq & ip & Hq & Hp & Hne & Hlq & Hlp & Hc).
  cbn [attr heap next sys] in *.
  intros [->| ->].
  - destruct Hc as [(-> & H1 & H2 & Pq & Pp)|(-> & (b & c & Hb & Hc & N))];
      cbn [attr heap next sys] in *.
    + exec_with (set_parametrization_shear pol). split; [reflexivity|]. split; [reflexivity|]. split; [|reflexivity].
      exists iq, ip. cbn. repeat (split; [assumption|]). left. tauto.
    + destruct N as (? & ? & ? & ? & ? & ? & ? & Pb & Pc & Eq & Ep).
      destruct (auto_unlink pol) eqn:Eau; exec_with (set_parametrization_shear pol);
      (split; [reflexivity|split; [reflexivity|split; [|discriminate]]]);
      (exists iq, ip; run; repeat (split; [assumption || reflexivity|]); left; repeat (split; [assumption || reflexivity|]);
       split; (split; [simpl; tauto|reflexivity])).
  - destruct Hc as [(-> & H1 & H2 & Pq & Pp)|(-> & (b & c & Hb & Hc & N))];
      cbn [attr heap next sys] in *.
    + apply plain_inv in Pq. apply plain_inv in Pp. destruct Pq as (vq & Eq & _), Pp as (vp & Ep & _).
      exec_with (set_parametrization_shear pol).
      split; [reflexivity|split; [reflexivity|split; [|discriminate]]].
      exists iq, ip. run. repeat (split; [assumption || reflexivity || lia|]). right.
      repeat (split; [assumption || reflexivity|]). exists n, (S n). run.
      repeat (split; [reflexivity || lia|]). repeat split; try reflexivity; simpl; tauto.
    + exec_with (set_parametrization_shear pol). split; [reflexivity|]. split; [reflexivity|]. split; [|reflexivity].
      exists iq, ip. cbn. repeat (split; [assumption|]). right. repeat (split; [assumption || reflexivity|]).
      exists b, c. cbn. tauto.
Qed.

(** ** Rein *)
Definition rein_inv (alt ap : string) (conv : R -> R -> R -> R) (s : module_) : Prop :=
  exists ir il is_, attr s "Rein" = Some ir /\ attr s "z_l" = Some il /\ attr s "z_s" = Some is_ /\
    ir <> il /\ ir <> is_ /\ il <> is_ /\ (ir < next s)%nat /\ (il < next s)%nat /\ (is_ < next s)%nat /\
    plain (heap s il) /\ plain (heap s is_) /\
    ((sys s = "Rein" /\ attr s ap = None /\ plain (heap s ir)) \/
     (sys s = alt /\ exists a, attr s ap = Some a /\ a <> ir /\ a <> il /\ a <> is_ /\ (a < next s)%nat /\ plain (heap s a) /\
      heap s ir = Param (ptr3 conv ap "z_l" "z_s") [(ap, a); ("z_s", is_); ("z_l", il)])).

Lemma set_point_inv conv s v : auto_unlink pol = true -> rein_inv "mass" "mass" conv s ->
  exists r, set_parametrization_rein pol "mass" "mass" conv v s = r /\
  ((v = "Rein" \/ v = "mass") -> snd r = Ok tt /\ sys (fst r) = v /\ rein_inv "mass" "mass" conv (fst r) /\ (sys s = v -> fst r = s)) /\
  (~ (v = "Rein" \/ v = "mass") -> r = (s, Raise ValueError)).
Proof.
  intros Eau H. eexists. split; [reflexivity|]. split.
  - destruct H as (ir & il & is_ & Hr & Hl & Hs & ? & ? & ? & ? & ? & ? & Pl & Ps & Hc).
    destruct s as [a h n y]; cbn [attr heap next sys] in *.
    intros [->| ->]; destruct Hc as [(-> & Hap & Pr)|(-> & b & Hb & ? & ? & ? & ? & Pb & Er)].
    + exec_with (set_parametrization_rein pol "mass" "mass" conv). split; [reflexivity|]; split; [reflexivity|]; split; [|reflexivity].
      exists ir, il, is_; cbn [attr heap next sys]; repeat (split; [assumption|]); left; tauto.
    + exec_with (set_parametrization_rein pol "mass" "mass" conv). split; [reflexivity|]; split; [reflexivity|]; split; [|discriminate].
      exists ir, il, is_; run; repeat (split; [assumption || reflexivity|]); left; repeat (split; [assumption || reflexivity|]).
      split; [simpl; tauto|reflexivity].
    + apply plain_inv in Pr; destruct Pr as (vr & Er & _).
      exec_with (set_parametrization_rein pol "mass" "mass" conv). split; [reflexivity|]; split; [reflexivity|]; split; [|discriminate].
      exists ir, il, is_; run; repeat (split; [assumption || reflexivity || lia|]); right; split; [reflexivity|].
      exists n; run; repeat (split; [reflexivity || lia|]); split; [split; [simpl; tauto|reflexivity]|reflexivity].
    + exec_with (set_parametrization_rein pol "mass" "mass" conv). split; [reflexivity|]; split; [reflexivity|]; split; [|reflexivity].
      exists ir, il, is_; cbn [attr heap next sys]; repeat (split; [assumption|]); right; split; [reflexivity|].
      exists b; tauto.
  - intros Hv; unfold set_parametrization_rein; cbn [existsb].
    destruct (String.eqb_spec v "Rein"); [tauto|].
    destruct (String.eqb_spec v "mass"); [tauto|]. reflexivity.
Qed.
Lemma set_sie_inv conv s v : auto_unlink pol = true -> rein_inv "velocity_dispersion" "sigma_v" conv s ->
  exists r, set_parametrization_rein pol "velocity_dispersion" "sigma_v" conv v s = r /\
  ((v = "Rein" \/ v = "velocity_dispersion") -> snd r = Ok tt /\ sys (fst r) = v /\
     rein_inv "velocity_dispersion" "sigma_v" conv (fst r) /\ (sys s = v -> fst r = s)) /\
  (~ (v = "Rein" \/ v = "velocity_dispersion") -> r = (s, Raise ValueError)).
Proof.
  intros Eau H. eexists. split; [reflexivity|]. split.
  - destruct H as (ir & il & is_ & Hr & Hl & Hs & ? & ? & ? & ? & ? & ? & Pl & Ps & Hc).
    destruct s as [a h n y]; cbn [attr heap next sys] in *.
    intros [->| ->]; destruct Hc as [(-> & Hap & Pr)|(-> & b & Hb & ? & ? & ? & ? & Pb & Er)].
    + exec_with (set_parametrization_rein pol "velocity_dispersion" "sigma_v" conv). split; [reflexivity|]; split; [reflexivity|]; split; [|reflexivity].
      exists ir, il, is_; cbn [attr heap next sys]; repeat (split; [assumption|]); left; tauto.
    + exec_with (set_parametrization_rein pol "velocity_dispersion" "sigma_v" conv). split; [reflexivity|]; split; [reflexivity|]; split; [|discriminate].
      exists ir, il, is_; run; repeat (split; [assumption || reflexivity|]); left; repeat (split; [assumption || reflexivity|]).
      split; [simpl; tauto|reflexivity].
    + apply plain_inv in Pr; destruct Pr as (vr & Er & _).
      exec_with (set_parametrization_rein pol "velocity_dispersion" "sigma_v" conv). split; [reflexivity|]; split; [reflexivity|]; split; [|discriminate].
      exists ir, il, is_; run; repeat (split; [assumption || reflexivity || lia|]); right; split; [reflexivity|].
      exists n; run; repeat (split; [reflexivity || lia|]); split; [split; [simpl; tauto|reflexivity]|reflexivity].
    + exec_with (set_parametrization_rein pol "velocity_dispersion" "sigma_v" conv). split; [reflexivity|]; split; [reflexivity|]; split; [|reflexivity].
      exists ir, il, is_; cbn [attr heap next sys]; repeat (split; [assumption|]); right; split; [reflexivity|].
      exists b; tauto.
  - intros Hv; unfold set_parametrization_rein; cbn [existsb].
    destruct (String.eqb_spec v "Rein"); [tauto|].
    destruct (String.eqb_spec v "velocity_dispersion"); [tauto|]. reflexivity.
Qed.

Lemma shear_assign_inv s k v : shear_inv s -> In k (shear_free (sys s)) -> ~ is_pointer v ->
  exists s', set_value pol k v s = (s', Ok tt) /\ shear_inv s' /\ sys s' = sys s.
Proof.
  intros (iq & ip & Hq & Hp & Hne & Hlq & Hlp & Hc) Hk Hv.
  assert (K : exists i, attr s k = Some i /\ plain (heap s i) /\ shear_inv (upd_heap i (Param v []) s)).
  { destruct Hc as [(Hs & H1 & H2 & Pq & Pp)|(Hs & (b & c & Hb & Hc & N))];
    rewrite Hs in Hk; cbn in Hk.
    - assert (A : forall i, shear_inv (upd_heap i (Param v []) s)).
      { intros i. exists iq, ip. repeat (split; [assumption|]). left. repeat (split; [assumption|]).
        split; apply plain_upd; assumption. }
      destruct Hk as [<-|[<-|[]]]; eexists; (split; [eassumption|split; [assumption|apply A]]).
    - destruct N as (? & ? & ? & ? & ? & ? & ? & Pb & Pc & Eq & Ep).
      assert (A : forall i, i <> iq -> i <> ip -> shear_inv (upd_heap i (Param v []) s)).
      { intros i Hi Hj. exists iq, ip. repeat (split; [assumption|]). right. repeat (split; [assumption|]).
        exists b, c. repeat (split; [assumption|]). split; [apply plain_upd; assumption|]. split; [apply plain_upd; assumption|].
        rewrite !heap_upd_other by (intro; subst; congruence). split; assumption. }
      destruct Hk as [<-|[<-|[]]]; eexists; (split; [eassumption|split; [assumption|apply A; assumption]]). }
  destruct K as (i & Hi & P & A). eexists. split; [apply set_value_plain; eassumption|]. split; [exact A|reflexivity].
Qed.

Lemma rein_assign_inv alt ap conv s k v : alt <> "Rein" ->
  rein_inv alt ap conv s -> In k (rein_free ap (sys s)) -> ~ is_pointer v ->
  exists s', set_value pol k v s = (s', Ok tt) /\ rein_inv alt ap conv s' /\ sys s' = sys s.
Proof.
  intros Halt (ir & il & is_ & Hr & Hl & Hs & ? & ? & ? & ? & ? & ? & Pl & Ps & Hc) Hk Hv.
  assert (K : exists i, attr s k = Some i /\ plain (heap s i) /\ rein_inv alt ap conv (upd_heap i (Param v []) s)).
  { destruct Hc as [(Hy & Hap & Pr)|(Hy & b & Hb & ? & ? & ? & ? & Pb & Er)];
    rewrite Hy in Hk; unfold rein_free in Hk.
    - rewrite String.eqb_refl in Hk.
      assert (A : forall i, rein_inv alt ap conv (upd_heap i (Param v []) s)).
      { intros i. exists ir, il, is_. repeat (split; [assumption|]). split; [apply plain_upd; assumption|].
        split; [apply plain_upd; assumption|]. left. repeat (split; [assumption|]). apply plain_upd; assumption. }
      destruct Hk as [<-|[<-|[<-|[]]]]; eexists; (split; [eassumption|split; [assumption|apply A]]).
    - destruct (String.eqb_spec alt "Rein"); [contradiction|].
      assert (A : forall i, i <> ir -> rein_inv alt ap conv (upd_heap i (Param v []) s)).
      { intros i Hi. exists ir, il, is_. repeat (split; [assumption|]). split; [apply plain_upd; assumption|].
        split; [apply plain_upd; assumption|]. right. split; [assumption|]. exists b. repeat (split; [assumption|]).
        split; [apply plain_upd; assumption|]. rewrite !heap_upd_other by (intro; subst; congruence). assumption. }
      destruct Hk as [<-|[<-|[<-|[]]]]; eexists; (split; [eassumption|split; [assumption|apply A; congruence]]). }
  destruct K as (i & Hi & P & A). eexists. split; [apply set_value_plain; eassumption|]. split; [exact A|reflexivity].
Qed.

(** ** reading the parameters back *)
Lemma plain_node s i : plain (heap s i) -> node_value s i = plain_value (heap s i).
Proof. intros [H _]. unfold node_value, plain_value. destruct (val (heap s i)); simpl in H; tauto. Qed.
Lemma inv2_values s iq ip x y fq fp nq np : x <> y ->
  attr s nq = Some iq -> attr s np = Some ip -> inv2 s iq ip x y fq fp ->
  let both f := match value_of s x, value_of s y with Some u, Some v => Some (f u v) | _, _ => None end in
  value_of s nq = both fq /\ value_of s np = both fp.
Proof.
  intros Hxy Hq Hp (a & b & Ha & Hb & _ & _ & _ & _ & _ & _ & _ & Pa & Pb & Eq & Ep).
  unfold value_of. rewrite Hq, Hp, Ha, Hb.
  rewrite (plain_node s a Pa), (plain_node s b Pb). unfold node_value at 1 2. rewrite Eq, Ep.
  cbn [val links ptr2 lookup]. rewrite !String.eqb_refl.
  destruct (String.eqb_spec y x); [congruence|]. split; reflexivity.
Qed.
Lemma rein_values alt ap conv s : alt <> "Rein" -> ap <> "z_l" -> ap <> "z_s" ->
  rein_inv alt ap conv s -> sys s = alt ->
  value_of s "Rein" = match value_of s ap, value_of s "z_l", value_of s "z_s" with
                      | Some m, Some u, Some v => Some (conv m u v) | _, _, _ => None end.
Proof.
  intros Halt N1 N2 (ir & il & is_ & Hr & Hl & Hs & ? & ? & ? & ? & ? & ? & Pl & Ps & Hc) Hy.
  destruct Hc as [(Hy' & _)|(_ & b & Hb & ? & ? & ? & ? & Pb & Er)]; [congruence|].
  unfold value_of. rewrite Hr, Hl, Hs, Hb.
  rewrite (plain_node s b Pb), (plain_node s il Pl), (plain_node s is_ Ps). unfold node_value at 1. rewrite Er.
  cbn [val links ptr3 lookup]. rewrite !String.eqb_refl.
  destruct (String.eqb_spec "z_l" ap); [congruence|]. destruct (String.eqb_spec "z_s" ap); [congruence|]. reflexivity.
Qed.
End Angle.
