(** * Proofs for C144 *)
From Coq Require Import Reals Lra Lia ZArith List String.
From Verif Require Import Eval_Model Eval_Spec.
Import ListNotations.
Local Open Scope string_scope.
Local Open Scope R_scope.

Lemma mentions_in e x : In x (co_names e) <-> mentions e x.
Proof.
  induction e; cbn [co_names]; split; intros H; try (now (inversion H)).
  - destruct H as [->|[]]. constructor.
  - inversion H; subst. now left.
  - apply in_app_or in H. destruct H as [H|[->|[]]]; [apply men_attr_in, IHe, H|apply men_attr].
  - apply in_or_app. inversion H; subst; [right; now left|left; apply IHe; assumption].
  - apply men_neg, IHe, H.
  - inversion H; subst. apply IHe; assumption.
  - apply in_app_or in H. destruct H as [H|H]; [apply men_bin_l, IHe1, H|apply men_bin_r, IHe2, H].
  - apply in_or_app. inversion H; subst; [left; apply IHe1|right; apply IHe2]; assumption.
  - apply in_app_or in H. destruct H as [H|H]; [apply men_tup_l, IHe1, H|apply men_tup_r, IHe2, H].
  - apply in_or_app. inversion H; subst; [left; apply IHe1|right; apply IHe2]; assumption.
  - apply men_call, IHe, H.
  - inversion H; subst. apply IHe; assumption.
  - apply in_app_or in H. destruct H as [H|H]; [apply men_call_l, IHe1, H|apply men_call_r, IHe2, H].
  - apply in_or_app. inversion H; subst; [left; apply IHe1|right; apply IHe2]; assumption.
Qed.
Lemma allowed x : negb (existsb (String.eqb x) (map fst allowed_names)) = false <-> x = "pi".
Proof. cbn. rewrite Bool.orb_false_r, Bool.negb_false_iff. apply String.eqb_eq. Qed.
Lemma accepted n e : (forall x, mentions e x -> x = "pi") -> eval_expression n e = eval n None e.
Proof.
  intros H. unfold eval_expression. destruct (find _ (co_names e)) as [x|] eqn:E; [|reflexivity]. apply find_some in E. destruct E as [I N]. apply mentions_in, H, allowed in I. congruence.
Qed.
Lemma rejected n e x : mentions e x -> x <> "pi" -> exists y, mentions e y /\ y <> "pi" /\ eval_expression n e = Raise (NameError y).
Proof.
  intros M N. unfold eval_expression. destruct (find _ (co_names e)) as [y|] eqn:E.
  - apply find_some in E. destruct E as [I B]. exists y. split; [apply mentions_in, I|]. split; [|reflexivity]. intros C. apply allowed in C. congruence.
  - assert (W := find_none _ _ E x (proj2 (mentions_in e x) M)). apply allowed in W. contradiction.
Qed.
Lemma arithmetic_names e x : arithmetic e -> mentions e x -> x = "pi".
Proof. induction e; intros A M; cbn in A; inversion M; subst; try contradiction; try reflexivity; try (apply IHe; assumption); destruct A; [apply IHe1|apply IHe2]; assumption. Qed.

Lemma is_number_real v r : is_number v r <-> to_real v = Some r.
Proof.
  split.
  - intros [(z & -> & ->)| ->]; reflexivity.
  - destruct v; intros H; try discriminate; injection H as <-; [left; eauto|right; reflexivity].
Qed.
(** the result of an operation on two numbers *)
Definition op_real (o : operation) (x y r : R) : Prop :=
  match o with
  | Add => r = x + y | Sub => r = x - y | Mul => r = x * y | Div => y <> 0 /\ r = x / y
  | Pow => (exists k, y = IZR k /\ ((0 <= k)%Z \/ x <> 0) /\ r = powerRZ x k) \/ (0 < x /\ r = Rpower x y) \/ (x = 0 /\ 0 < y /\ r = 0)
  end.
Lemma int_part_IZR k : Int_part (IZR k) = k.
Proof. unfold Int_part. rewrite <- (tech_up (IZR k) (k + 1)); rewrite ?plus_IZR; [lia|lra|lra]. Qed.
Lemma zero_powerRZ k : (0 <= k)%Z -> powerRZ 0 k = if Z.eq_dec k 0 then 1 else 0.
Proof.
  intros K. destruct k as [|p|p]; [reflexivity| |lia]. cbn [powerRZ]. destruct (Z.eq_dec (Z.pos p) 0); [lia|]. apply pow_i. lia.
Qed.
Lemma pow_float_spec x y r : (exists v, pow_float x y = Val v /\ is_number v r) <-> op_real Pow x y r.
Proof.
  unfold pow_float. cbn [op_real]. destruct (Rlt_dec 0 x) as [X|X].
  - split.
    + intros (v & E & N). injection E as <-. apply is_number_real in N. injection N as <-. right. left. split; [exact X|reflexivity].
    + intros [(k & -> & _ & ->)|[[_ ->]|(Z & _ & _)]]; [|eexists; split; [reflexivity|right; reflexivity]|lra]. rewrite powerRZ_Rpower by exact X. eexists. split; [reflexivity|right; reflexivity].
  - destruct (Req_EM_T x 0) as [->|N0].
    + destruct (Rlt_dec 0 y) as [Y|Y].
      * split.
        -- intros (v & E & N). injection E as <-. apply is_number_real in N. injection N as <-. right. right. repeat split; exact Y.
        -- intros [(k & -> & _ & ->)|[[W _]|(_ & _ & ->)]]; [|lra|eexists; split; [reflexivity|right; reflexivity]].
           assert (0 < k)%Z by (apply lt_IZR; exact Y). rewrite zero_powerRZ by lia. destruct (Z.eq_dec k 0); [lia|]. eexists; split; [reflexivity|right; reflexivity].
      * destruct (Req_EM_T y 0) as [->|Y0].
        -- split.
           ++ intros (v & E & N). injection E as <-. apply is_number_real in N. injection N as <-. left. exists 0%Z. split; [reflexivity|]. split; [left; lia|reflexivity].
           ++ intros [(k & E & _ & ->)|[[W _]|(_ & W & _)]]; [|lra|lra]. apply (eq_IZR 0 k) in E. subst k. eexists; split; [reflexivity|right; reflexivity].
        -- split; [intros (v & E & _); discriminate|]. intros [(k & -> & [K|K] & _)|[[W _]|(_ & W & _)]]; try lra. apply IZR_le in K. lra.
    + destruct (Req_EM_T (IZR (Int_part y)) y) as [Y|Y].
      * split.
        -- intros (v & E & N). injection E as <-. apply is_number_real in N. injection N as <-. left. exists (Int_part y). split; [symmetry; exact Y|]. split; [right; exact N0|reflexivity].
        -- intros [(k & -> & _ & ->)|[[W _]|(W & _)]]; [|lra|contradiction]. rewrite int_part_IZR. eexists; split; [reflexivity|right; reflexivity].
      * split; [intros (v & E & _); discriminate|]. intros [(k & -> & _)|[[W _]|(W & _)]]; [rewrite int_part_IZR in Y; contradiction|lra|contradiction].
Qed.
Lemma int_val z r : (exists v, Val (VInt z) = Val v /\ is_number v r) <-> r = IZR z.
Proof. split; [intros (v & E & N); injection E as <-; apply is_number_real in N; injection N as <-; reflexivity|intros ->; eexists; split; [reflexivity|left; eauto]]. Qed.
Lemma float_val s r : (exists v, Val (VFloat s) = Val v /\ is_number v r) <-> r = s.
Proof. split; [intros (v & E & N); injection E as <-; apply is_number_real in N; injection N as <-; reflexivity|intros ->; eexists; split; [reflexivity|right; reflexivity]]. Qed.
Lemma binary_spec o a b x y r : is_number a x -> is_number b y -> ((exists v, binary o a b = Val v /\ is_number v r) <-> op_real o x y r).
Proof.
  assert (D : forall x y, (exists v, (if Req_EM_T y 0 then Raise ZeroDivisionError else Val (VFloat (x / y))) = Val v /\ is_number v r) <-> y <> 0 /\ r = x / y).
  { intros u w. destruct (Req_EM_T w 0) as [W|W]; [split; [intros (v & E & _); discriminate|intros [C _]; contradiction]|]. rewrite float_val. tauto. }
  assert (P : forall m n r, (exists v, binary Pow (VInt m) (VInt n) = Val v /\ is_number v r) <-> op_real Pow (IZR m) (IZR n) r).
  { clear. intros m n r. cbn [binary]. destruct (0 <=? n)%Z eqn:N.
    - apply Z.leb_le in N. rewrite int_val. assert (E : IZR (m ^ n) = powerRZ (IZR m) n) by (destruct n as [|p|p]; [reflexivity| |lia]; change (m ^ Z.pos p)%Z with (Z.pow_pos m p); rewrite Zpower_pos_powerRZ; reflexivity). rewrite E. split.
      + intros ->. left. exists n. repeat split. left. exact N.
      + intros [(k & K & _ & ->)|[[M ->]|(M & K & ->)]].
        * apply eq_IZR in K. now subst k.
        * rewrite powerRZ_Rpower by exact M. reflexivity.
        * rewrite M, zero_powerRZ by exact N. apply lt_IZR in K. destruct (Z.eq_dec n 0); [lia|reflexivity].
    - apply pow_float_spec. }
  intros [(m & -> & ->)| ->] [(n & -> & ->)| ->]; destruct o; try apply P; cbn [binary to_real op_real]; try apply D; try (rewrite int_val, ?plus_IZR, ?minus_IZR, ?mult_IZR; tauto); try (rewrite float_val; tauto); apply pow_float_spec.
Qed.
Lemma numbers_only n e : arithmetic e -> forall v, eval n None e = Val v -> exists r, is_number v r.
Proof.
  assert (P : forall x y v, pow_float x y = Val v -> exists r, is_number v r).
  { intros x y v. unfold pow_float. repeat match goal with |- context [if ?d then _ else _] => destruct d end; intros E; try discriminate; injection E as <-; eexists; right; reflexivity. }
  destruct n; (induction e; intros A v E; cbn in A; try contradiction; cbn [eval] in E;
  [injection E as <-; exists (IZR z); left; eauto|injection E as <-; exists r; right; reflexivity|subst x; injection E as <-; exists PI; right; reflexivity| |]).
  1,3: match type of E with bind ?m _ = _ => destruct m as [w|w|] eqn:M end; try discriminate; cbn [bind] in E; destruct (IHe A w M) as (s & [(z & -> & ->)| ->]); cbn in E; injection E as <-; eexists; [left; eauto|right; reflexivity].
  all: destruct A as [A1 A2]; match type of E with bind ?m _ = _ => destruct m as [w1|w1|] eqn:M1 end; try discriminate; cbn [bind] in E; match type of E with bind ?m _ = _ => destruct m as [w2|w2|] eqn:M2 end; try discriminate; cbn [bind] in E.
  all: destruct (IHe1 A1 w1 M1) as (s1 & [(z1 & -> & ->)| ->]); destruct (IHe2 A2 w2 M2) as (s2 & [(z2 & -> & ->)| ->]); destruct o; cbn [binary to_real] in E; repeat match type of E with context [if ?d then _ else _] => destruct d end; try discriminate;
    try (apply P in E; exact E); injection E as <-; eexists; first [left; eauto; fail|right; reflexivity].
Qed.
Lemma denotes_bin o a b r : denotes (Bin o a b) r <-> exists x y, denotes a x /\ denotes b y /\ op_real o x y r.
Proof.
  split.
  - intros H; inversion H; subst; do 2 eexists; (split; [eassumption|]); (split; [eassumption|]); cbn [op_real]; try reflexivity; try (split; [assumption|reflexivity]).
    + left. eexists. split; [reflexivity|]. split; [assumption|reflexivity].
    + right. left. split; [assumption|reflexivity].
    + right. right. split; [reflexivity|]. split; [assumption|reflexivity].
  - intros (x & y & A & B & O). destruct o; cbn [op_real] in O; try (subst r; constructor; assumption).
    + destruct O as [N ->]. apply den_div; assumption.
    + destruct O as [(k & -> & C & ->)|[[P ->]|(-> & P & ->)]]; [apply den_whole|apply den_pow|apply (den_zero a b y)]; assumption.
Qed.
Lemma same_number v r s : is_number v r -> is_number v s -> r = s.
Proof. intros A B. apply is_number_real in A. apply is_number_real in B. congruence. Qed.
Lemma eval_bin n f o a b : eval n f (Bin o a b) = bind (eval n f a) (fun v => bind (eval n f b) (binary o v)). Proof. destruct n; reflexivity. Qed.
Lemma eval_neg n f a : eval n f (Neg a) = bind (eval n f a) negate. Proof. destruct n; reflexivity. Qed.
Lemma eval_denotes n e : arithmetic e -> forall r, (exists v, eval n None e = Val v /\ is_number v r) <-> denotes e r.
Proof.
  induction e; intros A s; cbn in A; try contradiction.
  - replace (eval n None (Int z)) with (Val (VInt z)) by (destruct n; reflexivity). rewrite int_val. split; [intros ->; constructor|intros H; inversion H; reflexivity].
  - replace (eval n None (Float r)) with (Val (VFloat r)) by (destruct n; reflexivity). rewrite float_val. split; [intros ->; constructor|intros H; inversion H; reflexivity].
  - subst x. replace (eval n None (Name "pi")) with (Val (VFloat PI)) by (destruct n; reflexivity). rewrite float_val. split; [intros ->; constructor|intros H; inversion H; reflexivity].
  - rewrite eval_neg. split.
    + intros (v & E & N). destruct (eval n None e) as [w|w|] eqn:M; try discriminate. cbn [bind] in E. destruct (numbers_only n e A w M) as (t & T). assert (D : denotes e t) by (apply (IHe A); eauto).
      destruct T as [(z & -> & ->)| ->]; cbn in E; injection E as <-; apply is_number_real in N; injection N as <-; [rewrite opp_IZR|]; apply den_neg, D.
    + intros H. inversion H; subst. apply (IHe A) in H1. destruct H1 as (v & E & N). rewrite E. cbn [bind]. destruct N as [(z & -> & ->)| ->]; cbn [negate]; eexists; (split; [reflexivity|]); [left; exists (- z)%Z; split; [reflexivity|rewrite opp_IZR; reflexivity]|right; reflexivity].
  - destruct A as [A1 A2]. rewrite eval_bin, denotes_bin. split.
    + intros (v & E & N). destruct (eval n None e1) as [w1|w1|] eqn:M1; try discriminate. cbn [bind] in E. destruct (eval n None e2) as [w2|w2|] eqn:M2; try discriminate. cbn [bind] in E.
      destruct (numbers_only n e1 A1 w1 M1) as (x & X). destruct (numbers_only n e2 A2 w2 M2) as (y & Y). exists x, y. split; [apply (IHe1 A1); eauto|]. split; [apply (IHe2 A2); eauto|]. apply (binary_spec o w1 w2 x y s X Y). eauto.
    + intros (x & y & X & Y & O). apply (IHe1 A1) in X. apply (IHe2 A2) in Y. destruct X as (v & -> & V). destruct Y as (w & -> & W). cbn [bind]. apply (binary_spec o v w x y s V W). exact O.
Qed.
Lemma value_spec n e r : arithmetic e -> ((exists v, eval_expression n e = Val v /\ is_number v r) <-> denotes e r).
Proof. intros A. rewrite accepted by (intros x; apply arithmetic_names, A). exact (eval_denotes n e A r). Qed.
Lemma pow_raises x y e : pow_float x y = Raise e -> e = ZeroDivisionError.
Proof. unfold pow_float. repeat match goal with |- context [if ?d then _ else _] => destruct d end; intros E; try discriminate; injection E as <-; reflexivity. Qed.
Lemma raises_spec n e x : arithmetic e -> eval_expression n e = Raise x -> x = ZeroDivisionError.
Proof.
  intros A. rewrite accepted by (intros y; apply arithmetic_names, A). revert A x. induction e; intros A y E; cbn in A; try contradiction.
  - destruct n; discriminate.
  - destruct n; discriminate.
  - subst x. destruct n; discriminate.
  - rewrite eval_neg in E. destruct (eval n None e) as [w|w|] eqn:M; cbn [bind] in E; try discriminate; [|injection E as <-; apply (IHe A); reflexivity]. destruct (numbers_only n e A w M) as (t & [(z & -> & ->)| ->]); discriminate.
  - destruct A as [A1 A2]. rewrite eval_bin in E. destruct (eval n None e1) as [w1|w1|] eqn:M1; cbn [bind] in E; try discriminate; [|injection E as <-; apply (IHe1 A1); reflexivity].
    destruct (eval n None e2) as [w2|w2|] eqn:M2; cbn [bind] in E; try discriminate; [|injection E as <-; apply (IHe2 A2); reflexivity].
    destruct (numbers_only n e1 A1 w1 M1) as (s1 & [(z1 & -> & ->)| ->]); destruct (numbers_only n e2 A2 w2 M2) as (s2 & [(z2 & -> & ->)| ->]); destruct o; cbn [binary to_real] in E; repeat match type of E with context [if ?d then _ else _] => destruct d end; try discriminate;
    try (injection E as <-; reflexivity); exact (pow_raises _ _ _ E).
Qed.
Lemma binary_data o a b v : data a -> data b -> binary o a b = Val v -> data v.
Proof.
  assert (P : forall x y v, pow_float x y = Val v -> data v).
  { clear. intros x y v. unfold pow_float. repeat match goal with |- context [if ?d then _ else _] => destruct d end; intros E; try discriminate; injection E as <-; eapply data_number; right; reflexivity. }
  assert (Q : forall l k, (forall w, In w l -> data w) -> data (VTup (List.concat (repeat l k)))).
  { clear. intros l k L. constructor. intros w W. apply in_concat in W. destruct W as (m & M & W). apply repeat_spec in M. subst m. apply L, W. }
  intros A B E. destruct A as [a x [(m & -> & ->)| ->]|l L]; destruct B as [b y [(m' & -> & ->)| ->]|l' L']; destruct o; cbn [binary to_real] in E; repeat match type of E with context [if ?d then _ else _] => destruct d end; try discriminate;
    try (exact (P _ _ _ E)); injection E as <-; try (eapply data_number; left; eexists; split; reflexivity); try (eapply data_number; right; reflexivity); try (apply Q; assumption).
  constructor. intros w W. apply in_app_or in W. destruct W; auto.
Qed.
Lemma data_not_fun v : data v -> (forall x b e, v <> VFun x b e) /\ forall n, v <> VClass n.
Proof. intros [w r [(z & -> & ->)| ->]|l L]; split; intros; discriminate. Qed.
Lemma eval_data n e : no_lambda e -> (forall x, mentions e x -> x = "pi") -> forall v, eval n None e = Val v -> data v.
Proof.
  induction e; intros L M v E; cbn [no_lambda] in L; try contradiction.
  - replace (eval n None (Int z)) with (Val (VInt z)) in E by (destruct n; reflexivity). injection E as <-. eapply data_number. left. eauto.
  - replace (eval n None (Float r)) with (Val (VFloat r)) in E by (destruct n; reflexivity). injection E as <-. eapply data_number. right. reflexivity.
  - rewrite (M x (men_name x)) in E. replace (eval n None (Name "pi")) with (Val (VFloat PI)) in E by (destruct n; reflexivity). injection E as <-. eapply data_number. right. reflexivity.
  - assert (C := M a (men_attr e a)). subst a. replace (eval n None (Attr e "pi")) with (bind (eval n None e) (fun _ => Other)) in E by (destruct n; reflexivity). destruct (eval n None e); discriminate.
  - rewrite eval_neg in E. destruct (eval n None e) as [w|w|] eqn:W; try discriminate. cbn [bind] in E. destruct (IHe L (fun x H => M x (men_neg e x H)) w eq_refl) as [u r [(z & -> & ->)| ->]|l K]; try discriminate; injection E as <-; eapply data_number; [left; eauto|right; reflexivity].
  - rewrite eval_bin in E. destruct (eval n None e1) as [w1|w1|] eqn:W1; try discriminate. cbn [bind] in E. destruct (eval n None e2) as [w2|w2|] eqn:W2; try discriminate. cbn [bind] in E.
    apply (binary_data o w1 w2 v); [apply (IHe1 (proj1 L)); [intros x H; apply M; constructor; exact H|reflexivity]|apply (IHe2 (proj2 L)); [intros x H; apply M; apply men_bin_r; exact H|reflexivity]|exact E].
  - replace (eval n None Tup0) with (Val (VTup [])) in E by (destruct n; reflexivity). injection E as <-. constructor. intros w [].
  - replace (eval n None (Tup2 e1 e2)) with (bind (eval n None e1) (fun v => bind (eval n None e2) (fun w => Val (VTup [v; w])))) in E by (destruct n; reflexivity).
    destruct (eval n None e1) as [w1|w1|] eqn:W1; try discriminate. cbn [bind] in E. destruct (eval n None e2) as [w2|w2|] eqn:W2; try discriminate. cbn [bind] in E. injection E as <-. constructor. intros w [<-|[<-|[]]].
    + apply (IHe1 (proj1 L)); [intros x H; apply M; constructor; exact H|reflexivity].
    + apply (IHe2 (proj2 L)); [intros x H; apply M; apply men_tup_r; exact H|reflexivity].
  - destruct (eval n None e) as [w|w|] eqn:W; [|destruct n; cbn [eval] in E, W; rewrite W in E; discriminate|destruct n; cbn [eval] in E, W; rewrite W in E; discriminate].
    destruct (data_not_fun w (IHe L (fun x H => M x (men_call e x H)) w eq_refl)) as [N1 N2]. destruct n; cbn [eval] in E, W; rewrite W in E; cbn [bind] in E; destruct w; try discriminate; exfalso; eapply N1; reflexivity.
  - destruct (eval n None e1) as [w|w|] eqn:W; [|destruct n; cbn [eval] in E, W; rewrite W in E; discriminate|destruct n; cbn [eval] in E, W; rewrite W in E; discriminate].
    destruct (data_not_fun w (IHe1 (proj1 L) (fun x H => M x (men_call_l e1 e2 x H)) w eq_refl)) as [N1 N2].
    destruct n; cbn [eval] in E, W; rewrite W in E; cbn [bind] in E; match type of E with bind ?m _ = _ => destruct m end; try discriminate; cbn [bind] in E; destruct w; try discriminate; exfalso; eapply N1; reflexivity.
Qed.
Lemma string_dec_pi e : (forall x, mentions e x -> x = "pi") \/ exists x, mentions e x /\ x <> "pi".
Proof.
  destruct (find (fun x => negb (String.eqb x "pi")) (co_names e)) as [x|] eqn:F.
  - right. apply find_some in F. destruct F as [I N]. exists x. split; [apply mentions_in, I|]. intros ->. discriminate.
  - left. intros x M. assert (W := find_none _ _ F x (proj2 (mentions_in e x) M)). apply Bool.negb_false_iff, String.eqb_eq in W. exact W.
Qed.
Lemma plain_results n e v : no_lambda e -> eval_expression n e = Val v -> data v.
Proof.
  intros L E. destruct (string_dec_pi e) as [M|(x & M & N)].
  - rewrite accepted in E by exact M. exact (eval_data n e L M v E).
  - destruct (rejected n e x M N) as (y & _ & _ & W). rewrite W in E. discriminate.
Qed.
(** (lambda: (1).__class__)() *)
Lemma reaches_class n : eval_expression (S n) (Call0 (Lam0 (Attr (Int 1) "__class__"))) = Val (VClass "int").
Proof. unfold eval_expression. cbn [co_names find]. destruct n; reflexivity. Qed.
(** (lambda: pi)() *)
Lemma pi_missing n : eval_expression (S n) (Call0 (Lam0 (Name "pi"))) = Raise (NameError "pi").
Proof. unfold eval_expression. cbn [co_names find]. destruct n; reflexivity. Qed.
Lemma reach_refuted : exists e y v, written e y /\ y <> "pi" /\ (forall n, eval_expression (S n) e = Val v) /\ forall r, ~ is_number v r.
Proof.
  exists (Call0 (Lam0 (Attr (Int 1) "__class__"))), "__class__", (VClass "int"). split; [left; reflexivity|]. split; [discriminate|]. split; [exact reaches_class|]. intros r [(z & E & _)|E]; discriminate.
Qed.
Lemma pi_refuted : exists e, (forall y, written e y -> y = "pi") /\ forall n, eval_expression (S n) e = Raise (NameError "pi").
Proof. exists (Call0 (Lam0 (Name "pi"))). split; [intros y Y; exact Y|exact pi_missing]. Qed.
