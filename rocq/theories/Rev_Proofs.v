(** * Backpropagation is the transpose of forward differentiation *)
From Coq Require Import Reals List Lra Lia Bool FunctionalExtensionality.
From Coquelicot Require Import Coquelicot.
From Verif Require Import Calc2 Derive1 RealFun Ad_Model Ad_Spec Ad_Proofs AdLens3_Proofs Rev_Model Rev_Spec.
Local Open Scope R_scope.

Section G.
Variable env : nat -> R.
Variable req : nat -> bool.
Variable k : nat.
Notation J e := (jvp env (one_of req k) e).
Notation B e := (back env req e).

Definition dual_ok (e : expr) : Prop :=
  val env e = Fin (ev env e) /\ exists d, snd (J e) = (if needs env req e then Some (Fin d) else None) /\ (needs env req e = false -> d = 0) /\
  forall b, B e (Fin b) k = Fin (b * d).

Lemma val_J e : fst (J e) = val env e.
Proof. apply value_seed_gen. Qed.
Lemma tst_J c : test env (one_of req k) c = tst env c.
Proof. unfold tst. destruct c as [p q|p q]; cbn [test]; rewrite !(value_seed_gen _ env (one_of req k) (fun _ => None)); reflexivity. Qed.

(** one operand: local derivative p *)
Lemma dual_un e a (nf : num -> num) (df : num -> num -> num) (bf : num -> num -> num) v p :
  needs env req e = needs env req a -> fst (J e) = nf (val env a) -> snd (J e) = tan1 (df (val env a)) (snd (J a)) ->
  (needs env req a = true -> forall b, B e (Fin b) k = B a (bf (Fin b) (val env a)) k) -> (needs env req a = false -> forall b, B e (Fin b) k = Fin 0) ->
  ev env e = v -> nf (Fin (ev env a)) = Fin v ->
  (forall t, df (Fin (ev env a)) (Fin t) = Fin (t * p)) -> (forall b, bf (Fin b) (Fin (ev env a)) = Fin (b * p)) ->
  dual_ok a -> dual_ok e.
Proof.
  intros HN HV HT HB HB0 HE HF HD HBF (VA & d & TA & ZA & BA). split; [rewrite <- val_J, HV, VA, HE; exact HF|].
  exists (d * p). rewrite HN, HT, TA. destruct (needs env req a) eqn:N; cbn [tan1].
  - split; [rewrite VA, HD; reflexivity|split; [discriminate|]]. intros b. rewrite (HB eq_refl), VA, HBF, BA. apply Fin_eq. ring.
  - split; [reflexivity|split; [intros _; rewrite (ZA eq_refl); ring|]]. intros b. rewrite (HB0 eq_refl), (ZA eq_refl). apply Fin_eq. ring.
Qed.
(** two operands: local derivatives p, q *)
Lemma dual_bin e a b (nf : num -> num -> num) (da db post : num -> num -> num -> num) (ba bb : num -> num -> num -> num) v p q :
  needs env req e = (needs env req a || needs env req b)%bool -> fst (J e) = nf (val env a) (val env b) ->
  snd (J e) = tan2 (da (val env a) (val env b)) (db (val env a) (val env b)) (post (val env a) (val env b)) (snd (J a)) (snd (J b)) ->
  (needs env req a = true \/ needs env req b = true -> forall c, B e (Fin c) k = nadd (B a (ba (Fin c) (val env a) (val env b)) k) (B b (bb (Fin c) (val env a) (val env b)) k)) ->
  (needs env req e = false -> forall c, B e (Fin c) k = Fin 0) ->
  ev env e = v -> nf (Fin (ev env a)) (Fin (ev env b)) = Fin v ->
  (forall t, post (Fin (ev env a)) (Fin (ev env b)) (da (Fin (ev env a)) (Fin (ev env b)) (Fin t)) = Fin (t * p)) ->
  (forall t, post (Fin (ev env a)) (Fin (ev env b)) (db (Fin (ev env a)) (Fin (ev env b)) (Fin t)) = Fin (t * q)) ->
  (forall s t, post (Fin (ev env a)) (Fin (ev env b)) (nadd (da (Fin (ev env a)) (Fin (ev env b)) (Fin s)) (db (Fin (ev env a)) (Fin (ev env b)) (Fin t))) = Fin (s * p + t * q)) ->
  (forall c, ba (Fin c) (Fin (ev env a)) (Fin (ev env b)) = Fin (c * p)) -> (forall c, bb (Fin c) (Fin (ev env a)) (Fin (ev env b)) = Fin (c * q)) ->
  dual_ok a -> dual_ok b -> dual_ok e.
Proof.
  intros HN HV HT HB HB0 HE HF HDA HDB HDD HBA HBB (VA & d1 & TA & ZA & BA) (VB & d2 & TB & ZB & BB).
  split; [rewrite <- val_J, HV, VA, VB, HE; exact HF|]. exists (d1 * p + d2 * q). rewrite HN in *. rewrite HT, TA, TB, VA, VB.
  assert (HB1 : needs env req a = true \/ needs env req b = true -> forall c, B e (Fin c) k = Fin (c * (d1 * p + d2 * q))).
  { intros N c. rewrite (HB N), VA, VB, HBA, HBB, BA, BB. cbn [nadd lift2]. apply Fin_eq. ring. }
  destruct (needs env req a) eqn:NA, (needs env req b) eqn:NB; cbn [orb tan2].
  - split; [rewrite HDD; reflexivity|split; [discriminate|auto]].
  - split; [rewrite HDA, (ZB eq_refl); apply f_equal, Fin_eq; ring|split; [discriminate|auto]].
  - split; [rewrite HDB, (ZA eq_refl); apply f_equal, Fin_eq; ring|split; [discriminate|auto]].
  - split; [reflexivity|split; [intros _; rewrite (ZA eq_refl), (ZB eq_refl); ring|]].
    intros c. rewrite (HB0 eq_refl), (ZA eq_refl), (ZB eq_refl). apply Fin_eq. ring.
Qed.

Ltac backeq := let c := fresh in intros N c; cbn [needs] in N; cbn [back needs]; rewrite N; reflexivity.
Ltac backeq2 := intros [N|N] c; cbn [back needs]; rewrite N, ?orb_true_r; reflexivity.
Ltac un a nf df bf v p :=
  apply (dual_un _ a nf df bf v p);
  [reflexivity|cbn [jvp fst]; rewrite ?val_J; reflexivity|cbn [jvp snd]; rewrite ?val_J; reflexivity|backeq|backeq|reflexivity| | | |assumption].
Ltac bin a b nf da db post ba bb v p q :=
  apply (dual_bin _ a b nf da db post ba bb v p q);
  [reflexivity|cbn [jvp fst]; rewrite ?val_J; reflexivity|cbn [jvp snd]; rewrite ?val_J; reflexivity|backeq2|backeq|reflexivity| | | | | | |assumption|assumption].
Ltac easy_num := intros; cbn [nadd nsub nmul nneg npow nexp nsin ncos natan natan2 lift1 lift2]; rewrite ?ndiv_fin by assumption;
  cbn [nadd nsub nmul nneg npow nexp nsin ncos natan natan2 lift1 lift2]; rewrite ?ndiv_fin by assumption; apply Fin_eq; try ring; try (field; assumption).

Lemma masked_dual (x : bool) (a : expr) (d b : R) : (forall b, B a (Fin b) k = Fin (b * d)) -> B a (masked (Some x) (Fin b)) k = Fin (if x then b * d else 0).
Proof. intros H. destruct x; cbn [masked]; rewrite H; [reflexivity|apply Fin_eq; ring]. Qed.
Lemma dual_clamp e a (pass : R -> bool) (v : R) :
  needs env req e = needs env req a -> J e = clamped pass v (J a) ->
  (needs env req a = true -> forall b, B e (Fin b) k = B a (masked (passes pass (val env a)) (Fin b)) k) -> (needs env req a = false -> forall b, B e (Fin b) k = Fin 0) ->
  ev env e = (if pass (ev env a) then ev env a else v) -> dual_ok a -> dual_ok e.
Proof.
  intros HN HJ HB HB0 HE (VA & d & TA & ZA & BA). pose proof (val_J a) as VJ. rewrite VA in VJ.
  assert (HJ' : J e = if pass (ev env a) then J a else (Fin v, tan1 (fun _ => Fin 0) (snd (J a)))) by (rewrite HJ; unfold clamped; rewrite VJ; reflexivity).
  split; [rewrite <- val_J, HJ', HE; destruct (pass _); [exact VJ|reflexivity]|].
  exists (if pass (ev env a) then d else 0). rewrite HN, HJ'. split; [|split].
  - destruct (pass _); [exact TA|]. cbn [snd]. rewrite TA. destruct (needs env req a); reflexivity.
  - intros N. destruct (pass _); [exact (ZA N)|reflexivity].
  - intros b. destruct (needs env req a) eqn:N.
    + rewrite (HB eq_refl), VA. cbn [passes]. rewrite (masked_dual _ a d b BA). apply Fin_eq. destruct (pass _); ring.
    + rewrite (HB0 eq_refl). apply Fin_eq. destruct (pass _); [rewrite (ZA eq_refl)|]; ring.
Qed.
Lemma dual_where c a b x : tst env c = Some x -> ev env (Where c a b) = (if x then ev env a else ev env b) -> dual_ok a -> dual_ok b -> dual_ok (Where c a b).
Proof.
  intros HC HE (VA & d1 & TA & ZA & BA) (VB & d2 & TB & ZB & BB).
  assert (HJ : J (Where c a b) = select (Some x) (J a) (J b)) by (cbn [jvp]; rewrite tst_J, HC; reflexivity).
  split; [rewrite <- val_J, HJ, select_fst, HE; destruct x; rewrite val_J; assumption|].
  exists (if x then d1 else d2). split; [|split].
  - rewrite HJ. cbn [needs]. unfold select. rewrite TA, TB.
    destruct x, (needs env req a) eqn:NA, (needs env req b) eqn:NB; cbn [snd orb]; try reflexivity; apply f_equal, Fin_eq; symmetry; auto.
  - cbn [needs]. intros N. apply orb_false_iff in N as [NA NB]. destruct x; auto.
  - intros t. cbn [back needs]. rewrite HC. cbn [option_map]. destruct (needs env req a) eqn:NA, (needs env req b) eqn:NB; cbn [orb].
    1-3: rewrite (masked_dual x a d1 t BA), (masked_dual (negb x) b d2 t BB); cbn [nadd lift2]; apply Fin_eq; destruct x; cbn [negb]; ring.
    apply Fin_eq. destruct x; [rewrite (ZA eq_refl)|rewrite (ZB eq_refl)]; ring.
Qed.

Lemma dual_all : forall e, tame env e -> dual_ok e.
Proof.
  fix IH 1. intros [n|r|a b|a b|a b|a b|a|a|a|a|a|a|a|a|a|a|a b|a n|a p|c a|c a|c a b|a|f a b] T; cbn [tame] in T.
  - split; [reflexivity|]. exists (if req n then (if Nat.eqb n k then 1 else 0) else 0). cbn [jvp snd needs back]. unfold one_of.
    destruct (req n); [split; [reflexivity|split; [discriminate|]]|split; [reflexivity|split; [reflexivity|]]]; intros b; [destruct (Nat.eqb n k)|]; apply Fin_eq; ring.
  - split; [reflexivity|]. exists 0. split; [reflexivity|split; [reflexivity|]]. intros b. apply Fin_eq. ring.
  - destruct T as [A B']. apply IH in A; apply IH in B'.
    bin a b nadd (fun _ _ t : num => t) (fun _ _ t : num => t) (fun _ _ t : num => t) (fun c _ _ : num => c) (fun c _ _ : num => c) (ev env a + ev env b) 1 1; easy_num.
  - destruct T as [A B']. apply IH in A; apply IH in B'.
    bin a b nsub (fun _ _ t : num => t) (fun _ _ t : num => nneg t) (fun _ _ t : num => t) (fun c _ _ : num => c) (fun c _ _ : num => nneg c) (ev env a - ev env b) 1 (-1); easy_num.
  - destruct T as [A B']. apply IH in A; apply IH in B'.
    bin a b nmul (fun _ vb t : num => nmul t vb) (fun va _ t : num => nmul va t) (fun _ _ t : num => t) (fun c _ vb : num => nmul c vb) (fun c va _ : num => nmul c va) (ev env a * ev env b) (ev env b) (ev env a); easy_num.
  - destruct T as (A & B' & Z). apply IH in A; apply IH in B'.
    bin a b ndiv (fun _ _ t : num => t) (fun va vb t : num => nneg (nmul t (ndiv va vb))) (fun _ vb n : num => ndiv n vb) (fun c _ vb : num => ndiv c vb) (fun c va vb : num => nmul (nneg c) (ndiv (ndiv va vb) vb))
      (ev env a / ev env b) (/ ev env b) (- (ev env a / ev env b / ev env b)); easy_num.
  - apply IH in T. un a nneg (fun _ t : num => nneg t) (fun c _ : num => nneg c) (- ev env a) (-1); easy_num.
  - destruct T as [A P]. apply IH in A. pose proof (sqrt_lt_R0 _ P) as Q.
    un a nsqrt (fun v t => ndiv t (nmul (Fin 2) (nsqrt v))) (fun c v => ndiv c (nmul (Fin 2) (nsqrt v))) (sqrt (ev env a)) (/ (2 * sqrt (ev env a)));
      intros; rewrite nsqrt_fin by lra; [reflexivity|..]; cbn [nmul lift2]; rewrite ndiv_fin by lra; reflexivity.
  - destruct T as [A P]. apply IH in A.
    un a nln (fun v t => ndiv t v) (fun c v => ndiv c v) (ln (ev env a)) (/ ev env a); intros; [rewrite nln_fin by lra|rewrite ndiv_fin by lra..]; reflexivity.
  - apply IH in T. un a nexp (fun v t => nmul t (nexp v)) (fun c v => nmul c (nexp v)) (exp (ev env a)) (exp (ev env a)); easy_num.
  - apply IH in T. un a nsin (fun v t => nmul t (ncos v)) (fun c v => nmul c (ncos v)) (sin (ev env a)) (cos (ev env a)); easy_num.
  - apply IH in T. un a ncos (fun v t => nmul t (nneg (nsin v))) (fun c v => nmul c (nneg (nsin v))) (cos (ev env a)) (- sin (ev env a)); easy_num.
  - apply IH in T. pose proof (pow2_ge_0 (ev env a)) as Q. assert (Z : ev env a * ev env a + 1 <> 0) by nra. assert (Z' : ev env a ^ 2 + 1 <> 0) by nra.
    un a natan (fun v t => ndiv t (nadd (npow 2 v) (Fin 1))) (fun c v => ndiv c (nadd (nmul v v) (Fin 1))) (atan (ev env a)) (/ (ev env a ^ 2 + 1)); easy_num.
  - destruct T as [A P]. apply IH in A. assert (Z : 1 - ev env a ^ 2 <> 0) by nra.
    un a natanh (fun v t => ndiv t (nsub (Fin 1) (npow 2 v))) (fun c v => ndiv c (nsub (Fin 1) (npow 2 v))) (atanh (ev env a)) (/ (1 - ev env a ^ 2)); [apply natanh_fin, P|easy_num..].
  - destruct T as [A P]. apply IH in A. assert (Z : 0 < - ev env a ^ 2 + 1) by nra. assert (Z' : 0 < - ev env a * ev env a + 1) by nra.
    un a nacos (fun v t => nmul t (nneg (nrsqrt (nadd (nneg (npow 2 v)) (Fin 1))))) (fun c v => nmul c (nneg (nrsqrt (nadd (nmul (nneg v) v) (Fin 1))))) (acos (ev env a)) (- / sqrt (- ev env a ^ 2 + 1)).
    + apply nacos_fin; lra.
    + intros. cbn [nneg npow nadd lift1 lift2]. rewrite nrsqrt_fin by exact Z. reflexivity.
    + intros. cbn [nneg nmul nadd lift1 lift2]. rewrite nrsqrt_fin by exact Z'. cbn [nneg nmul lift1 lift2]. replace (- ev env a * ev env a) with (- ev env a ^ 2) by ring. reflexivity.
  - destruct T as [A P]. apply IH in A. assert (Z : 0 < ev env a ^ 2 - 1) by nra.
    un a nacosh (fun v t => nmul t (nrsqrt (nsub (npow 2 v) (Fin 1)))) (fun c v => nmul c (nrsqrt (nsub (npow 2 v) (Fin 1)))) (acosh (ev env a)) (/ sqrt (ev env a ^ 2 - 1)).
    + apply nacosh_fin; lra.
    + intros. cbn [npow nsub lift1 lift2]. rewrite nrsqrt_fin by exact Z. reflexivity.
    + intros. cbn [npow nsub lift1 lift2]. rewrite nrsqrt_fin by exact Z. reflexivity.
  - destruct T as (A & B' & Z). apply IH in A; apply IH in B'.
    assert (Q : ev env a ^ 2 + ev env b ^ 2 <> 0) by (destruct Z as [Z|Z]; pose proof (pow2_gt_0 _ Z); pose proof (pow2_ge_0 (ev env a)); pose proof (pow2_ge_0 (ev env b)); lra).
    assert (Q' : ev env a * ev env a + ev env b * ev env b <> 0) by (intros K; apply Q; rewrite <- K; ring).
    bin a b natan2 (fun _ vb t : num => nmul vb t) (fun va _ t : num => nmul (nneg va) t) (fun va vb n : num => ndiv n (nadd (npow 2 va) (npow 2 vb)))
      (fun c va vb : num => nmul (nmul c vb) (ndiv (Fin 1) (nadd (nmul va va) (nmul vb vb)))) (fun c va vb : num => nmul (nmul c (nneg va)) (ndiv (Fin 1) (nadd (nmul va va) (nmul vb vb))))
      (atan2 (ev env a) (ev env b)) (ev env b / (ev env a ^ 2 + ev env b ^ 2)) (- ev env a / (ev env a ^ 2 + ev env b ^ 2)); easy_num.
  - apply IH in T. destruct n as [|m].
    + un a (npow 0) (fun _ _ : num => Fin 0) (fun _ _ : num => Fin 0) (ev env a ^ 0) 0; easy_num.
    + un a (npow (S m)) (fun v t : num => nmul t (nmul (Fin (INR (S m))) (npow m v))) (fun c v : num => nmul c (nmul (Fin (INR (S m))) (npow m v))) (ev env a ^ S m) (INR (S m) * ev env a ^ m); easy_num.
  - destruct T as (A & B' & Z). apply IH in A; apply IH in B'.
    bin a p nrpow (fun va vp t : num => nmul t (nmul vp (nrpow va (nsub vp (Fin 1))))) (fun va vp t : num => nmul t (nmul (nrpow va vp) (nln va))) (fun _ _ t : num => t)
      (fun c va vp : num => nmul c (nmul vp (nrpow va (nsub vp (Fin 1))))) (fun c va vp : num => nmul c (nmul (nrpow va vp) (nln va)))
      (Rpower (ev env a) (ev env p)) (ev env p * Rpower (ev env a) (ev env p - 1)) (Rpower (ev env a) (ev env p) * ln (ev env a));
      intros; cbn [nsub lift2]; rewrite ?nrpow_fin, ?nln_fin by exact Z; reflexivity.
  - apply IH in T. apply (dual_clamp _ a (fun r => if Rle_dec c r then true else false) c); [reflexivity|reflexivity|backeq|backeq| |exact T].
    cbn [ev]. destruct (Rle_dec c (ev env a)); [apply Rmax_left|apply Rmax_right]; lra.
  - apply IH in T. apply (dual_clamp _ a (fun r => if Rle_dec r c then true else false) c); [reflexivity|reflexivity|backeq|backeq| |exact T].
    cbn [ev]. destruct (Rle_dec (ev env a) c); [apply Rmin_left|apply Rmin_right]; lra.
  - destruct T as (C & A & B'). apply IH in A; apply IH in B'. destruct c as [p q|p q]; destruct C as [P Q]; apply IH in P; apply IH in Q; destruct P as [VP _], Q as [VQ _].
    + apply (dual_where _ a b (ltb (ev env p) (ev env q))); [|cbn [ev]; unfold ltb; destruct (Rlt_dec _ _); reflexivity|assumption..].
      unfold tst. cbn [test]. unfold val in VP, VQ. rewrite VP, VQ. reflexivity.
    + apply (dual_where _ a b (eqb (ev env p) (ev env q))); [|cbn [ev]; unfold eqb; destruct (Req_EM_T _ _); reflexivity|assumption..].
      unfold tst. cbn [test]. unfold val in VP, VQ. rewrite VP, VQ. reflexivity.
  - apply IH in T. un a ndenan (fun v t => nmul t (nisfinite v)) (fun c v => nmul c (nisfinite v)) (ev env a) 1; intros; reflexivity.
  - destruct T as (A & B' & T). apply IH in A; apply IH in B'; apply IH in T. destruct A as [VA _], B' as [VB _], T as (VT & d & TD & Z & BD).
    assert (HJ : J (Pick f a b) = J (f (ev env a) (ev env b))) by (cbn [jvp]; rewrite !val_J, VA, VB; reflexivity).
    assert (HN : needs env req (Pick f a b) = needs env req (f (ev env a) (ev env b))) by (cbn [needs]; rewrite VA, VB; reflexivity).
    split; [rewrite <- val_J, HJ, val_J; exact VT|]. exists d. rewrite HJ, HN. split; [exact TD|split; [exact Z|]].
    intros c. cbn [back]. rewrite HN. cbv zeta. rewrite VA, VB, BD. destruct (needs env req _) eqn:N; [reflexivity|]. apply Fin_eq. rewrite (Z eq_refl). ring.
Qed.
End G.

Lemma along_one a req k h : req k = true -> along a (one_of req k) h = bumped a k h.
Proof.
  intros Q. apply functional_extensionality. intros n. unfold along, one_of, bumped. destruct (Nat.eqb_spec n k) as [->|N].
  - rewrite Q. cbn [sval]. ring.
  - destruct (req n); cbn [sval]; ring.
Qed.
(** the gradient is the forward tangent along each argument *)
Lemma grad_is_tangent a req e k : tame a e -> exists d, grad a req e k = Fin d /\ tval (snd (jvp a (one_of req k) e)) = Fin d.
Proof.
  intros T. destruct (dual_all a req k e T) as (_ & d & TD & Z & BD). exists d. unfold grad. rewrite BD, TD. split; [apply Fin_eq; ring|].
  destruct (needs a req e) eqn:N; [reflexivity|]. cbn [tval]. apply Fin_eq. symmetry. auto.
Qed.
Lemma grad_exact_of F t a req : tame a t -> (forall k, req k = true -> ad_exact F t a (one_of req k)) -> grad_exact F t a req.
Proof.
  intros T H k K. destruct (H k K) as (d & _ & TD & D). destruct (grad_is_tangent a req t k T) as (d' & G & TD'). rewrite TD in TD'. injection TD' as <-.
  exists d. split; [exact G|]. apply (is_derive_ext (fun h => F (along a (one_of req k) h))); [|exact D]. intros h. f_equal. apply along_one, K.
Qed.
