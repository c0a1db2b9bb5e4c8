(** * Proofs about forward-mode automatic differentiation *)
From Coq Require Import Reals List Lra Lia.
From Coquelicot Require Import Coquelicot.
From Verif Require Import Calc2 Derive1 RealFun Ad_Model Ad_Spec.
Import ListNotations.
Local Open Scope R_scope.

Section G.
Variable env : nat -> R.
Variable seed : nat -> option R.
Notation J e := (jvp env seed e).
Notation F e := (fun h => ev (along env seed h) e).

Definition Good (e : expr) (d : R) : Prop :=
  fst (J e) = Fin (ev env e) /\ tval (snd (J e)) = Fin d /\ is_derive (F e) 0 d /\
  (snd (J e) = None -> locally 0 (fun h => F e h = ev env e)).

Lemma ev_ext env1 env2 e : (forall n, env1 n = env2 n) -> ev env1 e = ev env2 e.
Proof.
  intros H. revert e. fix IH 1. intros [n|r|a b|a b|a b|a b|a|a|a|a|a|a|a|a|a|a|a b|a n|a p|b a|b a|[p q|p q] a b|a|f a b]; simpl;
  rewrite ?(IH a), ?(IH b), ?(IH p), ?(IH q); auto.
Qed.
Lemma F0 e : F e 0 = ev env e.
Proof. apply ev_ext; intros n; unfold along; ring. Qed.

Lemma good_tangent e d : Good e d -> snd (J e) = None /\ d = 0 \/ snd (J e) = Some (Fin d).
Proof.
  intros (_ & T & _). destruct (snd (J e)) as [t|]; simpl in T; [right; congruence|left; split; congruence].
Qed.

Lemma const_derive (f : R -> R) (c : R) : locally 0 (fun h => f h = c) -> is_derive f 0 0.
Proof.
  intros H. apply (is_derive_ext_loc (fun _ => c)); [revert H; apply filter_imp; intros; congruence|apply dv_const].
Qed.

(** one operand *)
Lemma good_un (nf : num -> num) (df : num -> num -> num) (fr : R -> R) (e a : expr) (d k : R) :
  J e = (nf (fst (J a)), tan1 (df (fst (J a))) (snd (J a))) ->
  (forall env', ev env' e = fr (ev env' a)) ->
  Good a d ->
  nf (Fin (ev env a)) = Fin (fr (ev env a)) ->
  snd (J a) = None \/ (forall t, df (Fin (ev env a)) (Fin t) = Fin (t * k)) /\ is_derive fr (ev env a) k ->
  exists d', Good e d' /\ (snd (J a) <> None -> d' = d * k).
Proof.
  intros HJ HE G HN HD. pose proof G as G0. destruct (good_tangent _ _ G0) as [[T D]|T]; clear G0.
  - exists 0. split; [|intros K; destruct (K T)].
    destruct G as (V & _ & _ & C). specialize (C T).
    assert (C' : locally 0 (fun h => F e h = ev env e)) by (revert C; apply filter_imp; intros h C; rewrite !HE, C; reflexivity).
    unfold Good; rewrite HJ, T; cbn [fst snd tan1 tval]; rewrite V, HN, HE.
    split; [reflexivity|split; [reflexivity|split; [|intros _; rewrite <- HE; exact C']]].
    apply (const_derive _ (ev env e)), C'.
  - destruct HD as [HD|[HD HF]]; [congruence|]. exists (d * k). split; [|auto].
    destruct G as (V & _ & I & _).
    unfold Good; rewrite HJ, T; cbn [fst snd tan1 tval]; rewrite V, HN, HD, HE.
    split; [reflexivity|split; [reflexivity|split; [|discriminate]]].
    apply (is_derive_ext (fun h => fr (F a h))); [intros h; rewrite HE; reflexivity|].
    apply (dv_comp fr (F a)); [rewrite F0; exact HF|exact I].
Qed.

(** two operands *)
Lemma good_bin (nf : num -> num -> num) (da db post : num -> num -> num -> num) (fr : R -> R -> R) (e a b : expr) (d1 d2 ka kb : R) :
  J e = (nf (fst (J a)) (fst (J b)),
         tan2 (da (fst (J a)) (fst (J b))) (db (fst (J a)) (fst (J b))) (post (fst (J a)) (fst (J b))) (snd (J a)) (snd (J b))) ->
  (forall env', ev env' e = fr (ev env' a) (ev env' b)) ->
  Good a d1 -> Good b d2 ->
  nf (Fin (ev env a)) (Fin (ev env b)) = Fin (fr (ev env a) (ev env b)) ->
  snd (J a) = None /\ snd (J b) = None \/
  (forall ta tb, tval (tan2 (da (Fin (ev env a)) (Fin (ev env b))) (db (Fin (ev env a)) (Fin (ev env b))) (post (Fin (ev env a)) (Fin (ev env b)))
       (option_map Fin ta) (option_map Fin tb)) = Fin (sval ta * ka + sval tb * kb)) /\
  (forall f g : R -> R, f 0 = ev env a -> g 0 = ev env b -> is_derive f 0 d1 -> is_derive g 0 d2 -> is_derive (fun h => fr (f h) (g h)) 0 (d1 * ka + d2 * kb)) ->
  exists d', Good e d' /\ (snd (J a) <> None \/ snd (J b) <> None -> d' = d1 * ka + d2 * kb).
Proof.
  intros HJ HE Ga Gb HN HD. pose proof Ga as Ga0; pose proof Gb as Gb0.
  destruct (good_tangent _ _ Ga0) as [[Ta Da]|Ta], (good_tangent _ _ Gb0) as [[Tb Db]|Tb].
  1: { exists 0. split; [|intros [K|K]; [destruct (K Ta)|destruct (K Tb)]].
    destruct Ga as (Va & _ & _ & Ca). specialize (Ca Ta). destruct Gb as (Vb & _ & _ & Cb). specialize (Cb Tb).
    assert (C' : locally 0 (fun h => F e h = ev env e)).
    { generalize (filter_and _ _ Ca Cb). apply filter_imp. intros h [C1 C2]. rewrite !HE, C1, C2. reflexivity. }
    unfold Good; rewrite HJ, Ta, Tb; cbn [fst snd tan2 tval]; rewrite Va, Vb, HN, HE.
    split; [reflexivity|split; [reflexivity|split; [|intros _; rewrite <- HE; exact C']]].
    apply (const_derive _ (ev env e)), C'. }
  all: destruct HD as [[HD1 HD2]|[HD HF]]; [congruence|]; exists (d1 * ka + d2 * kb); split; [|auto];
    destruct Ga as (Va & _ & Ia & _); destruct Gb as (Vb & _ & Ib & _);
    unfold Good; rewrite HJ, Ta, Tb; cbn [fst snd tan2]; rewrite Va, Vb, HN, HE;
    (split; [reflexivity|split; [|split; [|discriminate]]]).
  - specialize (HD None (Some d2)). cbn [option_map tan2 sval] in HD. rewrite HD, Da. reflexivity.
  - apply (is_derive_ext (fun h => fr (F a h) (F b h))); [intros h; rewrite HE; reflexivity|]. apply HF; auto using F0.
  - specialize (HD (Some d1) None). cbn [option_map tan2 sval] in HD. rewrite HD, Db. reflexivity.
  - apply (is_derive_ext (fun h => fr (F a h) (F b h))); [intros h; rewrite HE; reflexivity|]. apply HF; auto using F0.
  - specialize (HD (Some d1) (Some d2)). cbn [option_map tan2 sval] in HD. rewrite HD. reflexivity.
  - apply (is_derive_ext (fun h => fr (F a h) (F b h))); [intros h; rewrite HE; reflexivity|]. apply HF; auto using F0.
Qed.

(** ** The primitives one by one *)
Lemma ndiv_fin a b : b <> 0 -> ndiv (Fin a) (Fin b) = Fin (a / b).
Proof. intros H; unfold ndiv; simpl. destruct (Req_EM_T b 0); [contradiction|reflexivity]. Qed.
Lemma nsqrt_fin a : 0 <= a -> nsqrt (Fin a) = Fin (sqrt a).
Proof. intros H; unfold nsqrt; simpl. destruct (Rlt_dec a 0); [lra|reflexivity]. Qed.
Lemma nln_fin a : 0 < a -> nln (Fin a) = Fin (ln a).
Proof. intros H; unfold nln; simpl. destruct (Rlt_dec a 0); [lra|]. destruct (Req_EM_T a 0); [lra|reflexivity]. Qed.
Lemma nrsqrt_fin a : 0 < a -> nrsqrt (Fin a) = Fin (/ sqrt a).
Proof. intros H; unfold nrsqrt; simpl. destruct (Rlt_dec a 0); [lra|]. destruct (Req_EM_T a 0); [lra|reflexivity]. Qed.
Lemma nrpow_fin a p : 0 < a -> nrpow (Fin a) (Fin p) = Fin (Rpower a p).
Proof. intros H; unfold nrpow; simpl. destruct (Rlt_dec a 0); [lra|]. destruct (Req_EM_T a 0); [lra|reflexivity]. Qed.
Lemma natanh_fin a : -1 < a < 1 -> natanh (Fin a) = Fin (atanh a).
Proof.
  intros H; unfold natanh; simpl. assert (Rabs a < 1) by (apply Rabs_def1; lra).
  destruct (Rlt_dec 1 (Rabs a)); [lra|]. destruct (Req_EM_T (Rabs a) 1); [lra|reflexivity].
Qed.
Lemma nacos_fin a : -1 <= a <= 1 -> nacos (Fin a) = Fin (acos a).
Proof. intros H; unfold nacos; simpl. assert (Rabs a <= 1) by (apply Rabs_le; lra). destruct (Rlt_dec 1 (Rabs a)); [lra|reflexivity]. Qed.
Lemma nacosh_fin a : 1 <= a -> nacosh (Fin a) = Fin (acosh a).
Proof. intros H; unfold nacosh; simpl. destruct (Rlt_dec a 1); [lra|reflexivity]. Qed.

Definition ok (e : expr) : Prop := exists d, Good e d.
Lemma ok_exact e : ok e -> exact env seed e.
Proof. intros [d (A & B & C & _)]; exists d; auto. Qed.
Lemma ok_finite e : ok e -> finite (J e).
Proof. intros [d (A & B & _)]; exists (ev env e), d; auto. Qed.
Lemma ok_value e : ok e -> fst (J e) = Fin (ev env e).
Proof. intros [d (A & _)]; exact A. Qed.

Lemma ok_var n : ok (Var n).
Proof.
  exists (sval (seed n)). split; [reflexivity|]. split; [simpl; destruct (seed n); reflexivity|]. split.
  - simpl. unfold along. apply dv_val with (0 + 1 * sval (seed n)); [|ring].
    apply dv_plus; [apply dv_const|]. apply (dv_val _ _ (1 * sval (seed n) + 0 * 0)); [apply (dv_mult (fun h => h)); [apply dv_id|apply dv_const]|ring].
  - simpl. destruct (seed n) as [d|] eqn:E; [discriminate|]. intros _. apply filter_forall. intros h. unfold along; rewrite E; simpl; ring.
Qed.
Lemma ok_cst r : ok (Cst r).
Proof.
  exists 0. split; [reflexivity|split; [reflexivity|split; [simpl; apply dv_const|intros _; apply filter_forall; reflexivity]]].
Qed.

Ltac un nf df fr k := intros [d G];
  match goal with |- ok ?e => match type of G with Good ?a _ =>
    let d' := fresh in let H := fresh in destruct (good_un nf df fr e a d k) as (d' & H & _);
    [reflexivity|reflexivity|exact G|..|exists d'; exact H] end end.
Ltac bin nf da db post fr ka kb := intros [d1 G1] [d2 G2];
  match goal with |- ok ?e => match type of G1 with Good ?a _ => match type of G2 with Good ?b _ =>
    let d' := fresh in let H := fresh in destruct (good_bin nf da db post fr e a b d1 d2 ka kb) as (d' & H & _);
    [reflexivity|reflexivity|exact G1|exact G2|..|exists d'; exact H] end end end.
Lemma Fin_eq a b : a = b -> Fin a = Fin b.
Proof. congruence. Qed.

Lemma ok_add a b : ok a -> ok b -> ok (Add a b).
Proof.
  bin nadd (fun _ _ t : num => t) (fun _ _ t : num => t) (fun _ _ n : num => n) Rplus 1 1; [reflexivity|right; split].
  - intros [ta|] [tb|]; simpl; apply Fin_eq; ring.
  - intros f g _ _ H1 H2. eapply dv_val; [apply dv_plus; eassumption|ring].
Qed.
Lemma ok_sub a b : ok a -> ok b -> ok (Sub a b).
Proof.
  bin nsub (fun _ _ t : num => t) (fun _ _ t : num => nneg t) (fun _ _ n : num => n) Rminus 1 (-1); [reflexivity|right; split].
  - intros [ta|] [tb|]; simpl; apply Fin_eq; ring.
  - intros f g _ _ H1 H2. eapply dv_val; [apply dv_minus; eassumption|ring].
Qed.
Lemma ok_mul a b : ok a -> ok b -> ok (Mul a b).
Proof.
  bin nmul (fun _ vb t : num => nmul t vb) (fun va _ t : num => nmul va t) (fun _ _ n : num => n) Rmult (ev env b) (ev env a); [reflexivity|right; split].
  - intros [ta|] [tb|]; simpl; apply Fin_eq; ring.
  - intros f g Hf Hg H1 H2. eapply dv_val; [apply dv_mult; eassumption|rewrite Hf, Hg; ring].
Qed.
Lemma ok_div a b : ok a -> ok b -> ev env b <> 0 -> ok (Div a b).
Proof.
  intros Ha Hb Hz; revert Ha Hb. bin ndiv (fun _ _ t : num => t) (fun va vb t => nneg (nmul t (ndiv va vb))) (fun _ vb n : num => ndiv n vb) Rdiv (/ ev env b) (- ev env a / ev env b ^ 2); [apply ndiv_fin, Hz|right; split].
  - intros [ta|] [tb|]; cbn [option_map tan2 sval tval]; rewrite ?ndiv_fin by exact Hz; unfold nneg, nmul, nadd, lift1, lift2;
      rewrite ?ndiv_fin by exact Hz; apply Fin_eq; field; exact Hz.
  - intros f g Hf Hg H1 H2. eapply dv_val; [apply dv_div; [eassumption|eassumption|rewrite Hg; exact Hz]|rewrite Hf, Hg; field; exact Hz].
Qed.
Lemma ok_neg a : ok a -> ok (Neg a).
Proof.
  un nneg (fun _ t : num => nneg t) Ropp (-1); [reflexivity|right; split].
  - intros t; simpl; apply Fin_eq; ring.
  - apply dv_val with (- (1)); [apply dv_opp, dv_id|ring].
Qed.
Lemma ok_sqrt a : ok a -> (snd (J a) = None /\ 0 <= ev env a \/ 0 < ev env a) -> ok (Sqrt a).
Proof.
  intros Ha Hz; revert Ha. un nsqrt (fun v t => ndiv t (nmul (Fin 2) (nsqrt v))) sqrt (/ (2 * sqrt (ev env a))).
  - apply nsqrt_fin; lra.
  - destruct Hz as [[Hz _]|Hz]; [left; exact Hz|right].
    pose proof (sqrt_lt_R0 _ Hz) as Hs. split.
    + intros t. rewrite nsqrt_fin by lra. unfold nmul, lift2. rewrite ndiv_fin by lra. apply Fin_eq; field; lra.
    + apply is_derive_Reals, derivable_pt_lim_sqrt, Hz.
Qed.
Lemma ok_ln a : ok a -> 0 < ev env a -> ok (Ln a).
Proof.
  intros Ha Hz; revert Ha. un nln (fun v t => ndiv t v) ln (/ ev env a).
  - apply nln_fin, Hz.
  - right. split.
    + intros t. rewrite ndiv_fin by lra. reflexivity.
    + apply is_derive_Reals, derivable_pt_lim_ln, Hz.
Qed.
Lemma ok_exp a : ok a -> ok (Exp a).
Proof. un nexp (fun v t => nmul t (nexp v)) exp (exp (ev env a)); [reflexivity|right; split; [reflexivity|apply is_derive_exp]]. Qed.
Lemma ok_sin a : ok a -> ok (Sin a).
Proof. un nsin (fun v t => nmul t (ncos v)) sin (cos (ev env a)); [reflexivity|right; split; [reflexivity|apply is_derive_sin]]. Qed.
Lemma ok_cos a : ok a -> ok (Cos a).
Proof. un ncos (fun v t => nmul t (nneg (nsin v))) cos (- sin (ev env a)); [reflexivity|right; split; [reflexivity|apply is_derive_cos]]. Qed.
Lemma ok_atan a : ok a -> ok (Atan a).
Proof.
  un natan (fun v t => ndiv t (nadd (npow 2 v) (Fin 1))) atan (/ (1 + ev env a ^ 2)); [reflexivity|right; pose proof (sq_ge0 (ev env a)); split].
  - intros t. unfold npow, nadd, lift1, lift2. rewrite ndiv_fin by lra. apply Fin_eq; field; lra.
  - apply is_derive_Reals, derivable_pt_lim_atan.
Qed.
Lemma ok_atanh a : ok a -> -1 < ev env a < 1 -> ok (Atanh a).
Proof.
  intros Ha Hz; revert Ha. un natanh (fun v t => ndiv t (nsub (Fin 1) (npow 2 v))) atanh (/ (1 - ev env a ^ 2)); [apply natanh_fin, Hz|right; split].
  - intros t. unfold npow, nsub, lift1, lift2. rewrite ndiv_fin by nra. apply Fin_eq; field; nra.
  - apply is_derive_atanh, Hz.
Qed.
Lemma ok_acosh a : ok a -> (snd (J a) = None /\ 1 <= ev env a \/ 1 < ev env a) -> ok (Acosh a).
Proof.
  intros Ha Hz; revert Ha. un nacosh (fun v t => nmul t (nrsqrt (nsub (npow 2 v) (Fin 1)))) acosh (/ sqrt (ev env a ^ 2 - 1)); [apply nacosh_fin; lra|].
  destruct Hz as [[Hz _]|Hz]; [left; exact Hz|right; split].
  - intros t. unfold npow, nsub, lift1, lift2. rewrite nrsqrt_fin by nra. reflexivity.
  - apply is_derive_acosh, Hz.
Qed.
Lemma is_derive_acos x : -1 < x < 1 -> is_derive acos x (- / sqrt (1 - x ^ 2)).
Proof.
  intros H. apply is_derive_Reals. rewrite <- (derive_pt_eq acos x _ (derivable_pt_acos x H)), derive_pt_acos.
  unfold Rsqr. replace (x ^ 2) with (x * x) by ring. pose proof (sqrt_lt_R0 (1 - x * x) ltac:(nra)). field. lra.
Qed.
Lemma ok_acos a : ok a -> (snd (J a) = None /\ -1 <= ev env a <= 1 \/ -1 < ev env a < 1) -> ok (Acos a).
Proof.
  intros Ha Hz; revert Ha. un nacos (fun v t => nmul t (nneg (nrsqrt (nadd (nneg (npow 2 v)) (Fin 1))))) acos (- / sqrt (1 - ev env a ^ 2)); [apply nacos_fin; lra|].
  destruct Hz as [[Hz _]|Hz]; [left; exact Hz|right; split].
  - intros t. unfold npow, nadd, nneg, lift1, lift2. rewrite nrsqrt_fin by nra. apply Fin_eq. replace (- ev env a ^ 2 + 1) with (1 - ev env a ^ 2) by ring. reflexivity.
  - apply is_derive_acos, Hz.
Qed.
Lemma is_derive_powS (n : nat) (x : R) : is_derive (fun t => t ^ S n) x (INR (S n) * x ^ n).
Proof. apply is_derive_Reals. apply (derivable_pt_lim_pow x (S n)). Qed.
Lemma ok_pow a n : ok a -> ok (Pow a n).
Proof.
  destruct n as [|m].
  - un (npow 0) (fun _ _ : num => Fin 0) (fun x => x ^ 0) 0; [reflexivity|right; split].
    + intros t; apply Fin_eq; ring.
    + simpl. apply dv_const.
  - un (npow (S m)) (fun v t => nmul t (nmul (Fin (INR (S m))) (npow m v))) (fun x => x ^ S m) (INR (S m) * ev env a ^ m); [reflexivity|right; split].
    + reflexivity.
    + apply is_derive_powS.
Qed.
(** a ** 0 is 1 whatever the tangent of a *)
Lemma ok_pow0 a v : fst (J a) = Fin v -> ok (Pow a 0).
Proof.
  intros H. exists 0. split; [simpl; rewrite H; reflexivity|]. split; [simpl; destruct (snd (J a)); reflexivity|]. split; [simpl; apply dv_const|].
  intros _; apply filter_forall; reflexivity.
Qed.
Lemma ok_rpow a p : ok a -> ok p -> 0 < ev env a -> ok (RPow a p).
Proof.
  intros Ha Hb Hz; revert Ha Hb.
  bin nrpow (fun va vp t => nmul t (nmul vp (nrpow va (nsub vp (Fin 1))))) (fun va vp t => nmul t (nmul (nrpow va vp) (nln va))) (fun _ _ n : num => n) Rpower
    (ev env p * Rpower (ev env a) (ev env p - 1)) (Rpower (ev env a) (ev env p) * ln (ev env a)); [apply nrpow_fin, Hz|right; split].
  - intros [ta|] [tb|]; cbn [option_map tan2 sval tval]; unfold nmul, nadd, nsub, lift2; rewrite ?nrpow_fin, ?nln_fin by exact Hz; apply Fin_eq; ring.
  - intros f g Hf Hg H1 H2. unfold Rpower.
    assert (L : is_derive (fun h => ln (f h)) 0 (d1 / f 0)) by (apply dv_ln; [exact H1|rewrite Hf; exact Hz]).
    eapply dv_val; [apply (dv_comp exp (fun h => g h * ln (f h))); [apply is_derive_exp|apply dv_mult; [exact H2|exact L]]|].
    cbv beta. rewrite !Hf, !Hg. replace ((ev env p - 1) * ln (ev env a)) with (ev env p * ln (ev env a) + - ln (ev env a)) by ring.
    rewrite exp_plus, exp_Ropp, exp_ln by exact Hz. field; lra.
Qed.

Lemma atan_inv_neg x : x < 0 -> atan (/ x) = - (PI / 2) - atan x.
Proof.
  intros H. replace (/ x) with (- / (- x)) by (field; lra). rewrite atan_opp, atan_inv, atan_opp by lra. ring.
Qed.
Lemma atan2_dv (f g : R -> R) (a b : R) : is_derive f 0 a -> is_derive g 0 b -> 0 < g 0 \/ f 0 <> 0 ->
  is_derive (fun h => atan2 (f h) (g h)) 0 ((g 0 * a - f 0 * b) / (f 0 ^ 2 + g 0 ^ 2)).
Proof.
  intros Hf Hg H.
  assert (Cf : continuous f 0) by (apply (ex_derive_continuous (V := R_NormedModule)); eexists; eassumption).
  assert (Cg : continuous g 0) by (apply (ex_derive_continuous (V := R_NormedModule)); eexists; eassumption).
  assert (LP : forall (u : R -> R), continuous u 0 -> 0 < u 0 -> locally 0 (fun h => 0 < u h)).
  { intros u Cu Hu. apply (Cu (fun y => 0 < y)). apply (open_gt 0), Hu. }
  assert (LN : forall (u : R -> R), continuous u 0 -> u 0 < 0 -> locally 0 (fun h => u h < 0)).
  { intros u Cu Hu. apply (Cu (fun y => y < 0)). apply (open_lt 0), Hu. }
  assert (DA : forall x, is_derive atan x (/ (1 + x ^ 2))) by (intros x; apply is_derive_Reals, derivable_pt_lim_atan).
  destruct (Rtotal_order (f 0) 0) as [Hn|[Hz|Hp]].
  - (* lower half plane: - pi/2 - atan (x / y) *)
    apply (is_derive_ext_loc (fun h => - (PI / 2) - atan (g h / f h))).
    + generalize (LN f Cf Hn). apply filter_imp. intros h Hh. symmetry. unfold atan2.
      destruct (Rlt_dec 0 (g h)) as [P|P].
      * assert (E : atan (f h / g h) + atan (g h / f h) = - (PI / 2)); [|lra].
        assert (f h / g h < 0). { apply Ropp_lt_cancel. rewrite Ropp_0. replace (- (f h / g h)) with ((- f h) / g h) by (field; lra). apply Rdiv_lt_0_compat; lra. }
        replace (g h / f h) with (/ (f h / g h)) by (field; lra). rewrite atan_inv_neg by assumption. lra.
      * destruct (Rlt_dec (g h) 0) as [N|N].
        -- destruct (Rle_dec 0 (f h)); [lra|].
           assert (0 < f h / g h). { replace (f h / g h) with ((- f h) / (- g h)) by (field; lra). apply Rdiv_lt_0_compat; lra. }
           replace (g h / f h) with (/ (f h / g h)) by (field; lra). rewrite atan_inv by assumption. lra.
        -- destruct (Rlt_dec 0 (f h)); [lra|]. destruct (Rlt_dec (f h) 0); [|lra].
           replace (g h) with 0 by lra. replace (0 / f h) with 0 by (field; lra). rewrite atan_0. lra.
    + eapply dv_val; [apply dv_minus; [apply dv_const|apply (dv_comp atan (fun h => g h / f h)); [apply DA|apply dv_div; [exact Hg|exact Hf|lra]]]|].
      simpl. assert (0 < f 0 ^ 2) by nra. pose proof (sq_ge0 (g 0)). field; repeat split; nra.
  - destruct H as [H|H]; [|lra].
    apply (is_derive_ext_loc (fun h => atan (f h / g h))).
    + generalize (LP g Cg H). apply filter_imp. intros h Hh. symmetry. unfold atan2. destruct (Rlt_dec 0 (g h)); [reflexivity|lra].
    + eapply dv_val; [apply (dv_comp atan (fun h => f h / g h)); [apply DA|apply dv_div; [exact Hf|exact Hg|lra]]|].
      simpl. rewrite Hz. field. lra.
  - apply (is_derive_ext_loc (fun h => PI / 2 - atan (g h / f h))).
    + generalize (LP f Cf Hp). apply filter_imp. intros h Hh. symmetry. unfold atan2.
      destruct (Rlt_dec 0 (g h)) as [P|P].
      * assert (0 < f h / g h) by (apply Rdiv_lt_0_compat; lra).
        replace (g h / f h) with (/ (f h / g h)) by (field; lra). rewrite atan_inv by assumption. lra.
      * destruct (Rlt_dec (g h) 0) as [N|N].
        -- destruct (Rle_dec 0 (f h)); [|lra].
           assert (f h / g h < 0). { apply Ropp_lt_cancel. rewrite Ropp_0. replace (- (f h / g h)) with (f h / (- g h)) by (field; lra). apply Rdiv_lt_0_compat; lra. }
           replace (g h / f h) with (/ (f h / g h)) by (field; lra). rewrite atan_inv_neg by assumption. lra.
        -- destruct (Rlt_dec 0 (f h)); [|lra].
           replace (g h) with 0 by lra. replace (0 / f h) with 0 by (field; lra). rewrite atan_0. lra.
    + eapply dv_val; [apply dv_minus; [apply dv_const|apply (dv_comp atan (fun h => g h / f h)); [apply DA|apply dv_div; [exact Hg|exact Hf|lra]]]|].
      simpl. assert (0 < f 0 ^ 2) by nra. pose proof (sq_ge0 (g 0)). field; repeat split; nra.
Qed.
Lemma ok_atan2 a b : ok a -> ok b -> (snd (J a) = None /\ snd (J b) = None \/ 0 < ev env b \/ ev env a <> 0) -> ok (Atan2 a b).
Proof.
  intros Ha Hb Hz; revert Ha Hb.
  bin natan2 (fun _ vb t : num => nmul vb t) (fun va _ t : num => nmul (nneg va) t) (fun va vb n => ndiv n (nadd (npow 2 va) (npow 2 vb))) atan2
    (ev env b / (ev env a ^ 2 + ev env b ^ 2)) (- ev env a / (ev env a ^ 2 + ev env b ^ 2)); [reflexivity|].
  destruct Hz as [Hz|Hz]; [left; exact Hz|right].
  assert (HP : ev env a ^ 2 + ev env b ^ 2 <> 0).
  { pose proof (sq_ge0 (ev env a)); pose proof (sq_ge0 (ev env b)). destruct Hz as [Hz|Hz]; [nra|].
    assert (0 < ev env a ^ 2) by (destruct (Rtotal_order (ev env a) 0) as [?|[?|?]]; [nra|lra|nra]). lra. }
  split.
  - intros [ta|] [tb|]; cbn [option_map tan2 sval tval]; unfold nmul, nadd, npow, nneg, lift1, lift2; rewrite ?ndiv_fin by exact HP;
      apply Fin_eq; field; exact HP.
  - intros f g Hf Hg H1 H2. eapply dv_val; [apply atan2_dv; [exact H1|exact H2|rewrite Hf, Hg; exact Hz]|]. rewrite Hf, Hg. field. exact HP.
Qed.

(** ** Clamps and selections *)
Lemma good_continuous e d : Good e d -> continuous (F e) 0.
Proof. intros (_ & _ & D & _). apply (ex_derive_continuous (V := R_NormedModule)); eexists; exact D. Qed.
Lemma ok_lt a b : ok a -> ok b -> ev env a < ev env b -> locally 0 (fun h => F a h < F b h).
Proof.
  intros [da Ga] [db Gb] H. pose proof (good_continuous _ _ Ga) as Ca. pose proof (good_continuous _ _ Gb) as Cb.
  assert (C : continuous (fun h => F b h - F a h) 0) by (apply (continuous_minus (V := R_NormedModule)); assumption).
  generalize (C (fun y => 0 < y)). cbv beta. rewrite !F0. intros K. specialize (K (open_gt 0 (ev env b - ev env a) ltac:(lra))).
  unfold filtermap in K. revert K. apply filter_imp. intros h K. lra.
Qed.
(** an expression that agrees near the point with one that is differentiated exactly, with the same dual number *)
Lemma ok_same e a d : Good a d -> fst (J e) = fst (J a) -> tval (snd (J e)) = tval (snd (J a)) ->
  (snd (J e) = None -> snd (J a) = None) -> locally 0 (fun h => F e h = F a h) -> Good e d.
Proof.
  intros (V & T & D & C) HV HT HN HL.
  assert (E : ev env e = ev env a) by (rewrite <- !F0; exact (locally_singleton _ _ HL)).
  split; [rewrite HV, V, E; reflexivity|]. split; [rewrite HT; exact T|]. split.
  - apply (is_derive_ext_loc (F a)); [revert HL; apply filter_imp; auto|exact D].
  - intros K. generalize (filter_and _ _ HL (C (HN K))). apply filter_imp. intros h [H1 H2]. rewrite H1, H2, E. reflexivity.
Qed.
Lemma ok_const e v : fst (J e) = Fin v -> tval (snd (J e)) = Fin 0 -> locally 0 (fun h => F e h = v) -> ok e.
Proof.
  intros V T HL. assert (E : ev env e = v) by (rewrite <- F0; exact (locally_singleton _ _ HL)).
  exists 0. split; [rewrite E; exact V|]. split; [exact T|]. split; [apply (const_derive _ v), HL|intros _; rewrite E; exact HL].
Qed.
Lemma jvp_atleast b a : J (AtLeast b a) = clamped (fun r => if Rle_dec b r then true else false) b (J a).
Proof. reflexivity. Qed.
Lemma jvp_atmost b a : J (AtMost b a) = clamped (fun r => if Rle_dec r b then true else false) b (J a).
Proof. reflexivity. Qed.
Lemma ok_atleast b a : ok a -> (snd (J a) = None \/ ev env a <> b) -> ok (AtLeast b a).
Proof.
  intros [d G] H. pose proof G as (V & T & D & C).
  destruct (Rlt_dec (ev env a) b) as [L|L].
  - apply (ok_const _ b).
    + rewrite jvp_atleast; unfold clamped; rewrite V. destruct (Rle_dec b (ev env a)); [lra|reflexivity].
    + rewrite jvp_atleast; unfold clamped; rewrite V. destruct (Rle_dec b (ev env a)); [lra|]. cbn [snd]. destruct (snd (J a)); reflexivity.
    + generalize (ok_lt a (Cst b) (ex_intro _ d G) (ok_cst b) L). apply filter_imp. intros h Hh. simpl in *. apply Rmax_right. lra.
  - assert (E : J (AtLeast b a) = J a) by (rewrite jvp_atleast; unfold clamped; rewrite V; destruct (Rle_dec b (ev env a)); [reflexivity|lra]).
    exists d. apply (ok_same _ a d G); rewrite ?E; auto.
    destruct H as [H|H].
    + generalize (C H). apply filter_imp. intros h Hh. simpl. apply Rmax_left. rewrite Hh. lra.
    + generalize (ok_lt (Cst b) a (ok_cst b) (ex_intro _ d G) ltac:(simpl; lra)). apply filter_imp. intros h Hh. simpl in *. apply Rmax_left. lra.
Qed.
Lemma ok_atmost b a : ok a -> (snd (J a) = None \/ ev env a <> b) -> ok (AtMost b a).
Proof.
  intros [d G] H. pose proof G as (V & T & D & C).
  destruct (Rlt_dec b (ev env a)) as [L|L].
  - apply (ok_const _ b).
    + rewrite jvp_atmost; unfold clamped; rewrite V. destruct (Rle_dec (ev env a) b); [lra|reflexivity].
    + rewrite jvp_atmost; unfold clamped; rewrite V. destruct (Rle_dec (ev env a) b); [lra|]. cbn [snd]. destruct (snd (J a)); reflexivity.
    + generalize (ok_lt (Cst b) a (ok_cst b) (ex_intro _ d G) L). apply filter_imp. intros h Hh. simpl in *. apply Rmin_right. lra.
  - assert (E : J (AtMost b a) = J a) by (rewrite jvp_atmost; unfold clamped; rewrite V; destruct (Rle_dec (ev env a) b); [reflexivity|lra]).
    exists d. apply (ok_same _ a d G); rewrite ?E; auto.
    destruct H as [H|H].
    + generalize (C H). apply filter_imp. intros h Hh. simpl. apply Rmin_left. rewrite Hh. lra.
    + generalize (ok_lt a (Cst b) (ex_intro _ d G) (ok_cst b) ltac:(simpl; lra)). apply filter_imp. intros h Hh. simpl in *. apply Rmin_left. lra.
Qed.

(** the truth value of a condition does not change near the point *)
Definition lhs (c : cond) : expr := match c with Lt p _ | Eq p _ => p end.
Definition rhs (c : cond) : expr := match c with Lt _ q | Eq _ q => q end.
Definition holds (c : cond) (env' : nat -> R) : bool :=
  match c with Lt p q => ltb (ev env' p) (ev env' q) | Eq p q => eqb (ev env' p) (ev env' q) end.
Definition settled (c : cond) : Prop :=
  snd (J (lhs c)) = None /\ snd (J (rhs c)) = None \/ ev env (lhs c) <> ev env (rhs c).
Lemma holds_where c a b env' : ev env' (Where c a b) = if holds c env' then ev env' a else ev env' b.
Proof. destruct c as [p q|p q]; simpl; unfold ltb, eqb; [destruct (Rlt_dec _ _)|destruct (Req_EM_T _ _)]; reflexivity. Qed.
Lemma test_fin c : fst (J (lhs c)) = Fin (ev env (lhs c)) -> fst (J (rhs c)) = Fin (ev env (rhs c)) -> test env seed c = Some (holds c env).
Proof. destruct c; simpl; intros -> ->; reflexivity. Qed.
Lemma cond_steady c : ok (lhs c) -> ok (rhs c) -> settled c -> locally 0 (fun h => holds c (along env seed h) = holds c env).
Proof.
  intros Op Oq S.
  destruct S as [[S1 S2]|S].
  - destruct Op as [dp (_ & _ & _ & Cp)], Oq as [dq (_ & _ & _ & Cq)].
    generalize (filter_and _ _ (Cp S1) (Cq S2)). apply filter_imp. intros h [H1 H2]. destruct c; simpl in *; rewrite H1, H2; reflexivity.
  - destruct (Rtotal_order (ev env (lhs c)) (ev env (rhs c))) as [L|[L|L]]; [|contradiction|].
    + generalize (ok_lt _ _ Op Oq L). apply filter_imp. intros h Hh.
      destruct c as [p q|p q]; simpl in *; unfold ltb, eqb.
      * destruct (Rlt_dec _ _); [|contradiction]. destruct (Rlt_dec _ _); [reflexivity|contradiction].
      * destruct (Req_EM_T _ _); [lra|]. destruct (Req_EM_T _ _); [lra|reflexivity].
    + generalize (ok_lt _ _ Oq Op L). apply filter_imp. intros h Hh.
      destruct c as [p q|p q]; simpl in *; unfold ltb, eqb.
      * destruct (Rlt_dec _ _); [lra|]. destruct (Rlt_dec _ _); [lra|reflexivity].
      * destruct (Req_EM_T _ _); [lra|]. destruct (Req_EM_T _ _); [lra|reflexivity].
Qed.
Lemma jvp_where c a b : J (Where c a b) = select (test env seed c) (J a) (J b).
Proof. reflexivity. Qed.
Lemma select_fst x (a b : dual) : fst (select (Some x) a b) = fst (if x then a else b).
Proof. destruct x; reflexivity. Qed.
Lemma select_tval x (a b : dual) : tval (snd (select (Some x) a b)) = tval (snd (if x then a else b)).
Proof. destruct x, a as [va [ta|]], b as [vb [tb|]]; reflexivity. Qed.
Lemma select_none x (a b : dual) : snd (select (Some x) a b) = None -> snd (if x then a else b) = None.
Proof. destruct x, a as [va [ta|]], b as [vb [tb|]]; simpl; congruence. Qed.
Lemma ok_where c a b : ok (lhs c) -> ok (rhs c) -> settled c -> ok (if holds c env then a else b) -> ok (Where c a b).
Proof.
  intros Op Oq S [d G]. pose proof (test_fin c (ok_value _ Op) (ok_value _ Oq)) as T.
  assert (E : forall x, (if x : bool then J a else J b) = J (if x then a else b)) by (intros []; reflexivity).
  exists d. apply (ok_same _ (if holds c env then a else b) d G); rewrite ?jvp_where, ?T, ?select_fst, ?select_tval, ?E; auto.
  - intros K. apply select_none in K. rewrite E in K. exact K.
  - generalize (cond_steady c Op Oq S). apply filter_imp. intros h Hh. rewrite holds_where, Hh. destruct (holds c env); reflexivity.
Qed.
Lemma ok_nan a : ok a -> ok (NanToNum a).
Proof.
  un ndenan (fun v t => nmul t (nisfinite v)) (fun x : R => x) 1; [reflexivity|right; split; [reflexivity|apply dv_id]].
Qed.
Lemma ok_pick_loc f a b : ok a -> ok b -> locally 0 (fun h => f (F a h) (F b h) = f (ev env a) (ev env b)) ->
  ok (f (ev env a) (ev env b)) -> ok (Pick f a b).
Proof.
  intros Oa Ob L [d G]. assert (E : J (Pick f a b) = J (f (ev env a) (ev env b))) by (cbn [jvp]; rewrite (ok_value _ Oa), (ok_value _ Ob); reflexivity).
  exists d. apply (ok_same _ (f (ev env a) (ev env b)) d G); rewrite ?E; auto.
  revert L. apply filter_imp. intros h L. cbn [ev]. cbv beta in L. rewrite L. reflexivity.
Qed.
Lemma ok_pick f a b : ok a -> ok b ->
  (snd (J a) = None /\ snd (J b) = None \/ locally (ev env a, ev env b) (fun p => f (fst p) (snd p) = f (ev env a) (ev env b))) ->
  ok (f (ev env a) (ev env b)) -> ok (Pick f a b).
Proof.
  intros Oa Ob H. apply ok_pick_loc; [exact Oa|exact Ob|]. destruct Oa as [da Ga], Ob as [db Gb].
  destruct H as [[Sa Sb]|H].
  - destruct Ga as (_ & _ & _ & Ca), Gb as (_ & _ & _ & Cb). generalize (filter_and _ _ (Ca Sa) (Cb Sb)). apply filter_imp. intros h [-> ->]. reflexivity.
  - pose proof (good_continuous _ _ Ga) as Ca. pose proof (good_continuous _ _ Gb) as Cb. destruct H as [eps H].
    pose proof (Ca (ball (F a 0) eps) (locally_ball _ _)) as La. pose proof (Cb (ball (F b 0) eps) (locally_ball _ _)) as Lb.
    unfold filtermap in La, Lb. generalize (filter_and _ _ La Lb). apply filter_imp. intros h [B1 B2]. rewrite F0 in B1, B2. exact (H (F a h, F b h) (conj B1 B2)).
Qed.
End G.

(** ** Automatic differentiation is exact wherever it is finite and the formula is not cut *)
Lemma lift1_fin f a v : lift1 f a = Fin v -> exists r, a = Fin r /\ f r = Fin v.
Proof. destruct a; simpl; try discriminate; eauto. Qed.
Lemma lift2_fin f a b v : lift2 f a b = Fin v -> exists r t, a = Fin r /\ b = Fin t /\ f r t = Fin v.
Proof. destruct a, b; simpl; try discriminate; eauto. Qed.
Definition strict (f : num -> num) : Prop := forall t d, f t = Fin d -> exists x, t = Fin x.
Lemma strict_id : strict (fun t => t).
Proof. intros t d ->; eauto. Qed.
Lemma strict_l1 f g : strict g -> strict (fun t => lift1 f (g t)).
Proof. intros Hg t d H; apply lift1_fin in H as (r & H & _). exact (Hg t r H). Qed.
Lemma strict_l2 f (g h : num -> num) : strict g -> strict (fun t => lift2 f (g t) (h t)).
Proof. intros Hg t d H; apply lift2_fin in H as (r & _ & H & _). exact (Hg t r H). Qed.
Lemma strict_r2 f (g h : num -> num) : strict h -> strict (fun t => lift2 f (g t) (h t)).
Proof. intros Hg t d H; apply lift2_fin in H as (_ & r & _ & H & _). exact (Hg t r H). Qed.
Lemma tan1_fin f t d : strict f -> tval (tan1 f t) = Fin d -> exists x, tval t = Fin x.
Proof. intros S; destruct t as [t|]; simpl; [intros H; destruct (S t d H) as [x ->]; eauto|eauto]. Qed.
Lemma tan2_fin fa fb post ta tb d : strict fa -> strict fb -> strict post -> tval (tan2 fa fb post ta tb) = Fin d ->
  (exists x, tval ta = Fin x) /\ (exists y, tval tb = Fin y).
Proof.
  intros Sa Sb Sp; destruct ta as [ta|], tb as [tb|]; simpl; intros H.
  - apply Sp in H as [x H]. apply lift2_fin in H as (r & t & Ha & Hb & _). split; [exact (Sa _ _ Ha)|exact (Sb _ _ Hb)].
  - apply Sp in H as [x H]. split; [exact (Sa _ _ H)|eauto].
  - apply Sp in H as [x H]. split; [eauto|exact (Sb _ _ H)].
  - split; eauto.
Qed.
Ltac strict := unfold nadd, nsub, nmul, ndiv, nneg;
  repeat first [ apply strict_id | apply strict_l1 | (apply (strict_l2 _ (fun t => t))) | (apply (strict_r2 _ _ (fun t => t))) | apply strict_l2 | apply strict_r2 ].
(** nothing finite comes out of a division by zero, or of the reciprocal root of zero *)
Lemma ndiv_inv a b v : ndiv a b = Fin v -> exists r t, a = Fin r /\ b = Fin t /\ t <> 0.
Proof.
  intros H. apply lift2_fin in H as (r & t & -> & -> & H). exists r, t. repeat split; auto. intros ->.
  destruct (Req_EM_T 0 0); [|lra]. destruct (Req_EM_T r 0); discriminate.
Qed.
Lemma nrsqrt_inv a v : nrsqrt a = Fin v -> exists r, a = Fin r /\ 0 < r.
Proof.
  intros H. apply lift1_fin in H as (r & -> & H). exists r. split; [reflexivity|].
  destruct (Rlt_dec r 0); [discriminate|]. destruct (Req_EM_T r 0); [discriminate|lra].
Qed.

Section Sound.
Variable env : nat -> R.
Variable seed : nat -> option R.
Notation J e := (jvp env seed e).
Notation ok := (ok env seed).
Lemma fin_un f df a : strict df -> finite (lift1 f (fst (J a)), tan1 df (snd (J a))) -> finite (J a).
Proof.
  intros S (v & t & V & T). cbn [fst snd] in V, T. apply lift1_fin in V as (r & V & _). apply (tan1_fin df) in T as [x T]; [|exact S]. exists r, x; auto.
Qed.
Lemma fin_bin f da db post a b : strict da -> strict db -> strict post ->
  finite (lift2 f (fst (J a)) (fst (J b)), tan2 da db post (snd (J a)) (snd (J b))) -> finite (J a) /\ finite (J b).
Proof.
  intros S1 S2 S3 (v & t & V & T). cbn [fst snd] in V, T. apply lift2_fin in V as (r & r' & V & V' & _).
  apply tan2_fin in T as [[x T] [y T']]; auto. split; [exists r, x|exists r', y]; auto.
Qed.

Theorem sound : forall e, regular env seed e -> finite (J e) -> ok e.
Proof.
  fix IH 1. intros [n|r|a b|a b|a b|a b|a|a|a|a|a|a|a|a|a|a|a b|a n|a p|b a|b a|c a b|a|f a b] HR HF.
  - apply ok_var.
  - apply ok_cst.
  - destruct HR as [Ra Rb]. apply fin_bin in HF as [Fa Fb]; [|strict..]. apply ok_add; auto.
  - destruct HR as [Ra Rb]. apply fin_bin in HF as [Fa Fb]; [|strict..]. apply ok_sub; auto.
  - destruct HR as [Ra Rb]. apply fin_bin in HF as [Fa Fb]; [|strict..]. apply ok_mul; auto.
  - destruct HR as [Ra Rb]. pose proof HF as (v & t & V & _). apply fin_bin in HF as [Fa Fb]; [|strict..].
    apply IH in Fa; [|exact Ra]. apply IH in Fb; [|exact Rb].
    apply ok_div; auto. simpl in V. rewrite (ok_value _ _ _ Fb) in V. apply ndiv_inv in V as (x & y & _ & E & N). congruence.
  - apply fin_un in HF; [|strict]. apply ok_neg; auto.
  - pose proof HF as (v & t & V & T). apply fin_un in HF; [|strict]. apply IH in HF; [|exact HR].
    cbn [jvp fst snd] in V, T. rewrite (ok_value _ _ _ HF) in V, T.
    assert (P : 0 <= ev env a) by (unfold nsqrt in V; simpl in V; destruct (Rlt_dec (ev env a) 0); [discriminate|lra]).
    apply ok_sqrt; auto. destruct (snd (J a)) as [x|]; [|auto]. right. cbn [tan1 tval] in T. apply ndiv_inv in T as (u & w & _ & E & N).
    destruct (Req_dec (ev env a) 0) as [Z|Z]; [|lra]. exfalso. rewrite nsqrt_fin in E by exact P. unfold nmul, lift2 in E.
    rewrite Z, sqrt_0 in E. apply N. injection E; intros; lra.
  - pose proof HF as (v & t & V & T). apply fin_un in HF; [|strict]. apply IH in HF; [|exact HR].
    simpl in V. rewrite (ok_value _ _ _ HF) in V. apply ok_ln; auto.
    unfold nln in V; simpl in V. destruct (Rlt_dec (ev env a) 0); [discriminate|]. destruct (Req_EM_T (ev env a) 0); [discriminate|lra].
  - apply fin_un in HF; [|strict]. apply ok_exp; auto.
  - apply fin_un in HF; [|strict]. apply ok_sin; auto.
  - apply fin_un in HF; [|strict]. apply ok_cos; auto.
  - apply fin_un in HF; [|strict]. apply ok_atan; auto.
  - pose proof HF as (v & t & V & T). apply fin_un in HF; [|strict]. apply IH in HF; [|exact HR].
    simpl in V. rewrite (ok_value _ _ _ HF) in V. apply ok_atanh; auto.
    unfold natanh in V; simpl in V. destruct (Rlt_dec 1 (Rabs (ev env a))); [discriminate|]. destruct (Req_EM_T (Rabs (ev env a)) 1); [discriminate|].
    destruct (Rabs_def2 (ev env a) 1); lra.
  - pose proof HF as (v & t & V & T). apply fin_un in HF; [|strict]. apply IH in HF; [|exact HR].
    cbn [jvp fst snd] in V, T. rewrite (ok_value _ _ _ HF) in V, T.
    assert (P : -1 <= ev env a <= 1).
    { unfold nacos in V; simpl in V. destruct (Rlt_dec 1 (Rabs (ev env a))); [discriminate|]. apply Rabs_le_between; lra. }
    apply ok_acos; auto. destruct (snd (J a)) as [x|]; [|auto]. right. cbn [tan1 tval] in T. apply lift2_fin in T as (u & w & _ & E & _).
    apply lift1_fin in E as (z & E & _). apply nrsqrt_inv in E as (y & E & Y). unfold npow, nneg, nadd, lift1, lift2 in E.
    assert (K : y = - ev env a ^ 2 + 1) by congruence. nra.
  - pose proof HF as (v & t & V & T). apply fin_un in HF; [|strict]. apply IH in HF; [|exact HR].
    cbn [jvp fst snd] in V, T. rewrite (ok_value _ _ _ HF) in V, T.
    assert (P : 1 <= ev env a) by (unfold nacosh in V; simpl in V; destruct (Rlt_dec (ev env a) 1); [discriminate|lra]).
    apply ok_acosh; auto. destruct (snd (J a)) as [x|]; [|auto]. right. cbn [tan1 tval] in T. apply lift2_fin in T as (u & w & _ & E & _).
    apply nrsqrt_inv in E as (y & E & Y). unfold npow, nsub, lift1, lift2 in E.
    assert (K : y = ev env a ^ 2 - 1) by congruence. nra.
  - destruct HR as (Ra & Rb & HC). apply fin_bin in HF as [Fa Fb]; [|strict..]. apply ok_atan2; auto.
  - destruct n as [|m].
    + destruct HF as (v & t & V & _). simpl in V. apply lift1_fin in V as (r & V & _). exact (ok_pow0 _ _ a r V).
    + apply fin_un in HF; [|strict]. apply ok_pow; auto.
  - destruct HR as [Ra Rb]. pose proof HF as (v & t & V & _). apply fin_bin in HF as [Fa Fb]; [|strict..].
    apply IH in Fa; [|exact Ra]. apply IH in Fb; [|exact Rb].
    apply ok_rpow; auto. simpl in V. rewrite (ok_value _ _ _ Fa), (ok_value _ _ _ Fb) in V. unfold nrpow, lift2 in V.
    destruct (Rlt_dec (ev env a) 0); [discriminate|]. destruct (Req_EM_T (ev env a) 0); [discriminate|lra].
  - destruct HR as (Ra & Fa & HC). apply ok_atleast; auto.
  - destruct HR as (Ra & Fa & HC). apply ok_atmost; auto.
  - assert (K : ok (lhs c) /\ ok (rhs c) /\ settled env seed c /\
      (test env seed c = Some true -> regular env seed a) /\ (test env seed c = Some false -> regular env seed b)).
    { destruct c as [p q|p q]; destruct HR as ((R1 & R2 & F1 & F2 & HC) & HT & HE);
      (split; [apply IH; assumption|split; [apply IH; assumption|split; [exact HC|split; assumption]]]). }
    destruct K as (O1 & O2 & HS & HT & HE). apply ok_where; auto.
    pose proof (test_fin env seed c (ok_value _ _ _ O1) (ok_value _ _ _ O2)) as T. rewrite T in HT, HE.
    destruct HF as (v & t & V & T'). rewrite jvp_where, T in V, T'. rewrite select_fst in V. rewrite select_tval in T'.
    destruct (holds c env); apply IH; auto; exists v, t; auto.
  - destruct HR as [Ra Fa]. apply ok_nan; auto.
  - destruct HR as (Ra & Rb & Fa & Fb & HC & Rf). pose proof (IH a Ra Fa) as Oa. pose proof (IH b Rb Fb) as Ob.
    apply ok_pick; auto. apply IH; [exact Rf|]. cbn [jvp] in HF. rewrite (ok_value _ _ _ Oa), (ok_value _ _ _ Ob) in HF. exact HF.
Qed.
End Sound.
