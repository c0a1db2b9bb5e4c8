(** * A light curve is differentiated exactly when its samples are *)
From Coq Require Import Reals Lra Lia Arith ZArith List Bool String FunctionalExtensionality.
From Coquelicot Require Import Coquelicot.
From Verif Require Import Py Fsum RealFun Derive1 Gauss_Model LensBase_Model LensBasic_Model Micro_Model Ad_Model Ad_Spec Ad_Proofs AdLens_Proofs Rev_Model Rev_Spec Rev_Proofs AdSim_Model AdSim_Spec AdSim_Proofs AdSim2_Proofs AdSim4_Proofs AdMicro_Model AdMicro_Spec AdLens2_Proofs.
Local Open Scope R_scope.

Section Rel.
Variable Rel : (env -> R) -> expr -> Prop.
Variable a : env.
Hypothesis rel_ext : forall f g e, (forall b, f b = g b) -> Rel f e -> Rel g e.
Hypothesis rel_cst : forall r, Rel (fun _ => r) (Cst r).
Hypothesis rel_add : forall f g d e, Rel f d -> Rel g e -> Rel (fun b => f b + g b) (Add d e).
Hypothesis rel_sub : forall f g d e, Rel f d -> Rel g e -> Rel (fun b => f b - g b) (Sub d e).
Hypothesis rel_mul : forall f g d e, Rel f d -> Rel g e -> Rel (fun b => f b * g b) (Mul d e).
Hypothesis rel_div : forall f g d e, Rel f d -> Rel g e -> g a <> 0 -> Rel (fun b => f b / g b) (Div d e).
Hypothesis rel_sqrt : forall f d, Rel f d -> 0 < f a -> Rel (fun b => sqrt (f b)) (Sqrt d).

Definition avg (n m : nat) (x : nat -> nat -> R) : R := fsum n (fun i => fsum m (x i)) / INR (n * m).
Lemma mean_avg n m x : (n * m <> 0)%nat -> mean n m x = Some (avg n m x).
Proof. intros H. unfold mean. apply Nat.eqb_neq in H. rewrite H. reflexivity. Qed.
Lemma std_avg n m x : (n * m <> 0)%nat -> std n m x = Some (sqrt (avg n m (fun i j => (x i j - avg n m x) * (x i j - avg n m x)))).
Proof.
  intros H. unfold std. rewrite (mean_avg n m x H), mean_avg by exact H. cbn [option_map]. do 2 f_equal. unfold avg. f_equal. apply fsum_ext. intros i _. apply fsum_ext. intros j _. ring.
Qed.
Lemma rel_avg n m (x : env -> nat -> nat -> R) T : (n * m <> 0)%nat -> (forall i j, (i < n)%nat -> (j < m)%nat -> Rel (fun b => x b i j) (T i j)) -> Rel (fun b => avg n m (x b)) (t_mean n m T).
Proof.
  intros H HT. unfold avg, t_mean. apply (rel_div (fun b => fsum n (fun i => fsum m (x b i)))); [|apply rel_cst|apply not_0_INR, H].
  apply (rel_fsum Rel rel_cst rel_add n (fun b i => fsum m (x b i))). intros i Hi. apply (rel_fsum Rel rel_cst rel_add m (fun b j => x b i j)). intros j Hj. apply HT; assumption.
Qed.
Lemma rel_std n m (x : env -> nat -> nat -> R) T : (n * m <> 0)%nat -> (forall i j, (i < n)%nat -> (j < m)%nat -> Rel (fun b => x b i j) (T i j)) ->
  sqrt (avg n m (fun i j => (x a i j - avg n m (x a)) * (x a i j - avg n m (x a)))) <> 0 ->
  Rel (fun b => sqrt (avg n m (fun i j => (x b i j - avg n m (x b)) * (x b i j - avg n m (x b))))) (t_std n m T).
Proof.
  intros H HT Z. assert (M := rel_avg n m x T H HT). unfold t_std. cbv zeta. apply (rel_sqrt (fun b => avg n m (fun i j => (x b i j - avg n m (x b)) * (x b i j - avg n m (x b))))).
  - apply (rel_avg n m (fun b i j => (x b i j - avg n m (x b)) * (x b i j - avg n m (x b)))); [exact H|]. intros i j Hi Hj.
    assert (D := rel_sub _ _ _ _ (HT i j Hi Hj) M). exact (rel_mul _ _ _ _ D D).
  - destruct (Rle_lt_dec (avg n m (fun i j => (x a i j - avg n m (x a)) * (x a i j - avg n m (x a)))) 0) as [L|L]; [|exact L]. exfalso. apply Z, sqrt_neg_0, L.
Qed.
Variables (ray : env -> R -> R -> R * R) (t_ray : expr -> expr -> expr * expr) (src : env -> R -> R -> R) (t_src : t_light) (rx ry : nat -> R) (fov : R * R * R * R) (method : string) (Nm Ng : nat).
Hypotheses (Pm : (Nm <> 0)%nat) (Pg : (Ng <> 0)%nat).
Hypothesis HS : at_draws rx ry fov method Nm Ng (fun x y => Rel (fun b => let p := ray b x y in src b (fst p) (snd p)) (let p := t_ray (Cst x) (Cst y) in t_src (fst p) (snd p))).
Lemma rel_micro : curve_follows Rel a (fun b => microlens (ray b) (src b) rx ry fov method Nm Ng) (t_microlens t_ray t_src rx ry fov method Nm Ng).
Proof.
  unfold curve_follows, t_microlens. destruct fov as [[[f0 f1] f2] f3]. cbn [at_draws] in HS. destruct HS as [H1 H2].
  assert (UN : forall (b : env) x y, (let '(bx, by_) := ray b x y in src b bx by_) = src b (fst (ray b x y)) (snd (ray b x y))) by (intros; destruct (ray b x y); reflexivity).
  assert (UT : forall x y, (let '(bx, by_) := t_ray x y in t_src bx by_) = t_src (fst (t_ray x y)) (snd (t_ray x y))) by (intros; destruct (t_ray x y); reflexivity).
  destruct (String.eqb_spec method "mcmc") as [E|E]; [|destruct (String.eqb_spec method "grid") as [E'|E']; [|intros b; unfold microlens; apply String.eqb_neq in E, E'; rewrite E, E'; reflexivity]].
  - specialize (H1 E). assert (NZ : (Nm * 1 <> 0)%nat) by lia. set (A := (f1 - f0) * (f3 - f2)).
    set (x := fun (b : env) (i _ : nat) => let '(bx, by_) := ray b (rx i * (f1 - f0) + f0) (ry i * (f3 - f2) + f2) in src b bx by_).
    set (T := fun (i _ : nat) => let '(bx, by_) := t_ray (Cst (rx i * (f1 - f0) + f0)) (Cst (ry i * (f3 - f2) + f2)) in t_src bx by_).
    assert (HT : forall i j, (i < Nm)%nat -> (j < 1)%nat -> Rel (fun b => x b i j) (T i j)).
    { intros i j Hi _. unfold x, T. rewrite UT. eapply rel_ext; [|apply (H1 i Hi)]. intros b. cbv zeta. rewrite UN. reflexivity. }
    assert (SN : sqrt (INR Nm) <> 0) by (apply Rgt_not_eq, sqrt_lt_R0, lt_0_INR; lia).
    assert (V : forall b, microlens (ray b) (src b) rx ry (f0, f1, f2, f3) method Nm Ng = Ok (Some (avg Nm 1 (x b) * A), Some (sqrt (avg Nm 1 (fun i j => (x b i j - avg Nm 1 (x b)) * (x b i j - avg Nm 1 (x b)))) * A / sqrt (INR Nm)))).
    { intros b. unfold microlens. rewrite E. cbn [String.eqb Ascii.eqb Bool.eqb]. rewrite mean_avg, std_avg by exact NZ. reflexivity. }
    split; [intros b; rewrite V; eauto|]. split.
    + eapply rel_ext; [intros b; rewrite V; reflexivity|]. cbn [flux_of]. apply (rel_mul (fun b => avg Nm 1 (x b)) (fun _ => A)); [apply rel_avg; assumption|apply rel_cst].
    + rewrite V. cbn [error_of]. intros Z. eapply rel_ext; [intros b; rewrite V; reflexivity|]. cbn [error_of].
      apply (rel_div (fun b => _ * A) (fun _ => sqrt (INR Nm))); [|apply rel_cst|exact SN]. apply (rel_mul _ (fun _ => A)); [|apply rel_cst]. apply rel_std; [exact NZ|exact HT|]. intros Z'. apply Z. rewrite Z'. unfold Rdiv. ring.
  - specialize (H2 E'). assert (NZ : (Ng * Ng <> 0)%nat) by (apply Nat.neq_mul_0; split; assumption). set (A := (f1 - f0) * (f3 - f2)).
    set (x := fun (b : env) (i j : nat) => let '(bx, by_) := ray b (linspace f0 f1 Ng i) (linspace f2 f3 Ng j) in src b bx by_).
    set (T := fun (i j : nat) => let '(bx, by_) := t_ray (Cst (linspace f0 f1 Ng i)) (Cst (linspace f2 f3 Ng j)) in t_src bx by_).
    assert (HT : forall i j, (i < Ng)%nat -> (j < Ng)%nat -> Rel (fun b => x b i j) (T i j)).
    { intros i j Hi Hj. unfold x, T. rewrite UT. eapply rel_ext; [|apply (H2 i j Hi Hj)]. intros b. cbv zeta. rewrite UN. reflexivity. }
    assert (SN : INR Ng <> 0) by (apply not_0_INR; assumption).
    assert (V : forall b, microlens (ray b) (src b) rx ry (f0, f1, f2, f3) method Nm Ng = Ok (Some (avg Ng Ng (x b) * A), Some (sqrt (avg Ng Ng (fun i j => (x b i j - avg Ng Ng (x b)) * (x b i j - avg Ng Ng (x b)))) * A / INR Ng))).
    { intros b. unfold microlens. rewrite E'. cbn [String.eqb Ascii.eqb Bool.eqb]. rewrite mean_avg, std_avg by exact NZ. reflexivity. }
    split; [intros b; rewrite V; eauto|]. split.
    + eapply rel_ext; [intros b; rewrite V; reflexivity|]. cbn [flux_of]. apply (rel_mul (fun b => avg Ng Ng (x b)) (fun _ => A)); [apply rel_avg; assumption|apply rel_cst].
    + rewrite V. cbn [error_of]. intros Z. eapply rel_ext; [intros b; rewrite V; reflexivity|]. cbn [error_of].
      apply (rel_div (fun b => _ * A) (fun _ => INR Ng)); [|apply rel_cst|exact SN]. apply (rel_mul _ (fun _ => A)); [|apply rel_cst]. apply rel_std; [exact NZ|exact HT|]. intros Z'. apply Z. rewrite Z'. unfold Rdiv. ring.
Qed.
End Rel.

Lemma ax_sqrt a seed f d : ad_exact f d a seed -> 0 < f a -> ad_exact (fun b => sqrt (f b)) (Sqrt d) a seed.
Proof.
  intros (t & V & T & D) P. assert (S := sqrt_lt_R0 _ P). exists (t / (2 * sqrt (f a))). cbn [jvp fst snd]. rewrite V, (nsqrt_fin (f a)) by lra. split; [reflexivity|]. split.
  - destruct (snd (jvp a seed d)) as [td|]; cbn [tan1 tval] in *.
    + rewrite T. cbn [nmul lift2]. apply ndiv_fin. lra.
    + injection T as <-. f_equal. field. lra.
  - eapply dv_val; [apply (dv_comp sqrt (fun h => f (along a seed h))); [|exact D]|].
    + rewrite along0. apply is_derive_Reals, derivable_pt_lim_sqrt, P.
    + field. lra.
Qed.
Lemma bw_sqrt a req f d : both_ways f d a req -> 0 < f a -> both_ways (fun b => sqrt (f b)) (Sqrt d) a req.
Proof.
  intros (T & V & A) P. split; [split; [exact T|rewrite V; exact P]|]. split; [cbn [ev]; rewrite V; reflexivity|]. intros k K. apply ax_sqrt; [apply A, K|exact P].
Qed.
Definition any_curve a seed := rel_micro (fun F t => ad_exact F t a seed) a (ax_ext a seed) (ax_cst a seed) (ax_add a seed) (ax_sub a seed) (ax_mul a seed) (ax_div a seed) (ax_sqrt a seed).
Definition any_curve_both a req := rel_micro (fun F t => both_ways F t a req) a (bw_ext a req) (bw_cst a req) (bw_add a req) (bw_sub a req) (bw_mul a req) (bw_div a req) (bw_sqrt a req).
Lemma curve_backward a req r t : curve_follows (fun F t => both_ways F t a req) a r t -> curve_follows (fun F t => grad_exact F t a req) a r t.
Proof.
  unfold curve_follows. destruct t as [[f e]|ex]; [|auto]. intros (B & (F1 & _ & F2) & E). split; [exact B|]. split; [apply grad_exact_of; assumption|]. intros Z. destruct (E Z) as (E1 & _ & E2). apply grad_exact_of; assumption.
Qed.
Lemma any_curve_backward a req ray t_ray src t_src rx ry fov method Nm Ng : (Nm <> 0)%nat -> (Ng <> 0)%nat ->
  at_draws rx ry fov method Nm Ng (fun x y => both_ways (fun b => let p := ray b x y in src b (fst p) (snd p)) (let p := t_ray (Cst x) (Cst y) in t_src (fst p) (snd p)) a req) ->
  curve_follows (fun F t => grad_exact F t a req) a (fun b => microlens (ray b) (src b) rx ry fov method Nm Ng) (t_microlens t_ray t_src rx ry fov method Nm Ng).
Proof. intros P Q H. apply curve_backward. apply any_curve_both; assumption. Qed.
(** ** an isothermal ellipsoid and a Sersic source *)
Lemma sie_curve a seed req lk s s1 rx ry fov method Nm Ng : (Nm <> 0)%nat -> (Ng <> 0)%nat -> 0 <= s -> 0 <= s1 -> 0 < a 4%nat <= 1 -> sersic_fine 7 a ->
  at_draws rx ry fov method Nm Ng (fun x y => ((x <> a 2%nat \/ y <> a 3%nat) \/ 0 < s) /\ (let p := sie_lens s a x y in fst p <> a 7%nat \/ snd p <> a 8%nat)) ->
  let curve b := microlens (sie_lens s b) (sersic_light lk s1 7 b) rx ry fov method Nm Ng in
  let program := t_microlens (t_sie_lens s) (t_sersic_light lk s1 7) rx ry fov method Nm Ng in
  (a 4%nat < 1 \/ seed 4%nat = None -> curve_follows (fun F t => ad_exact F t a seed) a curve program) /\
  (a 4%nat < 1 \/ req 4%nat = false -> curve_follows (fun F t => grad_exact F t a req) a curve program).
Proof.
  intros P Q PS PS1 Pq F1 OFF curve program.
  assert (FW : forall sd, a 4%nat < 1 \/ sd 4%nat = None -> forall x y, ((x <> a 2%nat \/ y <> a 3%nat) \/ 0 < s) /\ (let p := sie_lens s a x y in fst p <> a 7%nat \/ snd p <> a 8%nat) ->
    ad_exact (fun b => let p := sie_lens s b x y in sersic_light lk s1 7 b (fst p) (snd p)) (let p := t_sie_lens s (Cst x) (Cst y) in t_sersic_light lk s1 7 (fst p) (snd p)) a sd).
  { intros sd N x y [A B]. assert (OX : ok a sd (Cst x)) by oks. assert (OY : ok a sd (Cst y)) by oks. destruct (sie_ray_ok a sd s (Cst x) (Cst y) OX OY A PS Pq N) as [O1 O2].
    apply (sersic_light_ad a sd lk s1 7 (fst (t_sie_lens s (Cst x) (Cst y))) (snd (t_sie_lens s (Cst x) (Cst y)))); assumption. }
  assert (MAP : forall (P1 P2 : R -> R -> Prop), (forall x y, P1 x y -> P2 x y) -> at_draws rx ry fov method Nm Ng P1 -> at_draws rx ry fov method Nm Ng P2).
  { intros P1 P2 H. unfold at_draws. destruct fov as [[[f0 f1] f2] f3]. intros [H1 H2]. split; intros; apply H; auto. }
  split; intros N.
  - apply (any_curve a seed (sie_lens s) (t_sie_lens s) (sersic_light lk s1 7) (t_sersic_light lk s1 7)); [exact P|exact Q|]. eapply MAP; [|exact OFF]. apply FW, N.
  - apply any_curve_backward; [exact P|exact Q|]. eapply MAP; [|exact OFF]. intros x y [A B].
    assert (NK : forall k, a 4%nat < 1 \/ one_of req k 4%nat = None) by (intros k; destruct N as [N|N]; [left; exact N|right; unfold one_of; rewrite N; reflexivity]).
    destruct (sie_ray_tm a s (Cst x) (Cst y) I I A PS Pq) as [O1 O2].
    destruct (sersic_light_tm a lk s1 7 (fst (t_sie_lens s (Cst x) (Cst y))) (snd (t_sie_lens s (Cst x) (Cst y))) O1 O2 F1 PS1 B) as [T1 T2].
    split; [exact T1|]. split; [exact T2|]. intros k _. apply FW; [apply NK|split; assumption].
Qed.
(** ** examples *)
Lemma curve_hyps : 
  (let a n := nth n (cons 0 (cons 0 (cons 0 (cons 0 (cons (1 / 2) (cons 0 (cons (1 / 10) (cons 100 (cons 0 (cons 1 (cons 0 (cons 1 (cons 1 (cons 1 nil)))))))))))))) 0 in
   0 < a 4%nat < 1 /\ sersic_fine 7 a /\
   at_draws (fun _ => 1 / 2) (fun _ => 1 / 2) (1, 2, 1, 2) "mcmc" 10 1 (fun x y => ((x <> a 2%nat \/ y <> a 3%nat) \/ 0 < 0) /\ (let p := sie_lens 0 a x y in fst p <> a 7%nat \/ snd p <> a 8%nat))) /\
  (let ray := fun (_ : env) x y => (x, y) in let src := fun (b : env) x (_ : R) => b 0%nat * x in forall a seed,
   at_draws INR INR (0, 1, 0, 1) "mcmc" 2 1 (fun x y => ad_exact (fun b => let p := ray b x y in src b (fst p) (snd p)) (let p := (Cst x, Cst y) in Mul (Var 0) (fst p)) a seed) /\
   (a 0%nat <> 0 -> error_of (microlens (ray a) (src a) INR INR (0, 1, 0, 1) "mcmc" 2 1) <> 0)).
Proof.
  split.
  - cbv zeta. split; [cbn [nth]; lra|]. split; [unfold sersic_fine; cbn [nth Nat.add]; lra|]. split; [|discriminate]. intros _ i _. set (x := 1 / 2 * (2 - 1) + 1). assert (X : x = 3 / 2) by (unfold x; lra). cbn [nth]. split; [left; left; lra|]. left.
    unfold sie_lens, LensBase_Model.raytrace. cbn [nth]. pose proof (AdSim4_Proofs.sie_x_bound 0 (1 / 2) (1 / 10) x x ltac:(lra) ltac:(lra)) as B. destruct (reduced_deflection_angle_sie 0 0 (1 / 2) 0 (1 / 10) 0 x x) as [ax ay]. cbn [fst] in *.
    assert (K : 1 / 10 * sqrt (1 / 2) / sqrt (1 - (1 / 2) ^ 2) * 2 <= 1).
    { assert (sqrt (1 / 2) <= 1) by (apply (Rle_trans _ (sqrt 1)); [apply sqrt_le_1_alt; lra|rewrite sqrt_1; lra]).
      assert (S2 : 1 / 2 <= sqrt (1 - (1 / 2) ^ 2)) by (replace (1 / 2) with (sqrt ((1 / 2) ^ 2)) at 1 by (apply sqrt_pow2; lra); apply sqrt_le_1_alt; lra).
      apply (Rmult_le_reg_r (sqrt (1 - (1 / 2) ^ 2))); [lra|]. replace (1 / 10 * sqrt (1 / 2) / sqrt (1 - (1 / 2) ^ 2) * 2 * sqrt (1 - (1 / 2) ^ 2)) with (1 / 5 * sqrt (1 / 2)) by (field; lra). lra. }
    pose proof (Rle_trans _ _ _ B K) as B'. apply Rabs_le_between in B'. lra.
  - cbv zeta. intros a seed. split.
    + split; [|discriminate]. intros _ i _. cbn [fst snd]. apply (ax_mul a seed (fun b => b 0%nat) (fun _ => INR i * (1 - 0) + 0)); [|apply ax_cst]. apply (ad_of_loc (fun b => b 0%nat) (Var 0)); [apply ok_var|apply filter_forall; reflexivity].
    + intros Z. unfold microlens. cbn [String.eqb Ascii.eqb Bool.eqb]. rewrite mean_avg, std_avg by lia. cbn [option_map error_of]. unfold avg. cbn [fsum INR Nat.mul Nat.add].
      assert (P : 0 < a 0%nat ^ 2) by (apply pow2_gt_0; exact Z). match goal with |- sqrt ?e * _ / _ <> 0 => replace e with (a 0%nat ^ 2 / 4) by field; set (q := a 0%nat ^ 2 / 4) end.
      assert (S := sqrt_lt_R0 q ltac:(unfold q; lra)). assert (S2 := sqrt_lt_R0 (1 + 1) ltac:(lra)). unfold Rdiv. apply Rmult_integral_contrapositive_currified; [apply Rmult_integral_contrapositive_currified; lra|]. apply Rinv_neq_0_compat. lra.
Qed.
