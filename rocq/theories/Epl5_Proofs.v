(** * The elliptical power law: bounds, special cases *)
From Coq Require Import Reals List Arith Lia Lra Psatz.
From Coquelicot Require Import Coquelicot.
From Verif Require Import Py Fsum Calc2 RealFun Geo_Model Lens_Spec Lens_Lib LensBasic_Model Wirtinger Epl_Model Epl_Spec Epl_Proofs Epl2_Proofs Epl3_Proofs Epl4_Proofs.
Local Open Scope R_scope.

Lemma ell_range q : 0 < q <= 1 -> 0 <= (1 - q) / (1 + q) < 1.
Proof.
  intros H. assert (I : 0 < / (1 + q)) by (apply Rinv_0_lt_compat; lra). split.
  - apply Rmult_le_pos; lra.
  - apply Rmult_lt_reg_r with (1 + q); [lra|]. unfold Rdiv. rewrite Rmult_assoc, Rinv_l by lra. lra.
Qed.
Lemma rem_bound q t n B : 0 < q <= 1 -> 0 < t < 2 -> neglected t (S n) <= B ->
  Rabs (rem q t (S n)) <= ((1 - q) / (1 + q)) ^ n * (2 / (2 - t) * B * ((1 - q) / (1 + q))).
Proof.
  intros Hq Ht HB. destruct (ell_range q Hq) as [F1 F2]. assert (P := neglected_pos t (S n) Ht). unfold rem. set (f := (1 - q) / (1 + q)) in *.
  assert (I : 0 < / (2 - t)) by (apply Rinv_0_lt_compat; lra).
  rewrite !Rabs_mult, <- RPow_abs, Rabs_Ropp, (Rabs_pos_eq f), (Rabs_pos_eq (neglected t (S n))), (Rabs_pos_eq (2 / (2 - t))) by (unfold Rdiv; nra).
  cbn [pow]. replace (f ^ n * (2 / (2 - t) * B * f)) with (2 / (2 - t) * B * (f * f ^ n)) by ring.
  apply Rmult_le_compat_r; [apply Rmult_le_pos; [lra|apply pow_le; lra]|]. apply Rmult_le_compat_l; [unfold Rdiv; nra|exact HB].
Qed.
Section Bound.
Variables (x0 y0 q phi Rein t : R) (n : nat) (c : option nat) (x y : R).
Hypotheses (Hn : (1 <= n)%nat) (Hc : good_chunk n c) (Hq : 0 < q <= 1) (HR : 0 < Rein) (Ht : 0 < t < 2) (Hxy : x <> x0 \/ y <> y0).
Notation kappa := (convergence_epl x0 y0 q phi Rein t 0 x y).
Lemma divergence_bound B : neglected t n <= B ->
  exists alpha d, (forall u v, reduced_deflection_angle_epl x0 y0 q phi Rein t n c u v = Ok (alpha u v)) /\ half_divergence alpha x y d /\
  Rabs (d - kappa) <= kappa * (((1 - q) / (1 + q)) ^ (n - 1) * (2 / (2 - t) * B * ((1 - q) / (1 + q)))).
Proof.
  intros HB. destruct (epl_derivatives x0 y0 q phi Rein t n c Hn Hc Hq HR Ht x y Hxy) as (alpha & psi & th & A & _ & _ & _ & J). cbv zeta in J. destruct J as [(axx & axy & ayx & ayy & D1 & D2' & T & _) _].
  exists alpha, ((axx + ayy) / 2). split; [exact A|]. split; [exists axx, axy, ayx, ayy; auto|].
  assert (K := kappa_pos x0 y0 q phi Rein t Hq HR Ht x y Hxy). rewrite T.
  replace (kappa * (1 - rem q t n * cos (2 * INR n * th)) - kappa) with (- (kappa * (rem q t n * cos (2 * INR n * th)))) by ring.
  rewrite Rabs_Ropp, Rabs_mult, (Rabs_pos_eq kappa) by lra. apply Rmult_le_compat_l; [lra|].
  destruct n as [|m]; [lia|]. replace (S m - 1)%nat with m by lia. rewrite Rabs_mult. 
  assert (CB : Rabs (cos (2 * INR (S m) * th)) <= 1) by (apply Rabs_le; generalize (COS_bound (2 * INR (S m) * th)); lra).
  assert (RB := rem_bound q t m B Hq Ht HB). assert (0 <= Rabs (rem q t (S m))) by apply Rabs_pos.
  eapply Rle_trans; [|exact RB]. nra.
Qed.
End Bound.
Lemma half_divergence_unique alpha x y d d' : half_divergence alpha x y d -> half_divergence alpha x y d' -> d = d'.
Proof.
  intros (a & b & e & f & H1 & H2 & ->) (a' & b' & e' & f' & H1' & H2' & ->).
  destruct (D2_unique _ _ _ _ _ _ _ H1 H1'). destruct (D2_unique _ _ _ _ _ _ _ H2 H2'). subst. reflexivity.
Qed.
Lemma half_divergence_ext a b x y d : (forall u v, a u v = b u v) -> half_divergence a x y d -> half_divergence b x y d.
Proof.
  intros E (p & q & r & s & H1 & H2 & ->). exists p, q, r, s. split; [|split; [|reflexivity]].
  - eapply D2_ext; [|exact H1]. intros u v. rewrite <- E. reflexivity.
  - eapply D2_ext; [|exact H2]. intros u v. rewrite <- E. reflexivity.
Qed.
(** q = 1 *)
Lemma rem_circular t n : (1 <= n)%nat -> rem 1 t n = 0.
Proof. intros H. unfold rem. replace (- ((1 - 1) / (1 + 1))) with 0 by field. rewrite pow_i by lia. ring. Qed.
Section Circular.
Variables (x0 y0 phi Rein t : R) (n : nat) (c : option nat) (x y : R).
Hypotheses (Hn : (1 <= n)%nat) (Hc : good_chunk n c) (HR : 0 < Rein) (Ht : 0 < t < 2) (Hxy : x <> x0 \/ y <> y0).
Lemma epl_circular : exists alpha psi, (forall u v, reduced_deflection_angle_epl x0 y0 1 phi Rein t n c u v = Ok (alpha u v)) /\
  (forall u v, potential_epl x0 y0 1 phi Rein t n c u v = Ok (psi u v)) /\ lens_consistent psi alpha (convergence_epl x0 y0 1 phi Rein t 0) x y.
Proof.
  destruct (epl_derivatives x0 y0 1 phi Rein t n c Hn Hc ltac:(lra) HR Ht x y Hxy) as (alpha & psi & th & A & P & _ & _ & J). cbv zeta in J.
  rewrite rem_circular in J by exact Hn. destruct J as [(axx & axy & ayx & ayy & D1 & D2' & T & Cu) G].
  exists alpha, psi. split; [exact A|]. split; [exact P|]. split.
  - unfold deflection_is_gradient. eapply D2_eq; [exact G| |]; cbn [fst snd]; field; lra.
  - exists axx, axy, ayx, ayy. split; [exact D1|]. split; [exact D2'|]. split; [|rewrite T; ring].
    assert (ayx - axy = 0); [|lra]. apply Rmult_eq_reg_r with (/ 2); [|lra]. unfold Rdiv in Cu. rewrite Cu. ring.
Qed.
End Circular.
(** no constant works when t > 1 *)
Lemma grows_unbounded B : exists n, (1 <= n)%nat /\ B < neglected (3 / 2) n.
Proof.
  destruct (nfloor_ex (2 * (B * B)) ltac:(nra)) as [n [_ H]]. exists (S n). split; [lia|].
  assert (G := neglected_grows n). assert (P := neglected_pos (3 / 2) (S n) ltac:(lra)). rewrite S_INR in G.
  destruct (Rle_lt_dec B 0) as [Hb|Hb]; [lra|]. apply Rnot_le_lt. intros L. nra.
Qed.
Lemma cos_sin_multiple th k : cos th = 1 -> sin th = 0 -> cos (INR k * th) = 1 /\ sin (INR k * th) = 0.
Proof.
  intros C S. induction k as [|k [IH1 IH2]]; [cbn [INR]; rewrite Rmult_0_l, cos_0, sin_0; split; reflexivity|].
  rewrite S_INR, Rmult_plus_distr_r, Rmult_1_l, cos_plus, sin_plus, IH1, IH2, C, S. split; ring.
Qed.
Lemma on_axis n : exists alpha d, (forall u v, reduced_deflection_angle_epl 0 0 (1 / 2) 0 1 (3 / 2) (S n) None u v = Ok (alpha u v)) /\ half_divergence alpha 1 0 d /\
  Rabs (d - convergence_epl 0 0 (1 / 2) 0 1 (3 / 2) 0 1 0) = convergence_epl 0 0 (1 / 2) 0 1 (3 / 2) 0 1 0 * ((1 / 3) ^ n * (4 / 3 * neglected (3 / 2) (S n))).
Proof.
  assert (Hxy : 1 <> 0 \/ 0 <> 0) by (left; lra).
  destruct (epl_derivatives 0 0 (1 / 2) 0 1 (3 / 2) (S n) None ltac:(lia) I ltac:(lra) ltac:(lra) ltac:(lra) 1 0 Hxy) as (alpha & psi & th & A & _ & P1 & P2 & J). cbv zeta in J. destruct J as [(axx & axy & ayx & ayy & D1 & D2' & T & _) _].
  exists alpha, ((axx + ayy) / 2). split; [exact A|]. split; [exists axx, axy, ayx, ayy; auto|].
  assert (K := kappa_pos 0 0 (1 / 2) 0 1 (3 / 2) ltac:(lra) ltac:(lra) ltac:(lra) 1 0 Hxy). set (k := convergence_epl _ _ _ _ _ _ _ _ _) in *.
  cbn [translate_rotate fst snd] in P1, P2. rewrite cos_0, sin_0 in P1, P2.
  assert (E : sqrt ((1 / 2 * ((1 - 0) * 1 + (0 - 0) * 0)) ^ 2 + ((0 - 0) * 1 - (1 - 0) * 0) ^ 2) = 1 / 2).
  { replace ((1 / 2 * ((1 - 0) * 1 + (0 - 0) * 0)) ^ 2 + ((0 - 0) * 1 - (1 - 0) * 0) ^ 2) with ((1 / 2) ^ 2) by field. apply sqrt_pow2. lra. }
  rewrite E in P1, P2. assert (C1 : cos th = 1) by lra. assert (S1 : sin th = 0) by lra.
  assert (CC : cos (2 * INR (S n) * th) = 1).
  { replace (2 * INR (S n)) with (INR (2 * S n)) by (rewrite mult_INR; reflexivity). apply cos_sin_multiple; assumption. }
  rewrite T, CC.
  replace (k * (1 - rem (1 / 2) (3 / 2) (S n) * 1) - k) with (- (k * rem (1 / 2) (3 / 2) (S n))) by ring. rewrite Rabs_Ropp, Rabs_mult, (Rabs_pos_eq k) by lra. f_equal.
  unfold rem. replace ((1 - 1 / 2) / (1 + 1 / 2)) with (1 / 3) by field. replace (2 / (2 - 3 / 2)) with 4 by field.
  assert (P := neglected_pos (3 / 2) (S n) ltac:(lra)). rewrite !Rabs_mult, <- RPow_abs, Rabs_Ropp, (Rabs_pos_eq (1 / 3)), (Rabs_pos_eq 4), (Rabs_pos_eq (neglected _ _)) by lra. cbn [pow]. field.
Qed.
(** scaling, potential, isothermal case *)
Lemma power_mult a b t : 0 < a -> 0 <= b -> power (a * b) t = Rpower a t * power b t.
Proof.
  intros Ha Hb. unfold power. destruct (Req_EM_T b 0) as [->|Nb]; [rewrite Rmult_0_r; destruct (Req_EM_T 0 0); [ring|lra]|].
  destruct (Req_EM_T (a * b) 0) as [E|_]; [apply Rmult_integral in E; lra|]. symmetry; apply Rpower_mult_distr; lra.
Qed.
Lemma phase_scale (l : R) (z : C) q : l <> 0 -> z <> 0%C -> phase (RtoC l * z)%C q = phase z q.
Proof.
  intros Hl Hz. unfold phase. assert (Nc : Cconj z <> 0%C) by (destruct z as [z1 z2]; apply (conj_nz z1 z2), Hz).
  assert (E : Cconj (RtoC l * z)%C = (RtoC l * Cconj z)%C). { unfold Cconj, Cmult, RtoC. cbn [fst snd]. apply (f_equal2 pair); ring. }
  rewrite E. f_equal. field. split; [exact Nc|]. intros H. apply Hl. injection H. auto.
Qed.
Lemma omega_scale (l : R) (z : C) t q k : l <> 0 -> z <> 0%C -> omega (RtoC l * z)%C t q k = (RtoC l * omega z t q k)%C.
Proof. intros Hl Hz. induction k as [|k IH]; [reflexivity|]. cbn [omega]. rewrite IH, phase_scale by assumption. ring. Qed.
Lemma psum_scale (l : R) (z : C) t q n : l <> 0 -> z <> 0%C -> psum (RtoC l * z)%C t q n = (RtoC l * psum z t q n)%C.
Proof. intros Hl Hz. induction n as [|n IH]; cbn [psum]; [ring|]. rewrite IH, omega_scale by assumption. ring. Qed.
Lemma Rpower_inv l t : 0 < l -> Rpower (/ l) t = / Rpower l t.
Proof. intros H. unfold Rpower. rewrite ln_Rinv by exact H. rewrite <- exp_Ropp. f_equal. ring. Qed.
Section Scale.
Variables (q Rein t : R) (n : nat).
Hypotheses (Hq : 0 < q <= 1) (HR : 0 < Rein).
Lemma alpha0_scale l a b : 0 < l -> a <> 0 \/ b <> 0 ->
  alpha0 q Rein t n (l * a) (l * b) = (Rpower l (1 - t) * fst (alpha0 q Rein t n a b), Rpower l (1 - t) * snd (alpha0 q Rein t n a b)).
Proof.
  intros Hl Hab.
  assert (Hab' : l * a <> 0 \/ l * b <> 0) by (destruct Hab; [left|right]; apply Rmult_integral_contrapositive_currified; lra).
  rewrite !alpha0_val by assumption.
  assert (NZ' : (((q * a)%R, b) : C) <> 0%C) by (apply NZ; assumption).
  assert (EZ : (((q * (l * a))%R, (l * b)%R) : C) = (RtoC l * ((q * a)%R, b))%C). { unfold Cmult, RtoC. cbn [fst snd]. apply (f_equal2 pair); ring. }
  assert (EM : Cmod ((q * (l * a))%R, (l * b)%R) = l * Cmod ((q * a)%R, b)). { rewrite EZ, Cmod_mult, Cmod_R, Rabs_pos_eq by lra. reflexivity. }
  assert (P := mod_pos q Hq a b Hab). assert (PK := K0_pos q Rein Hq HR).
  assert (EG : g t (K0 q Rein) (q * (l * a)) (l * b) = / Rpower l t * g t (K0 q Rein) (q * a) b).
  { unfold g. rewrite EM. rewrite <- Rpower_inv by exact Hl. rewrite <- power_mult.
    - f_equal. field. lra.
    - apply Rinv_0_lt_compat, Hl.
    - apply Rlt_le, Rdiv_lt_0_compat; assumption. }
  rewrite EG, EZ, psum_scale by (try assumption; lra).
  assert (EP : Rpower l (1 - t) = / Rpower l t * l). { rewrite <- Rpower_Ropp. unfold Rminus. rewrite Rpower_plus, Rpower_1 by exact Hl. ring. }
  rewrite EP. set (w := psum _ _ _ _). set (gg := g _ _ _ _). unfold Cmult, RtoC. cbn [fst snd]. apply (f_equal2 pair); ring.
Qed.
End Scale.
Section Scale2.
Variables (x0 y0 q phi Rein t : R) (n : nat) (c : option nat) (x y l : R).
Hypotheses (Hn : (1 <= n)%nat) (Hc : good_chunk n c) (Hq : 0 < q <= 1) (HR : 0 < Rein) (Ht : 0 < t < 2) (Hxy : x <> x0 \/ y <> y0) (Hl : 0 < l).
Lemma epl_scale : exists ax ay, reduced_deflection_angle_epl x0 y0 q phi Rein t n c x y = Ok (ax, ay) /\
  reduced_deflection_angle_epl x0 y0 q phi Rein t n c (x0 + l * (x - x0)) (y0 + l * (y - y0)) = Ok (Rpower l (1 - t) * ax, Rpower l (1 - t) * ay) /\
  potential_epl x0 y0 q phi Rein t n c x y = Ok (((x - x0) * ax + (y - y0) * ay) / (2 - t)).
Proof.
  assert (O := off_centre x0 y0 phi x y Hxy). cbn [translate_rotate fst snd] in O.
  rewrite potential_framed, !deflection_framed by assumption. unfold framed_alpha, framed, psi0. cbn [translate_rotate].
  set (X := (x - x0) * cos phi + (y - y0) * sin phi) in *. set (Y := (y - y0) * cos phi - (x - x0) * sin phi) in *.
  replace ((x0 + l * (x - x0) - x0) * cos phi + (y0 + l * (y - y0) - y0) * sin phi) with (l * X) by (unfold X; ring).
  replace ((y0 + l * (y - y0) - y0) * cos phi - (x0 + l * (x - x0) - x0) * sin phi) with (l * Y) by (unfold Y; ring).
  rewrite alpha0_scale by assumption. destruct (alpha0 q Rein t n X Y) as [w1 w2]. cbn [derotate fst snd].
  exists (w1 * cos phi - w2 * sin phi), (w1 * sin phi + w2 * cos phi). split; [reflexivity|]. split.
  - f_equal. apply (f_equal2 pair); ring.
  - f_equal. f_equal. unfold X, Y. ring.
Qed.
End Scale2.
Lemma phase_circular z : phase z 1 = 0%C.
Proof. unfold phase, ellf. replace ((1 - 1) / (1 + 1)) with 0 by field. ring. Qed.
Lemma psum_circular z t n : psum z t 1 (S n) = z.
Proof.
  induction n as [|n IH]; [cbn [psum omega]; ring|]. change (psum z t 1 (S (S n))) with (psum z t 1 (S n) + omega z t 1 (S n))%C. rewrite IH. cbn [omega]. rewrite phase_circular. ring.
Qed.
Lemma epl_is_sis x0 y0 phi Rein n c x y : (1 <= n)%nat -> good_chunk n c -> 0 < Rein -> x <> x0 \/ y <> y0 ->
  reduced_deflection_angle_epl x0 y0 1 phi Rein 1 n c x y = Ok (reduced_deflection_angle_sis x0 y0 Rein 0 x y) /\
  potential_epl x0 y0 1 phi Rein 1 n c x y = Ok (potential_sis x0 y0 Rein 0 x y).
Proof.
  intros Hn Hc HR Hxy. assert (Hq : 0 < 1 <= 1) by lra.
  assert (O := off_centre x0 y0 phi x y Hxy). cbn [translate_rotate fst snd] in O.
  rewrite potential_framed, deflection_framed by assumption. unfold framed_alpha, framed, psi0, reduced_deflection_angle_sis, potential_sis. cbn [translate_rotate]. cbv zeta.
  set (X := (x - x0) * cos phi + (y - y0) * sin phi) in *. set (Y := (y - y0) * cos phi - (x - x0) * sin phi) in *.
  assert (Hcs : cos phi * cos phi + sin phi * sin phi = 1) by (generalize (sin2_cos2 phi); unfold Rsqr; lra).
  assert (EX : X ^ 2 + Y ^ 2 = (x - x0) ^ 2 + (y - y0) ^ 2).
  { unfold X, Y. transitivity (((x - x0) ^ 2 + (y - y0) ^ 2) * (cos phi * cos phi + sin phi * sin phi)); [ring|rewrite Hcs; ring]. }
  assert (EM : Cmod ((1 * X)%R, Y) = sqrt ((x - x0) ^ 2 + (y - y0) ^ 2)). { unfold Cmod. cbn [fst snd]. f_equal. rewrite Rmult_1_l. exact EX. }
  assert (P := mod_pos 1 Hq X Y O). rewrite EM in P. assert (PK := K0_pos 1 Rein Hq HR).
  rewrite alpha0_val by assumption. destruct n as [|m]; [lia|]. rewrite psum_circular.
  assert (EG : g 1 (K0 1 Rein) (1 * X) Y = Rein / sqrt ((x - x0) ^ 2 + (y - y0) ^ 2)).
  { unfold g, power. rewrite EM. unfold K0. rewrite sqrt_1, Rmult_1_r. destruct (Req_EM_T _ 0) as [E|_].
    - symmetry. exact E. - apply Rpower_1. apply Rdiv_lt_0_compat; assumption. }
  rewrite EG. set (r := sqrt _) in *.
  assert (R2 : r * r = (x - x0) ^ 2 + (y - y0) ^ 2) by (apply sqrt_def; apply Rplus_le_le_0_compat; apply pow2_ge_0).
  unfold Cmult, RtoC. cbn [fst snd derotate]. split.
  - f_equal. apply (f_equal2 pair).
    + transitivity (Rein / r * ((x - x0) * (cos phi * cos phi + sin phi * sin phi))); [unfold X, Y; field; lra|rewrite Hcs; field; lra].
    + transitivity (Rein / r * ((y - y0) * (cos phi * cos phi + sin phi * sin phi))); [unfold X, Y; field; lra|rewrite Hcs; field; lra].
  - f_equal. transitivity (Rein / r * (X ^ 2 + Y ^ 2)); [field; lra|]. rewrite EX, <- R2. field. lra.
Qed.
Lemma epl_is_sie x0 y0 q phi Rein x y : 0 < q -> 0 < Rein -> x <> x0 \/ y <> y0 ->
  convergence_epl x0 y0 q phi Rein 1 0 x y = convergence_sie x0 y0 q phi Rein 0 x y.
Proof.
  intros Hq HR Hxy. assert (O := off_centre x0 y0 phi x y Hxy). unfold convergence_epl, convergence_sie. cbn [translate_rotate fst snd] in *. cbv zeta.
  set (X := (x - x0) * cos phi + (y - y0) * sin phi) in *. set (Y := (y - y0) * cos phi - (x - x0) * sin phi) in *.
  replace (q ^ 2 * X ^ 2 + Y ^ 2 + 0 ^ 2) with (q ^ 2 * (X ^ 2 + 0 ^ 2) + Y ^ 2) by ring.
  assert (P : 0 < q ^ 2 * (X ^ 2 + 0 ^ 2) + Y ^ 2).
  { assert (0 < q ^ 2) by (apply pow_lt; lra). destruct O as [O|O]; assert (0 < X ^ 2 \/ 0 < Y ^ 2) by (first [left; apply pow2_gt_0; assumption|right; apply pow2_gt_0; assumption]); assert (0 <= X ^ 2) by apply pow2_ge_0; assert (0 <= Y ^ 2) by apply pow2_ge_0; nra. }
  apply sqrt_lt_R0 in P. set (r := sqrt (_ + _)) in *. assert (PK : 0 < Rein * sqrt q / r) by (apply Rdiv_lt_0_compat; [apply Rmult_lt_0_compat; [|apply sqrt_lt_R0]|]; lra).
  unfold power. destruct (Req_EM_T _ 0); [lra|]. rewrite Rpower_1 by exact PK. field. lra.
Qed.
(** softening changes the convergence only *)
Lemma epl_softened : forall s, 0 < s -> ~ (exists alpha, (forall u v, reduced_deflection_angle_epl 0 0 1 0 1 1 1 None u v = Ok (alpha u v)) /\ half_divergence alpha 1 0 (convergence_epl 0 0 1 0 1 1 s 1 0)).
Proof.
  intros s Hs (alpha & A & D). assert (Hxy : 1 <> 0 \/ 0 <> 0) by (left; lra).
  destruct (epl_circular 0 0 0 1 1 1 None 1 0 ltac:(lia) I ltac:(lra) ltac:(lra) Hxy) as (alpha' & psi & A' & _ & _ & (a & b & d & e & H1 & H2 & _ & K)).
  assert (DD : half_divergence alpha 1 0 (convergence_epl 0 0 1 0 1 1 0 1 0)).
  { apply half_divergence_ext with alpha'; [|exists a, b, d, e; auto]. intros u v. assert (E : Ok (alpha' u v) = Ok (alpha u v)) by (rewrite <- A, <- A'; reflexivity). injection E. auto. }
  assert (E := half_divergence_unique _ _ _ _ _ D DD). revert E. unfold convergence_epl. cbn [translate_rotate]. rewrite cos_0, sin_0, sqrt_1. cbv zeta.
  replace (1 ^ 2 * ((1 - 0) * 1 + (0 - 0) * 0) ^ 2 + ((0 - 0) * 1 - (1 - 0) * 0) ^ 2 + 0 ^ 2) with 1 by ring.
  replace (1 ^ 2 * ((1 - 0) * 1 + (0 - 0) * 0) ^ 2 + ((0 - 0) * 1 - (1 - 0) * 0) ^ 2 + s ^ 2) with (1 + s ^ 2) by ring. rewrite sqrt_1.
  assert (Q : 1 < sqrt (1 + s ^ 2)). { rewrite <- sqrt_1 at 1. apply sqrt_lt_1; nra. } set (r := sqrt _) in *.
  assert (I1 : 0 < / r) by (apply Rinv_0_lt_compat; lra). assert (I2 : / r < 1) by (rewrite <- Rinv_1; apply Rinv_lt_contravar; lra).
  unfold power. replace (1 * 1 / r) with (/ r) by (field; lra). replace (1 * 1 / 1) with 1 by field.
  destruct (Req_EM_T (/ r) 0); [lra|]. destruct (Req_EM_T 1 0); [lra|]. rewrite !Rpower_1 by lra. lra.
Qed.
(** chunk witness at the level of the deflection *)
Lemma chunk_witness_deflection : exists u v, reduced_deflection_angle_epl 0 0 (1 / 2) 0 1 1 4 None 2 0 = Ok u /\
  reduced_deflection_angle_epl 0 0 (1 / 2) 0 1 1 4 (Some 2%nat) 2 0 = Ok v /\ u <> v.
Proof.
  destruct chunk_witness as (u & v & HU & HV & N).
  unfold reduced_deflection_angle_epl. cbn [translate_rotate]. rewrite cos_0, sin_0. cbv zeta.
  replace (1 / 2 * ((2 - 0) * 1 + (0 - 0) * 0)) with 1 by field. replace ((0 - 0) * 1 - (2 - 0) * 0) with 0 by ring.
  rewrite HU, HV. cbn [bind derotate]. assert (M : Cmod (1, 0) = 1) by (unfold Cmod; cbn [fst snd]; replace (1 ^ 2 + 0 ^ 2) with 1 by ring; apply sqrt_1).
  rewrite M. destruct (Req_EM_T 1 0); [lra|]. cbn [derotate]. rewrite ?cos_0, ?sin_0.
  set (k := 2 / (1 + 1 / 2) * power (1 * sqrt (1 / 2) / 1) 1).
  assert (PK : 0 < k). { unfold k. assert (0 < sqrt (1 / 2)) by (apply sqrt_lt_R0; lra). unfold power. replace (1 * sqrt (1 / 2) / 1) with (sqrt (1 / 2)) by field. destruct (Req_EM_T _ 0); [lra|]. rewrite Rpower_1 by assumption. apply Rmult_lt_0_compat; [lra|assumption]. }
  do 2 eexists. split; [reflexivity|]. split; [reflexivity|]. intros E. apply N.
  destruct u as [u1 u2], v as [v1 v2]. unfold Cmult, RtoC in E. cbn [fst snd] in E. injection E as E1 E2. apply (f_equal2 pair); apply Rmult_eq_reg_l with k; lra.
Qed.
Lemma big_chunk_deflection x0 y0 q phi Rein t n c x y : (2 <= c)%nat -> (n < c)%nat -> reduced_deflection_angle_epl x0 y0 q phi Rein t n (Some c) x y = Raise TypeError.
Proof. intros H1 H2. unfold reduced_deflection_angle_epl. cbn [translate_rotate]. cbv zeta. rewrite big_chunk by assumption. reflexivity. Qed.
Lemma constant_refuted_aux : forall C, exists n alpha d, (1 <= n)%nat /\
  (forall u v, reduced_deflection_angle_epl 0 0 (1 / 2) 0 1 (3 / 2) n None u v = Ok (alpha u v)) /\ half_divergence alpha 1 0 d /\
  Rabs (d - convergence_epl 0 0 (1 / 2) 0 1 (3 / 2) 0 1 0) > convergence_epl 0 0 (1 / 2) 0 1 (3 / 2) 0 1 0 * ((1 - 1 / 2) / (1 + 1 / 2)) ^ (n - 1) * C.
Proof.
  intros C. destruct (grows_unbounded C) as (n & Hn & HG). destruct n as [|n]; [lia|].
  destruct (on_axis n) as (alpha & d & A & D & E). exists (S n), alpha, d. split; [lia|]. split; [exact A|]. split; [exact D|]. rewrite E.
  replace (S n - 1)%nat with n by lia. replace ((1 - 1 / 2) / (1 + 1 / 2)) with (1 / 3) by field.
  assert (K := kappa_pos 0 0 (1 / 2) 0 1 (3 / 2) ltac:(lra) ltac:(lra) ltac:(lra) 1 0 ltac:(left; lra)). set (k := convergence_epl _ _ _ _ _ _ _ _ _) in *.
  assert (P : 0 < (1 / 3) ^ n) by (apply pow_lt; lra). assert (PN := neglected_pos (3 / 2) (S n) ltac:(lra)). rewrite Rmult_assoc. apply Rmult_lt_compat_l; [exact K|]. apply Rmult_lt_compat_l; [exact P|]. lra.
Qed.
Lemma divergence_flat : forall x0 y0 q phi Rein t n c x y, (1 <= n)%nat -> good_chunk n c -> 0 < q <= 1 -> 0 < Rein -> 0 < t <= 1 -> x <> x0 \/ y <> y0 ->
  let kappa := convergence_epl x0 y0 q phi Rein t 0 x y in
  exists alpha d, (forall u v, reduced_deflection_angle_epl x0 y0 q phi Rein t n c u v = Ok (alpha u v)) /\ half_divergence alpha x y d /\
  Rabs (d - kappa) <= kappa * (((1 - q) / (1 + q)) ^ (n - 1) * (2 / (2 - t) * (t / 2) * ((1 - q) / (1 + q)))).
Proof. intros. apply divergence_bound; try assumption; [lra|]. destruct n; [lia|]. apply neglected_small. assumption. Qed.
Lemma divergence_steep : forall x0 y0 q phi Rein t n c x y, (1 <= n)%nat -> good_chunk n c -> 0 < q <= 1 -> 0 < Rein -> 0 < t < 2 -> x <> x0 \/ y <> y0 ->
  let kappa := convergence_epl x0 y0 q phi Rein t 0 x y in
  exists alpha d, (forall u v, reduced_deflection_angle_epl x0 y0 q phi Rein t n c u v = Ok (alpha u v)) /\ half_divergence alpha x y d /\
  Rabs (d - kappa) <= kappa * (((1 - q) / (1 + q)) ^ (n - 1) * (2 / (2 - t) * INR n * ((1 - q) / (1 + q)))).
Proof. intros. apply divergence_bound; try assumption. destruct n; [lia|]. apply neglected_bound. assumption. Qed.
