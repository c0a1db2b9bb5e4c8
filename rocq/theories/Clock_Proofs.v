(** * Proofs for C154: the Hubble constant from delays *)
From Coq Require Import Reals List Lra.
From Verif Require Import Py Const_Model Cosmo_Model Geo_Model RealFun Tnfw3_Proofs LensBase_Model LensBasic_Model Hubble_Spec Hubble_Proofs Sheet_Proofs Sheet_Props Delay_Spec Delay_Proofs Astro_Proofs Invert_Spec Invert_Proofs Clock_Spec.
Local Open Scope R_scope.

Section Clock.
Variables (helper : R -> R) (Om0 : R).
Notation univ := (universe helper Om0).
Lemma lag_scales lens z_s P1 P2 h : 0 < h -> seen_from helper Om0 (z_l lens) z_s -> lag (univ h) lens z_s P1 P2 = lag (univ 1) lens z_s P1 P2 / h.
Proof.
  intros H [D1 D2]. assert (K : k_times_nearer h (univ 1) (univ h)) by (assert (F := flat_nearer helper Om0 1 h ltac:(lra) H); rewrite Rmult_1_r in F; exact F).
  unfold lag. rewrite !(near_delay h (univ 1) (univ h) H K) by assumption. unfold Rdiv. ring.
Qed.
Lemma div_eq a h h' : a <> 0 -> 0 < h -> 0 < h' -> (a / h = a / h' <-> h = h').
Proof.
  intros Ha H H'. split; [|intros ->; reflexivity]. intros E. unfold Rdiv in E. apply Rmult_eq_reg_l in E; [|exact Ha]. rewrite <- (Rinv_inv h), <- (Rinv_inv h'), E. reflexivity.
Qed.
Lemma h0_unique lens z_s P1 P2 h h' : 0 < h -> 0 < h' -> seen_from helper Om0 (z_l lens) z_s -> lag (univ h) lens z_s P1 P2 <> 0 ->
  h' * lag (univ h') lens z_s P1 P2 = h * lag (univ h) lens z_s P1 P2 /\ (lag (univ h') lens z_s P1 P2 = lag (univ h) lens z_s P1 P2 <-> h' = h).
Proof.
  intros H H' S N. rewrite (lag_scales lens z_s P1 P2 h' H' S). rewrite (lag_scales lens z_s P1 P2 h H S) in N |- *. assert (A : lag (univ 1) lens z_s P1 P2 <> 0) by (intros Z; apply N; rewrite Z; unfold Rdiv; ring).
  split; [field; lra|apply div_eq; assumption].
Qed.
Lemma h0_sheet kappa x0 y0 t t' z_s P1 P2 h h' : 0 < h -> 0 < h' -> kappa < 1 -> scaled_lens (1 - kappa) t t' -> seen_from helper Om0 (z_l t) z_s -> raytrace (reduced_deflection_angle t) (fst P1) (snd P1) = raytrace (reduced_deflection_angle t) (fst P2) (snd P2) -> lag (univ h) t z_s P1 P2 <> 0 ->
  (lag (univ h') t z_s P1 P2 = lag (univ h) (with_sheet kappa x0 y0 t t') z_s P1 P2 <-> h' = h / (1 - kappa)).
Proof.
  intros H H' K L S E N. assert (T : lag (univ h) (with_sheet kappa x0 y0 t t') z_s P1 P2 = (1 - kappa) * lag (univ h) t z_s P1 P2) by (unfold lag; apply (C84_time_delay kappa x0 y0 t t' L); symmetry; exact E).
  rewrite T, (lag_scales t z_s P1 P2 h' H' S). rewrite (lag_scales t z_s P1 P2 h H S) in N |- *. assert (A : lag (univ 1) t z_s P1 P2 <> 0) by (intros Z; apply N; rewrite Z; unfold Rdiv; ring).
  replace ((1 - kappa) * (lag (univ 1) t z_s P1 P2 / h)) with (lag (univ 1) t z_s P1 P2 / (h / (1 - kappa))) by (field; lra). apply div_eq; [exact A|exact H'|apply Rdiv_lt_0_compat; lra].
Qed.
End Clock.
Lemma sep_sq P1 P2 : separation P1 P2 ^ 2 = (fst P1 - fst P2) ^ 2 + (snd P1 - snd P2) ^ 2.
Proof. unfold separation. rewrite pow2_sqrt; [reflexivity|]. assert (U := pow2_ge_0 (fst P1 - fst P2)). assert (V := pow2_ge_0 (snd P1 - snd P2)). lra. Qed.
Lemma sis_lag cd z zs x0 y0 Rein k S P1 P2 F1 F2 : 0 < Rein -> 0 < k -> seen_pair (reduced_deflection_angle_sis x0 y0 Rein 0) x0 y0 k S P1 P2 F1 F2 ->
  lag cd (sis_lens z x0 y0 Rein) zs P1 P2 = delay_unit cd z zs * separation P1 P2 ^ 2 * ((F1 - F2) / (F1 + F2)) / 2.
Proof.
  intros HR Hk T. destruct (sis_read x0 y0 Rein HR k S P1 P2 F1 F2 Hk T) as (G1 & G2 & _ & _ & X & Y). destruct T as (_ & O1 & O2 & R1 & R2 & _). unfold lag.
  rewrite (sis_delay cd z zs x0 y0 Rein (fst P1) (snd P1) (neq_or _ _ _ O1)), (sis_delay cd z zs x0 y0 Rein (fst P2) (snd P2) (neq_or _ _ _ O2)). cbv zeta. cbn [reduced_deflection_angle sis_lens]. rewrite R1, R2, sep_sq.
  assert (A1 : fst P1 - x0 = F1 / (F1 + F2) * (fst P1 - fst P2)) by (rewrite X; field; lra). assert (A2 : fst P2 - x0 = - (F2 / (F1 + F2)) * (fst P1 - fst P2)) by (rewrite X; field; lra).
  assert (B1 : snd P1 - y0 = F1 / (F1 + F2) * (snd P1 - snd P2)) by (rewrite Y; field; lra). assert (B2 : snd P2 - y0 = - (F2 / (F1 + F2)) * (snd P1 - snd P2)) by (rewrite Y; field; lra).
  rewrite A1, A2, B1, B2. field. lra.
Qed.
Lemma point_delay cd z zs x0 y0 Rein x y : (x <> x0 \/ y <> y0) -> let r := sqrt ((x - x0) ^ 2 + (y - y0) ^ 2) in
  time_delay cd (point_lens z x0 y0 Rein) zs x y true true = delay_unit cd z zs * (Rein ^ 4 / r ^ 2 / 2 - Rein ^ 2 * ln r).
Proof.
  intros H r. assert (N := norm_pos (x - x0) (y - y0) ltac:(destruct H; [left|right]; lra)). fold r in N. assert (Q : r ^ 2 = (x - x0) ^ 2 + (y - y0) ^ 2). { apply pow2_sqrt. assert (A := pow2_ge_0 (x - x0)). assert (B := pow2_ge_0 (y - y0)). lra. }
  unfold time_delay, point_lens. cbn [z_l potential reduced_deflection_angle]. unfold potential_point, reduced_deflection_angle_point. cbn [translate_rotate]. cbv zeta. rewrite !Rplus_0_r. fold r.
  assert (A : ((x - x0) * Rein ^ 2 / r ^ 2) ^ 2 + ((y - y0) * Rein ^ 2 / r ^ 2) ^ 2 = Rein ^ 4 / r ^ 2). { transitivity (Rein ^ 4 * ((x - x0) ^ 2 + (y - y0) ^ 2) / (r ^ 2) ^ 2); [field; lra|]. rewrite <- Q. field. lra. }
  rewrite A. unfold delay_unit, arcsec2_to_days, time_delay_arcsec2_to_days, time_delay_distance. unfold Rdiv. ring.
Qed.
Lemma point_lag cd z zs x0 y0 Rein k S P1 P2 F1 F2 : 0 < Rein -> 0 < k -> seen_pair (reduced_deflection_angle_point x0 y0 Rein 0) x0 y0 k S P1 P2 F1 F2 -> let f1 := sqrt F1 in let f2 := sqrt F2 in
  lag cd (point_lens z x0 y0 Rein) zs P1 P2 = delay_unit cd z zs * separation P1 P2 ^ 2 * ((f1 - f2) / (f1 + f2) / 2 + f1 * f2 / (f1 + f2) ^ 2 * ln (f1 / f2)).
Proof.
  intros HR Hk T f1 f2. destruct (point_read x0 y0 Rein HR k S P1 P2 F1 F2 Hk T) as (G1 & G2 & X & Y & E & _). destruct T as (D & O1 & O2 & R1 & R2 & _). fold f1 f2 in X, Y, E. assert (H1 : 0 < f1) by (apply sqrt_lt_R0; exact G1). assert (H2 : 0 < f2) by (apply sqrt_lt_R0; exact G2). unfold lag.
  rewrite (point_delay cd z zs x0 y0 Rein (fst P1) (snd P1) (neq_or _ _ _ O1)), (point_delay cd z zs x0 y0 Rein (fst P2) (snd P2) (neq_or _ _ _ O2)).
  assert (A1 : fst P1 - x0 = f1 / (f1 + f2) * (fst P1 - fst P2)) by (rewrite X; field; lra). assert (A2 : fst P2 - x0 = - (f2 / (f1 + f2)) * (fst P1 - fst P2)) by (rewrite X; field; lra).
  assert (B1 : snd P1 - y0 = f1 / (f1 + f2) * (snd P1 - snd P2)) by (rewrite Y; field; lra). assert (B2 : snd P2 - y0 = - (f2 / (f1 + f2)) * (snd P1 - snd P2)) by (rewrite Y; field; lra).
  assert (Sp := sep_sq P1 P2). assert (S0 : 0 < separation P1 P2). { assert (0 <= separation P1 P2) by apply sqrt_pos. destruct (Req_dec (separation P1 P2) 0) as [Z|Z]; [|lra]. rewrite Z in E. unfold Rdiv in E. rewrite !Rmult_0_l in E. lra. }
  set (d := separation P1 P2) in *. clearbody d. assert (C1 : sqrt ((fst P1 - x0) ^ 2 + (snd P1 - y0) ^ 2) = f1 / (f1 + f2) * d).
  { rewrite A1, B1. replace ((f1 / (f1 + f2) * (fst P1 - fst P2)) ^ 2 + (f1 / (f1 + f2) * (snd P1 - snd P2)) ^ 2) with ((f1 / (f1 + f2)) ^ 2 * ((fst P1 - fst P2) ^ 2 + (snd P1 - snd P2) ^ 2)) by ring. rewrite <- Sp. replace ((f1 / (f1 + f2)) ^ 2 * d ^ 2) with (Rsqr (f1 / (f1 + f2) * d)) by (unfold Rsqr; ring). apply sqrt_Rsqr. apply Rlt_le, Rmult_lt_0_compat; [apply Rdiv_lt_0_compat; lra|exact S0]. }
  assert (C2 : sqrt ((fst P2 - x0) ^ 2 + (snd P2 - y0) ^ 2) = f2 / (f1 + f2) * d).
  { rewrite A2, B2. replace ((- (f2 / (f1 + f2)) * (fst P1 - fst P2)) ^ 2 + (- (f2 / (f1 + f2)) * (snd P1 - snd P2)) ^ 2) with ((f2 / (f1 + f2)) ^ 2 * ((fst P1 - fst P2) ^ 2 + (snd P1 - snd P2) ^ 2)) by ring. rewrite <- Sp. replace ((f2 / (f1 + f2)) ^ 2 * d ^ 2) with (Rsqr (f2 / (f1 + f2) * d)) by (unfold Rsqr; ring). apply sqrt_Rsqr. apply Rlt_le, Rmult_lt_0_compat; [apply Rdiv_lt_0_compat; lra|exact S0]. }
  rewrite C1, C2. assert (E2 : Rein ^ 2 = d ^ 2 * (f1 * f2) / (f1 + f2) ^ 2). { rewrite E. transitivity (d ^ 2 * sqrt (f1 * f2) ^ 2 / (f1 + f2) ^ 2); [field; lra|]. rewrite pow2_sqrt by nra. reflexivity. }
  replace (Rein ^ 4) with (Rein ^ 2 * Rein ^ 2) by ring. rewrite E2. assert (L : ln (f1 / f2) = ln (f1 / (f1 + f2) * d) - ln (f2 / (f1 + f2) * d)).
  { rewrite <- ln_quot by (apply Rmult_lt_0_compat; [apply Rdiv_lt_0_compat; lra|exact S0]). f_equal. field. repeat split; lra. }
  rewrite L. generalize (ln (f1 / (f1 + f2) * d)) (ln (f2 / (f1 + f2) * d)). intros l1 l2. field. repeat split; lra.
Qed.
Lemma unit_scales helper Om0 h zl zs : 0 < h -> seen_from helper Om0 zl zs -> delay_unit (universe helper Om0 h) zl zs = delay_unit (universe helper Om0 1) zl zs / h.
Proof.
  intros H [D1 D2]. assert (K : k_times_nearer h (universe helper Om0 1) (universe helper Om0 h)) by (assert (F := flat_nearer helper Om0 1 h ltac:(lra) H); rewrite Rmult_1_r in F; exact F).
  unfold delay_unit. rewrite (near_tdd h _ _ H K zl zs D2). unfold Rdiv. ring.
Qed.
Lemma h0_sis helper Om0 h z zs x0 y0 Rein k S P1 P2 F1 F2 : 0 < h -> 0 < Rein -> 0 < k -> seen_from helper Om0 z zs -> seen_pair (reduced_deflection_angle_sis x0 y0 Rein 0) x0 y0 k S P1 P2 F1 F2 ->
  let t := lag (universe helper Om0 h) (sis_lens z x0 y0 Rein) zs P1 P2 in t <> 0 -> h = delay_unit (universe helper Om0 1) z zs * separation P1 P2 ^ 2 * ((F1 - F2) / (F1 + F2)) / 2 / t.
Proof.
  intros H HR Hk Sf T t N. assert (E : t = delay_unit (universe helper Om0 1) z zs * separation P1 P2 ^ 2 * ((F1 - F2) / (F1 + F2)) / 2 / h) by (unfold t; rewrite (sis_lag _ z zs x0 y0 Rein k S P1 P2 F1 F2 HR Hk T), (unit_scales helper Om0 h z zs H Sf); unfold Rdiv; ring).
  set (n := delay_unit (universe helper Om0 1) z zs * separation P1 P2 ^ 2 * ((F1 - F2) / (F1 + F2)) / 2) in *. clearbody n t. subst t. assert (n <> 0) by (intros Z; apply N; rewrite Z; unfold Rdiv; ring). field. split; lra.
Qed.
Lemma h0_point helper Om0 h z zs x0 y0 Rein k S P1 P2 F1 F2 : 0 < h -> 0 < Rein -> 0 < k -> seen_from helper Om0 z zs -> seen_pair (reduced_deflection_angle_point x0 y0 Rein 0) x0 y0 k S P1 P2 F1 F2 -> let f1 := sqrt F1 in let f2 := sqrt F2 in
  let t := lag (universe helper Om0 h) (point_lens z x0 y0 Rein) zs P1 P2 in t <> 0 -> h = delay_unit (universe helper Om0 1) z zs * separation P1 P2 ^ 2 * ((f1 - f2) / (f1 + f2) / 2 + f1 * f2 / (f1 + f2) ^ 2 * ln (f1 / f2)) / t.
Proof.
  intros H HR Hk Sf T f1 f2 t N. assert (E : t = delay_unit (universe helper Om0 1) z zs * separation P1 P2 ^ 2 * ((f1 - f2) / (f1 + f2) / 2 + f1 * f2 / (f1 + f2) ^ 2 * ln (f1 / f2)) / h) by (unfold t; rewrite (point_lag _ z zs x0 y0 Rein k S P1 P2 F1 F2 HR Hk T), (unit_scales helper Om0 h z zs H Sf); fold f1 f2; unfold Rdiv; ring).
  set (n := delay_unit (universe helper Om0 1) z zs * separation P1 P2 ^ 2 * ((f1 - f2) / (f1 + f2) / 2 + f1 * f2 / (f1 + f2) ^ 2 * ln (f1 / f2))) in *. clearbody n t. subst t. assert (n <> 0) by (intros Z; apply N; rewrite Z; unfold Rdiv; ring). field. split; lra.
Qed.
Lemma hub_pos h : 0 < h -> 0 < hubble_distance h.
Proof.
  intros H. unfold hubble_distance. assert (P := PI_RGT_0). assert (C : 0 < c_Mpc_s) by (unfold c_Mpc_s, c_SI, parsec_m; apply Rdiv_lt_0_compat; [lra|apply Rmult_lt_0_compat; [apply Rdiv_lt_0_compat; lra|lra]]).
  assert (K : 0 < km_to_Mpc) by (unfold km_to_Mpc, parsec_m; repeat first [apply Rdiv_lt_0_compat | apply Rmult_lt_0_compat]; lra). apply Rdiv_lt_0_compat; [|lra]. apply Rdiv_lt_0_compat; lra.
Qed.
Lemma grows helper Om0 h zl zs : 0 < h -> 0 < Om0 < 1 -> (forall a b, 0 < a -> a < b -> helper a < helper b) -> 0 < zl < zs ->
  0 < angular_diameter_distance (universe helper Om0 h) zl /\ 0 < angular_diameter_distance (universe helper Om0 h) zs /\ 0 < angular_diameter_distance_z1z2 (universe helper Om0 h) zl zs.
Proof.
  intros H O G Z. assert (D := hub_pos h H). assert (R : 0 < Rpower (Om0 / (1 - Om0)) (1 / 3)) by apply exp_pos. assert (W : 0 < Rpower Om0 (1 / 3) * Rpower (1 - Om0) (1 / 6)) by (apply Rmult_lt_0_compat; apply exp_pos).
  unfold angular_diameter_distance, angular_diameter_distance_z1z2, comoving_distance_z1z2, universe, comoving_distance_flat. cbv zeta. set (r := Rpower (Om0 / (1 - Om0)) (1 / 3)) in *. set (w := Rpower Om0 (1 / 3) * Rpower (1 - Om0) (1 / 6)) in *. clearbody r w.
  assert (G1 := G r ((1 + zl) * r) R ltac:(nra)). assert (G2 := G ((1 + zl) * r) ((1 + zs) * r) ltac:(nra) ltac:(nra)). set (a := helper r) in *. set (b := helper ((1 + zl) * r)) in *. set (e := helper ((1 + zs) * r)) in *. clearbody a b e.
  split; [apply Rdiv_lt_0_compat; [apply Rdiv_lt_0_compat; [apply Rmult_lt_0_compat; lra|exact W]|lra]|]. split; [apply Rdiv_lt_0_compat; [apply Rdiv_lt_0_compat; [apply Rmult_lt_0_compat; lra|exact W]|lra]|].
  apply Rdiv_lt_0_compat; [|lra]. replace (hubble_distance h * (e - a) / w - hubble_distance h * (b - a) / w) with (hubble_distance h * (e - b) / w) by (field; lra). apply Rdiv_lt_0_compat; [apply Rmult_lt_0_compat; lra|exact W].
Qed.
Lemma seen_flat helper Om0 zl zs : 0 < Om0 < 1 -> (forall a b, 0 < a -> a < b -> helper a < helper b) -> 0 < zl < zs -> seen_from helper Om0 zl zs /\ forall h, 0 < h -> 0 < delay_unit (universe helper Om0 h) zl zs.
Proof.
  intros O G Z. split.
  - destruct (grows helper Om0 1 zl zs ltac:(lra) O G Z) as (A & _ & B). split; lra.
  - intros h H. destruct (grows helper Om0 h zl zs H O G Z) as (A & B & C). apply unit_pos; lra.
Qed.
