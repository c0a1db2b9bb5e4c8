(** * Proofs for C153: reading a lens off two images *)
From Coq Require Import Reals Lra.
From Verif Require Import Geo_Model RealFun Calc2 Lens_Lib LensBasic2_Proofs LensBase_Model LensBasic_Model Images_Proofs Astro_Spec Astro_Proofs Invert_Spec.
Local Open Scope R_scope.

Lemma neq_or (P : R * R) x0 y0 : P <> (x0, y0) -> fst P <> x0 \/ snd P <> y0.
Proof. destruct P as [x y]. cbn. intros H. destruct (Req_dec x x0) as [E|E]; [right|left; exact E]. intros F. apply H. rewrite E, F. reflexivity. Qed.
Lemma sep_line x0 y0 c s u v : c ^ 2 + s ^ 2 = 1 -> separation (x0 + u * c, y0 + u * s) (x0 + v * c, y0 + v * s) = Rabs (u - v).
Proof. intros N. unfold separation. cbn [fst snd]. replace ((x0 + u * c - (x0 + v * c)) ^ 2 + (y0 + u * s - (y0 + v * s)) ^ 2) with (Rsqr (u - v) * (c ^ 2 + s ^ 2)) by (unfold Rsqr; ring). rewrite N, Rmult_1_r. apply sqrt_Rsqr_abs. Qed.
Lemma sep_sym P Q : separation P Q = separation Q P.
Proof. unfold separation. f_equal. ring. Qed.

Section Sis.
Variables (x0 y0 Rein : R).
Hypothesis HR : 0 < Rein.
Let alpha := reduced_deflection_angle_sis x0 y0 Rein 0.
Lemma sis_ring_src x y : (x <> x0 \/ y <> y0) -> raytrace alpha x y = (x0, y0) -> magnification alpha x y = None.
Proof.
  intros H E. unfold alpha. rewrite (sis_mag x0 y0 Rein x y H). unfold alpha, raytrace, reduced_deflection_angle_sis in E.
  assert (P := off_centre _ _ _ _ H). assert (Q := norm_pos _ _ P). cbv zeta in E. unfold translate_rotate in E. cbv beta iota zeta in E. rewrite Rplus_0_r in E. assert (E1 := f_equal fst E). assert (E2 := f_equal snd E). cbn [fst snd] in E1, E2.
  set (q := sqrt ((x - x0) ^ 2 + (y - y0) ^ 2)) in *. assert (K : 1 - Rein / q = 0).
  { destruct P as [P|P].
    - apply (Rmult_eq_reg_l (x - x0)); [|exact P]. transitivity (x - Rein * (x - x0) / q - x0); [field; lra|rewrite E1; ring].
    - apply (Rmult_eq_reg_l (y - y0)); [|exact P]. transitivity (y - Rein * (y - y0) / q - y0); [field; lra|rewrite E2; ring]. }
  rewrite K. unfold inv_abs. rewrite Rabs_R0. destruct (Req_EM_T 0 0) as [_|N]; [reflexivity|exfalso; apply N; reflexivity].
Qed.
Lemma sis_read k S P1 P2 F1 F2 : 0 < k -> seen_pair alpha x0 y0 k S P1 P2 F1 F2 ->
  0 < F1 /\ 0 < F2 /\ S = ((fst P1 + fst P2) / 2, (snd P1 + snd P2) / 2) /\ Rein = separation P1 P2 / 2 /\ x0 = (F2 * fst P1 + F1 * fst P2) / (F1 + F2) /\ y0 = (F2 * snd P1 + F1 * snd P2) / (F1 + F2).
Proof.
  intros Hk (D & O1 & O2 & R1 & R2 & m1 & m2 & M1 & M2 & E1 & E2). destruct S as [sx sy].
  assert (Hs : (sx, sy) <> (x0, y0)) by (intros F; rewrite F in R1; rewrite (sis_ring_src _ _ (neq_or _ _ _ O1) R1) in M1; discriminate).
  assert (B := b_pos x0 y0 sx sy Hs). assert (N := cs x0 y0 sx sy Hs). destruct (src_is x0 y0 sx sy Hs) as [X Y]. set (b := sqrt ((sx - x0) ^ 2 + (sy - y0) ^ 2)) in *. set (c := (sx - x0) / b) in *. set (s := (sy - y0) / b) in *.
  rewrite <- X, <- Y in R1, R2 |- *. unfold alpha in *. apply (sis_images x0 y0 Rein HR b c s B N _ _ (neq_or _ _ _ O1)) in R1. apply (sis_images x0 y0 Rein HR b c s B N _ _ (neq_or _ _ _ O2)) in R2. clearbody b c s.
  destruct P1 as [p1 q1], P2 as [p2 q2]. cbn [fst snd] in *.
  assert (G : forall A : Prop, 0 < b -> b < Rein -> (0 < Rein / b - 1 -> 0 < Rein / b + 1 -> A) -> A). { intros A Hb L H. assert (1 < Rein / b) by (apply (Rmult_lt_reg_r b); [exact Hb|]; unfold Rdiv; rewrite Rmult_assoc, Rinv_l by lra; lra). apply H; lra. }
  destruct R1 as [(-> & ->)|(L & -> & ->)]; destruct R2 as [(-> & ->)|(L' & -> & ->)]; try (exfalso; apply D; reflexivity).
  - destruct (sis_image_mags x0 y0 Rein HR b c s B N L') as [A1 A2]. rewrite A1 in M1. rewrite A2 in M2. injection M1 as <-. injection M2 as <-. rewrite (sep_line _ _ _ _ _ _ N). replace (b + Rein - (b - Rein)) with (2 * Rein) by ring. rewrite Rabs_pos_eq by lra.
    apply (G _ B L'). intros G1 G2. rewrite E1, E2. split; [apply Rmult_lt_0_compat; lra|]. split; [apply Rmult_lt_0_compat; lra|]. split; [apply f_equal2; field|]. split; [field|]. split; field; repeat split; try lra; nra.
  - destruct (sis_image_mags x0 y0 Rein HR b c s B N L) as [A1 A2]. rewrite A2 in M1. rewrite A1 in M2. injection M1 as <-. injection M2 as <-. rewrite (sep_line _ _ _ _ _ _ N). replace (b - Rein - (b + Rein)) with (- (2 * Rein)) by ring. rewrite Rabs_Ropp, Rabs_pos_eq by lra.
    apply (G _ B L). intros G1 G2. rewrite E1, E2. split; [apply Rmult_lt_0_compat; lra|]. split; [apply Rmult_lt_0_compat; lra|]. split; [apply f_equal2; field|]. split; [field|]. split; field; repeat split; try lra; nra.
Qed.
End Sis.

Section Point.
Variables (x0 y0 Rein : R).
Hypothesis HR : 0 < Rein.
Let alpha := reduced_deflection_angle_point x0 y0 Rein 0.
Lemma point_ring_src x y : (x <> x0 \/ y <> y0) -> raytrace alpha x y = (x0, y0) -> magnification alpha x y = None.
Proof.
  intros H E. unfold alpha. apply (einstein_ring x0 y0 Rein HR x y H).
  assert (P := off_centre _ _ _ _ H). assert (Q := norm_pos _ _ P). unfold alpha, raytrace, reduced_deflection_angle_point in E. unfold translate_rotate in E. cbv beta iota zeta in E. rewrite Rplus_0_r in E. assert (E1 := f_equal fst E). assert (E2 := f_equal snd E). cbn [fst snd] in E1, E2.
  assert (Q2 : sqrt ((x - x0) ^ 2 + (y - y0) ^ 2) ^ 2 = (x - x0) ^ 2 + (y - y0) ^ 2) by (rewrite pow2_sqrt; [reflexivity|assert (U := pow2_ge_0 (x - x0)); assert (V := pow2_ge_0 (y - y0)); lra]).
  set (q := sqrt ((x - x0) ^ 2 + (y - y0) ^ 2)) in *. rewrite <- Q2. assert (Qp : 0 < q ^ 2) by (apply sq_pos; lra). assert (K : 1 - Rein ^ 2 / q ^ 2 = 0).
  { destruct P as [P|P].
    - apply (Rmult_eq_reg_l (x - x0)); [|exact P]. transitivity (x - (x - x0) * Rein ^ 2 / q ^ 2 - x0); [field; lra|rewrite E1; ring].
    - apply (Rmult_eq_reg_l (y - y0)); [|exact P]. transitivity (y - (y - y0) * Rein ^ 2 / q ^ 2 - y0); [field; lra|rewrite E2; ring]. }
  replace (q ^ 2) with (q ^ 2 * (1 - Rein ^ 2 / q ^ 2) + Rein ^ 2) by (field; lra). rewrite K. ring.
Qed.
Lemma sqrt_of a t u : 0 <= t -> 0 <= u -> a = t ^ 2 * u -> sqrt a = t * sqrt u.
Proof. intros Ht Hu ->. rewrite sqrt_mult_alt by apply pow2_ge_0. rewrite <- Rsqr_pow2, sqrt_Rsqr by exact Ht. reflexivity. Qed.
Lemma point_read k S P1 P2 F1 F2 : 0 < k -> seen_pair alpha x0 y0 k S P1 P2 F1 F2 -> let f1 := sqrt F1 in let f2 := sqrt F2 in
  0 < F1 /\ 0 < F2 /\ x0 = (f2 * fst P1 + f1 * fst P2) / (f1 + f2) /\ y0 = (f2 * snd P1 + f1 * snd P2) / (f1 + f2) /\ Rein = separation P1 P2 * sqrt (f1 * f2) / (f1 + f2) /\ S = (fst P1 + fst P2 - x0, snd P1 + snd P2 - y0).
Proof.
  intros Hk (D & O1 & O2 & R1 & R2 & m1 & m2 & M1 & M2 & E1 & E2) f1 f2. destruct S as [sx sy].
  assert (Hs : (sx, sy) <> (x0, y0)) by (intros F; rewrite F in R1; rewrite (point_ring_src _ _ (neq_or _ _ _ O1) R1) in M1; discriminate).
  assert (B := b_pos x0 y0 sx sy Hs). assert (N := cs x0 y0 sx sy Hs). destruct (src_is x0 y0 sx sy Hs) as [X Y]. destruct (our_images x0 y0 Rein sx sy HR Hs) as (n1 & n2 & (_ & _ & _ & I & N1 & N2) & Df & Sm).
  apply (I P1 O1) in R1. apply (I P2 O2) in R2. assert (G := r_gt x0 y0 Rein sx sy HR Hs). assert (Rs := r_sq x0 y0 Rein sx sy).
  set (b := sqrt ((sx - x0) ^ 2 + (sy - y0) ^ 2)) in *. set (c := (sx - x0) / b) in *. set (s := (sy - y0) / b) in *. set (r := sqrt (b ^ 2 + 4 * Rein ^ 2)) in *. fold alpha in N1, N2.
  assert (S' : sqrt ((b / Rein) ^ 2 + 4) = r / Rein). { apply Rsqr_inj; [apply sqrt_pos|apply Rlt_le, Rdiv_lt_0_compat; lra|]. rewrite Rsqr_sqrt by (assert (U := pow2_ge_0 (b / Rein)); lra). unfold Rsqr. transitivity ((b ^ 2 + 4 * Rein ^ 2) / Rein ^ 2); [field; lra|]. rewrite <- Rs. field. lra. }
  rewrite S' in Sm. assert (Sm' : n1 + n2 = (b ^ 2 + 2 * Rein ^ 2) / (b * r)) by (rewrite Sm; field; lra).
  assert (V1 : n1 = (b + r) ^ 2 / (4 * b * r)). { replace n1 with ((n1 + n2 + (n1 - n2)) / 2) by field. rewrite Sm', Df. transitivity ((b ^ 2 + 2 * b * r + (b ^ 2 + 4 * Rein ^ 2)) / (4 * b * r)); [field; lra|]. rewrite <- Rs. field. lra. }
  assert (V2 : n2 = (r - b) ^ 2 / (4 * b * r)). { replace n2 with ((n1 + n2 - (n1 - n2)) / 2) by field. rewrite Sm', Df. transitivity ((b ^ 2 - 2 * b * r + (b ^ 2 + 4 * Rein ^ 2)) / (4 * b * r)); [field; lra|]. rewrite <- Rs. field. lra. }
  clear S' Sm Sm' Df. set (u := k / (4 * b * r)). assert (Hu : 0 < u) by (unfold u; apply Rdiv_lt_0_compat; [exact Hk|]; apply Rmult_lt_0_compat; lra). set (w := sqrt u). assert (Hw : 0 < w) by (apply sqrt_lt_R0; exact Hu).
  assert (W1 : k * n1 = (b + r) ^ 2 * u) by (rewrite V1; unfold u; field; lra). assert (W2 : k * n2 = (r - b) ^ 2 * u) by (rewrite V2; unfold u; field; lra).
  assert (T1 := sqrt_of _ (b + r) u ltac:(lra) ltac:(lra) W1). assert (T2 := sqrt_of _ (r - b) u ltac:(lra) ltac:(lra) W2). fold w in T1, T2.
  assert (Z1 : 0 < k * n1) by (rewrite W1; apply Rmult_lt_0_compat; [apply sq_pos; lra|exact Hu]). assert (Z2 : 0 < k * n2) by (rewrite W2; apply Rmult_lt_0_compat; [apply sq_pos; lra|exact Hu]).
  assert (T3 : sqrt (((b + r) * w) * ((r - b) * w)) = 2 * Rein * w). { replace (((b + r) * w) * ((r - b) * w)) with ((r ^ 2 - b ^ 2) * w ^ 2) by ring. rewrite Rs. replace ((b ^ 2 + 4 * Rein ^ 2 - b ^ 2) * w ^ 2) with (Rsqr (2 * Rein * w)) by (unfold Rsqr; ring). apply sqrt_Rsqr. apply Rlt_le, Rmult_lt_0_compat; lra. }
  assert (Hrw : 0 < r * w) by (apply Rmult_lt_0_compat; lra). rewrite <- X, <- Y. assert (L1 := sep_line x0 y0 c s ((b + r) / 2) ((b - r) / 2) N). replace ((b + r) / 2 - (b - r) / 2) with r in L1 by field. rewrite Rabs_pos_eq in L1 by lra.
  destruct R1 as [R1|R1]; destruct R2 as [R2|R2]; try (exfalso; apply D; congruence); rewrite R1 in M1; rewrite R2 in M2; unfold f1, f2; rewrite E1, E2, R1, R2; cbn [fst snd] in *.
  - rewrite N1 in M1. rewrite N2 in M2. injection M1 as <-. injection M2 as <-. rewrite T1, T2, T3, L1. split; [exact Z1|]. split; [exact Z2|]. split; [field; repeat split; lra|]. split; [field; repeat split; lra|]. split; [field; repeat split; lra|apply f_equal2; field].
  - rewrite N2 in M1. rewrite N1 in M2. injection M1 as <-. injection M2 as <-. rewrite T1, T2, (Rmult_comm ((r - b) * w) ((b + r) * w)), T3, sep_sym, L1. split; [exact Z2|]. split; [exact Z1|]. split; [field; repeat split; lra|]. split; [field; repeat split; lra|]. split; [field; repeat split; lra|apply f_equal2; field].
Qed.
End Point.
(** ** The same images and fluxes, the same lens *)
Lemma flux_of alpha x0 y0 k k' S S' P1 P2 F1 F2 : 0 < F1 -> seen_pair alpha x0 y0 k S P1 P2 F1 F2 -> seen_pair alpha x0 y0 k' S' P1 P2 F1 F2 -> k = k' /\ S = S'.
Proof.
  intros HF (_ & _ & _ & R1 & _ & m1 & m2 & M1 & _ & E1 & _) (_ & _ & _ & R1' & _ & m1' & m2' & M1' & _ & E1' & _). split; [|congruence]. assert (m1' = m1) by congruence. subst m1'.
  assert (m1 <> 0) by (intros Z; rewrite Z in E1; lra). apply (Rmult_eq_reg_r m1); [|assumption]. lra.
Qed.
Lemma sis_unique x0 y0 Rein k S x0' y0' Rein' k' S' P1 P2 F1 F2 : 0 < Rein -> 0 < Rein' -> 0 < k -> 0 < k' -> seen_pair (reduced_deflection_angle_sis x0 y0 Rein 0) x0 y0 k S P1 P2 F1 F2 -> seen_pair (reduced_deflection_angle_sis x0' y0' Rein' 0) x0' y0' k' S' P1 P2 F1 F2 ->
  x0 = x0' /\ y0 = y0' /\ Rein = Rein' /\ k = k' /\ S = S'.
Proof.
  intros H H' K K' T T'. destruct (sis_read x0 y0 Rein H k S P1 P2 F1 F2 K T) as (G & _ & A1 & A2 & A3 & A4). destruct (sis_read x0' y0' Rein' H' k' S' P1 P2 F1 F2 K' T') as (_ & _ & B1 & B2 & B3 & B4).
  assert (Q1 : x0 = x0') by congruence. assert (Q2 : y0 = y0') by congruence. assert (Q3 : Rein = Rein') by congruence. rewrite <- Q1, <- Q2, <- Q3 in T'. destruct (flux_of _ _ _ _ _ _ _ _ _ _ _ G T T') as [Ek _]. repeat split; congruence.
Qed.
Lemma point_unique x0 y0 Rein k S x0' y0' Rein' k' S' P1 P2 F1 F2 : 0 < Rein -> 0 < Rein' -> 0 < k -> 0 < k' -> seen_pair (reduced_deflection_angle_point x0 y0 Rein 0) x0 y0 k S P1 P2 F1 F2 -> seen_pair (reduced_deflection_angle_point x0' y0' Rein' 0) x0' y0' k' S' P1 P2 F1 F2 ->
  x0 = x0' /\ y0 = y0' /\ Rein = Rein' /\ k = k' /\ S = S'.
Proof.
  intros H H' K K' T T'. destruct (point_read x0 y0 Rein H k S P1 P2 F1 F2 K T) as (G & _ & A1 & A2 & A3 & A4). destruct (point_read x0' y0' Rein' H' k' S' P1 P2 F1 F2 K' T') as (_ & _ & B1 & B2 & B3 & B4).
  assert (Q1 : x0 = x0') by congruence. assert (Q2 : y0 = y0') by congruence. assert (Q3 : Rein = Rein') by congruence. rewrite <- Q1, <- Q2, <- Q3 in T'. destruct (flux_of _ _ _ _ _ _ _ _ _ _ _ G T T') as [Ek Es]. repeat split; congruence.
Qed.
(** pairs exist *)
Lemma sis_pair_exists x0 y0 Rein b c s k : 0 < Rein -> 0 < b < Rein -> c ^ 2 + s ^ 2 = 1 -> seen_pair (reduced_deflection_angle_sis x0 y0 Rein 0) x0 y0 k (x0 + b * c, y0 + b * s) (x0 + (b + Rein) * c, y0 + (b + Rein) * s) (x0 + (b - Rein) * c, y0 + (b - Rein) * s) (k * (Rein / b + 1)) (k * (Rein / b - 1)).
Proof.
  intros HR [Hb L] N. assert (Off : forall u, u <> 0 -> x0 + u * c <> x0 \/ y0 + u * s <> y0) by (intros u Hu; apply polar_off; assumption). destruct (sis_image_mags x0 y0 Rein HR b c s Hb N L) as [M1 M2]. unfold seen_pair. cbn [fst snd].
  split. { intros E. assert (E1 := f_equal fst E). assert (E2 := f_equal snd E). cbn in E1, E2. assert (c = 0) by (apply (Rmult_eq_reg_l (2 * Rein)); lra). assert (s = 0) by (apply (Rmult_eq_reg_l (2 * Rein)); lra). nra. }
  split; [intros E; assert (E1 := f_equal fst E); assert (E2 := f_equal snd E); cbn in E1, E2; destruct (Off (b + Rein) ltac:(lra)); contradiction|]. split; [intros E; assert (E1 := f_equal fst E); assert (E2 := f_equal snd E); cbn in E1, E2; destruct (Off (b - Rein) ltac:(lra)); contradiction|].
  split; [apply (sis_images x0 y0 Rein HR b c s Hb N _ _ (Off (b + Rein) ltac:(lra))); left; split; reflexivity|]. split; [apply (sis_images x0 y0 Rein HR b c s Hb N _ _ (Off (b - Rein) ltac:(lra))); right; repeat split; exact L|].
  exists (Rein / b + 1), (Rein / b - 1). repeat split; assumption.
Qed.
Lemma point_pair_exists x0 y0 Rein sx sy k : 0 < Rein -> (sx, sy) <> (x0, y0) -> exists P1 P2 F1 F2, seen_pair (reduced_deflection_angle_point x0 y0 Rein 0) x0 y0 k (sx, sy) P1 P2 F1 F2.
Proof.
  intros HR H. destruct (images_exist x0 y0 Rein sx sy HR H) as (P1 & P2 & m1 & m2 & D & O1 & O2 & I & M1 & M2). exists P1, P2, (k * m1), (k * m2). split; [exact D|]. split; [exact O1|]. split; [exact O2|].
  split; [apply (I P1 O1); left; reflexivity|]. split; [apply (I P2 O2); right; reflexivity|]. exists m1, m2. repeat split; assumption.
Qed.
