(** * Limb-darkened stars (C140) *)
From Coq Require Import Reals Lra Lia Psatz.
From Coquelicot Require Import Coquelicot.
From Verif Require Import Py Light_Model PixMean_Spec MicroStat_Spec Star_Spec Star_Proofs Star2_Proofs.
Local Open Scope R_scope.

Lemma light_of (F : R -> R -> R) a b c d (G : R -> R) T : (forall x, is_RInt (F x) c d (G x)) -> is_RInt G a b T -> light_is F a b c d T.
Proof.
  intros I1 I2.
  assert (O : is_RInt (fun x => RInt (F x) c d) a b T).
  { apply (is_RInt_ext G); [|exact I2]. intros x _. symmetry. apply is_RInt_unique. apply I1. }
  split; [|exact (is_RInt_unique _ _ _ _ O)]. split; [|eexists; exact O]. intros u _. eexists. apply I1.
Qed.
Lemma light_lin F G H a b c d T U s t : a <= b -> light_is F a b c d T -> light_is G a b c d U -> (forall x y, H x y = s * F x y + t * G x y) -> light_is H a b c d (s * T + t * U).
Proof.
  intros ab [[F1 F2] F3] [[G1 G2] G3] E.
  assert (I1 : forall x, a <= x <= b -> is_RInt (H x) c d (s * RInt (F x) c d + t * RInt (G x) c d)).
  { intros x X. apply (is_RInt_ext (fun y => plus (scal s (F x y)) (scal t (G x y)))).
    - intros y _. symmetry. exact (E x y).
    - apply (is_RInt_plus (V := R_NormedModule)); apply (is_RInt_scal (V := R_NormedModule)); apply (RInt_correct (V := R_CompleteNormedModule)); [apply F1|apply G1]; exact X. }
  assert (O : is_RInt (fun x => RInt (H x) c d) a b (s * T + t * U)).
  { apply (is_RInt_ext (fun x => plus (scal s (RInt (F x) c d)) (scal t (RInt (G x) c d)))).
    - intros x. rewrite Rmin_left, Rmax_right by exact ab. intros X. symmetry. apply is_RInt_unique. apply I1. lra.
    - rewrite <- F3, <- G3. apply (is_RInt_plus (V := R_NormedModule)); apply (is_RInt_scal (V := R_NormedModule)); apply (RInt_correct (V := R_CompleteNormedModule)); assumption. }
  split; [|exact (is_RInt_unique _ _ _ _ O)]. split; [|eexists; exact O]. intros u X. eexists. apply I1. exact X.
Qed.
Lemma light_le F G a b c d T U : a <= b -> c <= d -> light_is F a b c d T -> light_is G a b c d U -> (forall x y, F x y <= G x y) -> T <= U.
Proof.
  intros ab cd [[F1 F2] <-] [[G1 G2] <-] E. unfold box. apply RInt_le; try assumption.
  intros x X. apply RInt_le; [exact cd|apply F1; lra|apply G1; lra|]. intros y _. apply E.
Qed.

(** ** A hemisphere *)
Section Cap.
Variables (cx cy th : R).
Hypothesis T : 0 < th.
Definition cap x y := sqrt (th ^ 2 - ((x - cx) ^ 2 + (y - cy) ^ 2)).
Definition cap_in x := PI / 2 * Rmax 0 (th ^ 2 - (x - cx) ^ 2).
Lemma cap_inner c d x : c <= cy - th -> cy + th <= d -> is_RInt (cap x) c d (cap_in x).
Proof.
  intros C D. unfold cap_in. destruct (Rle_dec (th ^ 2 - (x - cx) ^ 2) 0) as [L | L].
  - rewrite Rmax_left by exact L. rewrite Rmult_0_r. apply is_RInt_zero_ext; [lra|]. intros t _. apply sqrt_neg0. assert (Q := pow2_ge_0 (t - cy)). lra.
  - rewrite Rmax_right by lra. set (s := sqrt (th ^ 2 - (x - cx) ^ 2)). assert (S : s ^ 2 = th ^ 2 - (x - cx) ^ 2) by (apply sq_sqrt; lra).
    assert (S0 : 0 <= s) by apply sqrt_pos. assert (S1 : s <= th) by (apply chord_r; lra).
    apply (is_RInt_ext (fun y => sqrt (s ^ 2 - (y - cy) ^ 2))).
    + intros y _. unfold cap. f_equal. rewrite S. ring.
    + eapply is_RInt_eq; [apply disc_int; lra|]. rewrite S. field.
Qed.
Lemma cap_outer a b : a <= cx - th -> cx + th <= b -> is_RInt cap_in a b (2 * PI * th ^ 3 / 3).
Proof.
  intros A B. replace (2 * PI * th ^ 3 / 3) with (0 + 2 * PI * th ^ 3 / 3 + 0) by ring.
  apply (join _ a (cx + th) b); [apply (join _ a (cx - th) (cx + th))|].
  - apply is_RInt_zero_ext; [exact A|]. intros t X. unfold cap_in. rewrite Rmax_left by nra. ring.
  - apply (is_RInt_ext (fun x => PI / 2 * (th ^ 2 - (x - cx) ^ 2))).
    + intros x. rewrite Rmin_left, Rmax_right by lra. intros X. unfold cap_in. rewrite Rmax_right by nra. reflexivity.
    + eapply is_RInt_eq.
      * apply (is_RInt_derive (V := R_CompleteNormedModule) (fun x => PI / 2 * (th ^ 2 * x - (x - cx) ^ 3 / 3))).
        -- intros t _. auto_derive; [trivial|]. field.
        -- intros t _. apply (ex_derive_continuous (fun x => PI / 2 * (th ^ 2 - (x - cx) ^ 2))). auto_derive. trivial.
      * cbv beta. unfold minus, plus, opp; cbn -[PI pow]. field.
  - apply is_RInt_zero_ext; [exact B|]. intros t X. unfold cap_in. rewrite Rmax_left by nra. ring.
Qed.
Lemma cap_light a b c d : holds_disc a b c d cx cy th -> light_is cap a b c d (2 * PI * th ^ 3 / 3).
Proof. intros (A & B & C & D). apply (light_of cap a b c d cap_in); [intros x; apply cap_inner; assumption|apply cap_outer; assumption]. Qed.

(** ** A disc of the unit hemisphere *)
Hypothesis T1 : th < 1.
Definition dome x y := if Rle_dec ((x - cx) ^ 2 + (y - cy) ^ 2) (th ^ 2) then sqrt (1 - ((x - cx) ^ 2 + (y - cy) ^ 2)) else 0.
Definition disc x y := if Rle_dec ((x - cx) ^ 2 + (y - cy) ^ 2) (th ^ 2) then 1 else 0.
Let s x := sqrt (th ^ 2 - (x - cx) ^ 2).
Let e := sqrt (1 - th ^ 2).
Definition dome_in x := s x * e + (1 - (x - cx) ^ 2) * atan (s x / e).
Lemma e_pos : 0 < e.
Proof. apply sqrt_lt_R0. nra. Qed.
Lemma dome_middle B y1 w : 0 <= w -> w ^ 2 < B ->
  is_RInt (fun y => sqrt (B - (y - y1) ^ 2)) (y1 - w) (y1 + w) (w * sqrt (B - w ^ 2) + B * atan (w / sqrt (B - w ^ 2))).
Proof.
  intros W L. eapply is_RInt_eq.
  - apply (is_RInt_derive (V := R_CompleteNormedModule) (fun y => ((y - y1) * sqrt (B - (y - y1) ^ 2) + B * atan ((y - y1) / sqrt (B - (y - y1) ^ 2))) / 2)).
    + intros y. rewrite Rmin_left, Rmax_right by lra. intros Y. assert (P : 0 < B - (y - y1) ^ 2) by nra.
      assert (S0 : 0 < sqrt (B - (y - y1) ^ 2)) by (apply sqrt_lt_R0; exact P).
      assert (SS : sqrt (B - (y - y1) ^ 2) ^ 2 = B - (y - y1) ^ 2) by (apply sq_sqrt; lra).
      auto_derive.
      * change ((y + - y1) * ((y + - y1) * 1)) with ((y - y1) ^ 2). change (B + - (y - y1) ^ 2) with (B - (y - y1) ^ 2). repeat split; lra.
      * change ((y + - y1) * ((y + - y1) * 1)) with ((y - y1) ^ 2). change (B + - (y - y1) ^ 2) with (B - (y - y1) ^ 2). unfold Rsqr. change (y + - y1) with (y - y1).
        set (S := sqrt (B - (y - y1) ^ 2)) in *. set (v := y - y1) in *. replace B with (S ^ 2 + v ^ 2) by lra. field. nra.
    + intros y _. apply chord_continuous.
  - cbv beta. unfold minus, plus, opp; cbn -[PI pow].
    replace (y1 + w - y1) with w by ring. replace (y1 - w - y1) with (- w) by ring. replace ((- w) ^ 2) with (w ^ 2) by ring.
    replace (- w / sqrt (B - w ^ 2)) with (- (w / sqrt (B - w ^ 2))) by (unfold Rdiv; ring). rewrite atan_opp. field.
Qed.
Lemma dome_inner c d x : c <= cy - th -> cy + th <= d -> (x - cx) ^ 2 <= th ^ 2 -> is_RInt (dome x) c d (dome_in x).
Proof.
  intros C D X. assert (S : s x ^ 2 = th ^ 2 - (x - cx) ^ 2) by (apply sq_sqrt; lra).
  assert (S0 : 0 <= s x) by apply sqrt_pos. assert (S1 : s x <= th) by (apply chord_r; lra).
  replace (dome_in x) with (0 + dome_in x + 0) by ring.
  apply (join _ c (cy + s x) d); [apply (join _ c (cy - s x) (cy + s x))|].
  - apply is_RInt_zero_ext; [lra|]. intros t Q. unfold dome. destruct (Rle_dec _ _) as [N | _]; [nra|reflexivity].
  - apply (is_RInt_ext (fun y => sqrt (1 - (x - cx) ^ 2 - (y - cy) ^ 2))).
    + intros y. rewrite Rmin_left, Rmax_right by lra. intros Y. unfold dome. destruct (Rle_dec _ _) as [_ | N]; [f_equal; ring|nra].
    + eapply is_RInt_eq; [apply dome_middle; [exact S0|nra]|]. unfold dome_in, e. rewrite S. replace (1 - (x - cx) ^ 2 - (th ^ 2 - (x - cx) ^ 2)) with (1 - th ^ 2) by ring. reflexivity.
  - apply is_RInt_zero_ext; [lra|]. intros t Q. unfold dome. destruct (Rle_dec _ _) as [N | _]; [nra|reflexivity].
Qed.
Lemma dome_inner0 c d x : c <= d -> th ^ 2 < (x - cx) ^ 2 -> is_RInt (dome x) c d 0.
Proof. intros C X. apply is_RInt_zero_ext; [exact C|]. intros t _. unfold dome. assert (Q := pow2_ge_0 (t - cy)). destruct (Rle_dec _ _); [lra|reflexivity]. Qed.
Lemma dome_in_continuous x : continuous dome_in x.
Proof.
  unfold dome_in. assert (Cs : continuous s x) by apply chord_continuous.
  apply (continuous_plus (fun x => s x * e) (fun x => (1 - (x - cx) ^ 2) * atan (s x / e))).
  - apply (continuous_mult s (fun _ => e)); [exact Cs|apply continuous_const].
  - apply (continuous_mult (fun x => 1 - (x - cx) ^ 2) (fun x => atan (s x / e))).
    + apply (ex_derive_continuous (fun x => 1 - (x - cx) ^ 2)). auto_derive. trivial.
    + apply (continuous_comp (fun x => s x / e) atan).
      * apply (continuous_mult s (fun _ => / e)); [exact Cs|apply continuous_const].
      * apply (ex_derive_continuous atan). auto_derive. trivial.
Qed.
Lemma dome_light a b c d : holds_disc a b c d cx cy th -> exists U, light_is dome a b c d U.
Proof.
  intros (A & B & C & D).
  set (G x := if Rle_dec ((x - cx) ^ 2) (th ^ 2) then dome_in x else 0).
  assert (I1 : forall x, is_RInt (dome x) c d (G x)).
  { intros x. unfold G. destruct (Rle_dec _ _) as [Q | Q]; [apply dome_inner; assumption|apply dome_inner0; lra]. }
  exists (0 + RInt dome_in (cx - th) (cx + th) + 0). apply (light_of dome a b c d G _ I1).
  apply (join _ a (cx + th) b); [apply (join _ a (cx - th) (cx + th))|].
  - apply is_RInt_zero_ext; [exact A|]. intros t X. unfold G. destruct (Rle_dec _ _) as [Q | Q]; [nra|reflexivity].
  - apply (is_RInt_ext dome_in).
    + intros x. rewrite Rmin_left, Rmax_right by lra. intros X. unfold G. destruct (Rle_dec _ _) as [Q | Q]; [reflexivity|nra].
    + apply (RInt_correct (V := R_CompleteNormedModule)). apply (ex_RInt_continuous (V := R_CompleteNormedModule)). intros x _. apply dome_in_continuous.
  - apply is_RInt_zero_ext; [exact B|]. intros t X. unfold G. destruct (Rle_dec _ _) as [Q | Q]; [nra|reflexivity].
Qed.
End Cap.

Lemma disc_light cx cy th a b c d : 0 <= th -> holds_disc a b c d cx cy th -> light_is (disc cx cy th) a b c d (PI * th ^ 2).
Proof.
  intros T H. assert (Q := ring_light (disc cx cy th) cx cy 0 th 1 (Rle_refl 0) T). replace (PI * th ^ 2) with (1 * (PI * th ^ 2 - PI * 0 ^ 2)) by ring.
  apply Q; [| |exact H]; intros x y P _; unfold disc; destruct (Rle_dec _ _) as [N | N]; try reflexivity.
  - lra.
  - assert (Z := pow2_ge_0 (x - cx)). assert (Z' := pow2_ge_0 (y - cy)). destruct P; lra.
Qed.
(** the light between the unit hemisphere and the one that ends at the limb *)
Lemma dome_bounds cx cy th x y : 0 < th -> th < 1 -> (1 - th ^ 2) * disc cx cy th x y + th * cap cx cy th x y <= dome cx cy th x y <= disc cx cy th x y.
Proof.
  intros T0 T1. unfold disc, dome, cap. set (r := (x - cx) ^ 2 + (y - cy) ^ 2). assert (R0 : 0 <= r) by (apply Rplus_le_le_0_compat; apply pow2_ge_0).
  destruct (Rle_dec r (th ^ 2)) as [L | L].
  - assert (S1 := sq_sqrt (1 - r) ltac:(nra)). assert (S2 := sq_sqrt (th ^ 2 - r) ltac:(lra)).
    assert (P1 := sqrt_pos (1 - r)). assert (P2 := sqrt_pos (th ^ 2 - r)). set (m := sqrt (1 - r)) in *. set (n := sqrt (th ^ 2 - r)) in *.
    assert (n <= th) by nra. split; [|nra].
    (* m^2 = 1 - th^2 + n^2 *)
    assert (M : m ^ 2 = 1 - th ^ 2 + n ^ 2) by lra.
    apply Rsqr_incr_0_var; [|exact P1]. unfold Rsqr. replace (m * m) with (m ^ 2) by ring. rewrite M.
    assert (0 <= (1 - th ^ 2) * (th - n) ^ 2) by (apply Rmult_le_pos; [nra|apply pow2_ge_0]). nra.
  - rewrite (sqrt_neg0 (th ^ 2 - r)) by lra. split; lra.
Qed.
Lemma star_parts x0 y0 th Ie gamma x y : 0 <= th <= 1 ->
  shown (fun x y => brightness_star x0 y0 th Ie x y gamma) x y = Ie * (1 - gamma) * disc x0 y0 th x y + Ie * gamma * dome x0 y0 th x y.
Proof. intros T. unfold shown. rewrite (star_value _ _ _ _ _ _ _ T). unfold disc, dome. destruct (Rle_dec _ _); ring. Qed.
Lemma limb_wrong x0 y0 th Ie gamma f0 f1 f2 f3 : 0 < th < 1 -> 0 < Ie -> 0 < gamma -> holds_disc f0 f1 f2 f3 x0 y0 th ->
  exists U, light_is (shown (fun x y => brightness_star x0 y0 th Ie x y gamma)) f0 f1 f2 f3 U /\ PI * th ^ 2 * Ie * (1 - gamma / 3) < U.
Proof.
  intros T I0 G H. assert (ab : f0 <= f1) by (destruct H as (A & B & _); lra). assert (cd : f2 <= f3) by (destruct H as (_ & _ & A & B); lra).
  destruct (dome_light x0 y0 th (proj1 T) (proj2 T) f0 f1 f2 f3 H) as [U HU].
  assert (HD := disc_light x0 y0 th f0 f1 f2 f3 ltac:(lra) H). assert (HC := cap_light x0 y0 th (proj1 T) f0 f1 f2 f3 H).
  assert (LOW := light_lin _ _ (fun x y => (1 - th ^ 2) * disc x0 y0 th x y + th * cap x0 y0 th x y) f0 f1 f2 f3 _ _ (1 - th ^ 2) th ab HD HC (fun x y => eq_refl)).
  assert (LE := light_le _ _ _ _ _ _ _ _ ab cd LOW HU (fun x y => proj1 (dome_bounds x0 y0 th x y (proj1 T) (proj2 T)))).
  exists (Ie * (1 - gamma) * (PI * th ^ 2) + Ie * gamma * U). split.
  - apply (light_lin _ _ _ f0 f1 f2 f3 _ _ _ _ ab HD HU). intros x y. apply star_parts. lra.
  - assert (P := PI_RGT_0). assert (K : 2 / 3 * (PI * th ^ 2) < U).
    { eapply Rlt_le_trans; [|exact LE]. assert (0 < PI * th ^ 2 * (1 - th ^ 2)) by (apply Rmult_lt_0_compat; [apply Rmult_lt_0_compat; [exact P|nra]|nra]). nra. }
    assert (0 < Ie * gamma * (U - 2 / 3 * (PI * th ^ 2))) by (apply Rmult_lt_0_compat; [nra|lra]). nra.
Qed.
Lemma limb_unit x0 y0 Ie gamma f0 f1 f2 f3 : holds_disc f0 f1 f2 f3 x0 y0 1 ->
  light_is (shown (fun x y => brightness_star x0 y0 1 Ie x y gamma)) f0 f1 f2 f3 (PI * 1 ^ 2 * Ie * (1 - gamma / 3)).
Proof.
  intros H. assert (ab : f0 <= f1) by (destruct H as (A & B & _); lra).
  assert (HD := disc_light x0 y0 1 f0 f1 f2 f3 ltac:(lra) H). assert (HC := cap_light x0 y0 1 ltac:(lra) f0 f1 f2 f3 H).
  replace (PI * 1 ^ 2 * Ie * (1 - gamma / 3)) with (Ie * (1 - gamma) * (PI * 1 ^ 2) + Ie * gamma * (2 * PI * 1 ^ 3 / 3)) by field.
  apply (light_lin _ _ _ f0 f1 f2 f3 _ _ _ _ ab HD HC). intros x y. rewrite star_parts by lra. f_equal. f_equal. unfold dome, cap.
  destruct (Rle_dec _ _) as [L | L]; [f_equal; ring|]. symmetry. apply sqrt_neg0. lra.
Qed.
Lemma limb_none x0 y0 th Ie f0 f1 f2 f3 : 0 <= th <= 1 -> holds_disc f0 f1 f2 f3 x0 y0 th ->
  light_is (shown (fun x y => brightness_star x0 y0 th Ie x y 0)) f0 f1 f2 f3 (PI * th ^ 2 * Ie).
Proof.
  intros T H. assert (ab : f0 <= f1) by (destruct H as (A & B & _); lra). assert (HD := disc_light x0 y0 th f0 f1 f2 f3 (proj1 T) H).
  replace (PI * th ^ 2 * Ie) with (Ie * (PI * th ^ 2) + 0 * (PI * th ^ 2)) by ring.
  apply (light_lin _ _ _ f0 f1 f2 f3 _ _ _ _ ab HD HD). intros x y. rewrite star_parts by lra. ring.
Qed.
