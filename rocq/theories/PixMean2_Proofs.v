(** * The pixels of a simulated image against the mean brightness over the pixel *)
From Coq Require Import Reals Arith Lia Lra String FunctionalExtensionality.
From Coquelicot Require Import Coquelicot.
From Verif Require Import Py Fsum Quad_Model Quad_Spec Quad_Proofs PixConv_Model PixConv_Spec Sim_Model Sim_Spec Sim_Proofs Sim2_Proofs PixMean_Spec PixMean_Proofs.
Local Open Scope R_scope.

(** ** sub-pixels *)
Lemma sub_pixel x0 ps n up j b : (1 <= up)%nat ->
  sub_centre x0 (ps / INR up) (n * up) (j * up + b) = pixel_centre x0 ps n j - ps / 2 + INR b * (ps / INR up) + ps / INR up / 2.
Proof. intros U. unfold sub_centre, pixel_centre. rewrite plus_INR, !mult_INR. field. apply not_0_INR. lia. Qed.
Lemma sub_mean_points leg lv f d x y : rules_ok leg lv -> exists a w, gauss_rule (points lv) a w /\ sub_mean leg lv f d x y = quad (points lv) a w f d x y.
Proof.
  intros RU. assert (ONE : exists a w, gauss_rule 1 a w /\ f x y = quad 1 a w f d x y).
  { exists (fun _ => 0), (fun _ => 2). split; [exact rule1|]. rewrite quad_rows by lia. cbn [fsum]. replace (x + d * 0 / 2) with x by field. replace (y + d * 0 / 2) with y by field. field. }
  unfold sub_mean, points. destruct lv as [l|]; [|exact ONE]. destruct (Nat.ltb_spec 1 l) as [L|L].
  - replace (Nat.max 1 l) with l by lia. exists (fst (leg l)), (snd (leg l)). split; [apply RU, L|reflexivity].
  - replace (Nat.max 1 l) with 1%nat by lia. exact ONE.
Qed.
Lemma points_pos lv : (1 <= points lv)%nat. Proof. unfold points. destruct lv; lia. Qed.
Lemma sub_mean_poly leg lv c d x y : rules_ok leg lv -> d <> 0 -> sub_mean leg lv (poly2 (2 * points lv) c) d x y = pixel_mean (poly2 (2 * points lv) c) d x y.
Proof. intros RU D. destruct (sub_mean_points leg lv (poly2 (2 * points lv) c) d x y RU) as (a & w & G & E). rewrite E. apply quad_poly; [exact G|apply points_pos|exact D]. Qed.
Lemma sub_mean_near leg lv F d x y v e : rule_inside leg lv -> 0 <= d ->
  (forall u w, x - d / 2 <= u <= x + d / 2 -> y - d / 2 <= w <= y + d / 2 -> Rabs (F u w - v) <= e) -> Rabs (sub_mean leg lv F d x y - v) <= e.
Proof.
  intros RU D B. unfold sub_mean. assert (C : Rabs (F x y - v) <= e) by (apply B; lra). destruct lv as [l|]; [|exact C]. destruct (Nat.ltb_spec 1 l) as [L|L]; [|exact C].
  destruct (RU L) as [IN SU]. set (a := fst (leg l)) in *. set (w := snd (leg l)) in *. rewrite quad_rows by lia.
  assert (S2 : fsum l (fun i => fsum l (fun j => w i / 2 * (w j / 2 * 1))) = 1).
  { rewrite (fsum_ext l _ (fun i => w i / 2 * (fsum l w / 2))).
    - rewrite SU, (fsum_ext l _ (fun i => w i * (2 / 2 / 2))) by (intros; field). rewrite fsum_scal_r, SU. field.
    - intros i _. rewrite fsum_scal_l. f_equal. rewrite <- fsum_div. apply fsum_ext. intros; field. }
  replace v with (v * 1) by ring. rewrite <- S2 at 1. rewrite <- fsum_scal_l.
  rewrite (fsum_ext l (fun i => v * _) (fun i => fsum l (fun j => v * (w i / 2 * (w j / 2 * 1))))) by (intros; rewrite <- fsum_scal_l; reflexivity).
  rewrite <- fsum_minus. eapply Rle_trans; [apply fsum_Rabs|]. replace e with (e * 1) by ring. rewrite <- S2 at 1. rewrite <- fsum_scal_l.
  apply fsum_le. intros i Hi. rewrite <- fsum_minus. eapply Rle_trans; [apply fsum_Rabs|]. rewrite <- fsum_scal_l. apply fsum_le. intros j Hj.
  destruct (IN i Hi) as [Ai Wi]. destruct (IN j Hj) as [Aj Wj].
  replace (w i / 2 * (w j / 2 * F (x + d * a j / 2) (y + d * a i / 2)) - v * (w i / 2 * (w j / 2 * 1))) with (w i / 2 * (w j / 2) * (F (x + d * a j / 2) (y + d * a i / 2) - v)) by ring.
  assert (WW : 0 <= w i / 2 * (w j / 2)) by (apply Rmult_le_pos; lra).
  rewrite Rabs_mult, (Rabs_pos_eq _ WW). replace (e * (w i / 2 * (w j / 2 * 1))) with (w i / 2 * (w j / 2) * e) by ring. apply Rmult_le_compat_l; [exact WW|].
  assert (RG : forall t, -1 <= t <= 1 -> - (d / 2) <= d * t / 2 <= d / 2).
  { intros t Ht. assert (P1 : 0 <= d * (1 - t)) by (apply Rmult_le_pos; lra). assert (P2 : 0 <= d * (1 + t)) by (apply Rmult_le_pos; lra). lra. }
  assert (R1 := RG _ Aj). assert (R2 := RG _ Ai). apply B; lra.
Qed.

(** ** continuity of polynomials *)
Lemma poly2_continuous d c x y : continuity_2d_pt (poly2 d c) x y.
Proof.
  assert (S : forall n (f : nat -> R -> R -> R), (forall k, continuity_2d_pt (f k) x y) -> continuity_2d_pt (fun u v => fsum n (fun k => f k u v)) x y).
  { intros n f H. induction n as [|n IH]; [exact (continuity_2d_pt_const x y 0)|]. exact (continuity_2d_pt_plus _ (f n) x y IH (H n)). }
  unfold poly2. apply S. intros k. apply S. intros l.
  assert (P : forall n, continuity_2d_pt (fun u _ => u ^ n) x y /\ continuity_2d_pt (fun _ v => v ^ n) x y).
  { induction n as [|n [IH1 IH2]]; [split; exact (continuity_2d_pt_const x y 1)|]. split.
    - apply (continuity_2d_pt_mult (fun u _ => u) (fun u _ => u ^ n)); [apply continuity_2d_pt_id1|exact IH1].
    - apply (continuity_2d_pt_mult (fun _ v => v) (fun _ v => v ^ n)); [apply continuity_2d_pt_id2|exact IH2]. }
  apply (continuity_2d_pt_mult (fun u v => c k l * u ^ k)); [|apply P]. apply (continuity_2d_pt_mult (fun _ _ => c k l)); [apply continuity_2d_pt_const|apply P].
Qed.

(** ** the total over the field *)
Lemma field_total F ps px py x0 y0 : 0 < ps -> (forall x y, continuity_2d_pt F x y) ->
  fsum py (fun i => fsum px (fun j => pixel_mean F ps (pixel_centre x0 ps px j) (pixel_centre y0 ps py i))) * ps ^ 2 =
  box F (x0 - INR px * ps / 2) (x0 + INR px * ps / 2) (y0 - INR py * ps / 2) (y0 + INR py * ps / 2).
Proof.
  intros P FC. replace (y0 + INR py * ps / 2) with (y0 - INR py * ps / 2 + INR py * ps) by field. rewrite (box_cut_y F FC) by lra.
  rewrite <- fsum_scal_r. apply fsum_ext. intros i _. replace (x0 + INR px * ps / 2) with (x0 - INR px * ps / 2 + INR px * ps) by field. rewrite (box_cut_x F FC) by lra.
  rewrite <- fsum_scal_r. apply fsum_ext. intros j _. unfold pixel_mean. change (RInt _ (pixel_centre x0 ps px j - ps / 2) (pixel_centre x0 ps px j + ps / 2)) with
    (box F (pixel_centre x0 ps px j - ps / 2) (pixel_centre x0 ps px j + ps / 2) (pixel_centre y0 ps py i - ps / 2) (pixel_centre y0 ps py i + ps / 2)).
  replace (pixel_centre x0 ps px j - ps / 2) with (x0 - INR px * ps / 2 + INR j * ps) by (unfold pixel_centre; field).
  replace (pixel_centre x0 ps px j + ps / 2) with (x0 - INR px * ps / 2 + INR j * ps + ps) by (unfold pixel_centre; field).
  replace (pixel_centre y0 ps py i - ps / 2) with (y0 - INR py * ps / 2 + INR i * ps) by (unfold pixel_centre; field).
  replace (pixel_centre y0 ps py i + ps / 2) with (y0 - INR py * ps / 2 + INR i * ps + ps) by (unfold pixel_centre; field).
  field. lra.
Qed.

(** ** images *)
Section Image.
Variables (leg : nat -> (nat -> R) * (nat -> R)) (ps : R) (px py kr kc : nat) (psf : nat -> nat -> R).
Variables (ray : R -> R -> R * R) (src ll : option light) (x0 y0 : R) (so lo le : bool).
Hypothesis PX : (1 <= px)%nat. Hypothesis PY : (1 <= py)%nat. Hypothesis KR : (1 <= kr)%nat. Hypothesis KC : (1 <= kc)%nat. Hypothesis PS : 0 < ps.
Notation scene := (scene_brightness ray src ll so lo le).
Notation run up lv mode chunk := (call ray (new_sim leg ps px (Some py) up lv mode (kr, kc)) src ll kr kc psf x0 y0 so lo le false chunk).
Notation mean i j := (pixel_mean scene ps (pixel_centre x0 ps px j) (pixel_centre y0 ps py i)).

(** the value of a pixel is near its mean when the sub-pixels are *)
Lemma value_near up lv i j e : (1 <= up)%nat -> continuous_on_square scene ps (pixel_centre x0 ps px j) (pixel_centre y0 ps py i) ->
  (forall x y, pixel_centre x0 ps px j - ps / 2 + ps / INR up / 2 <= x <= pixel_centre x0 ps px j + ps / 2 - ps / INR up / 2 ->
    pixel_centre y0 ps py i - ps / 2 + ps / INR up / 2 <= y <= pixel_centre y0 ps py i + ps / 2 - ps / INR up / 2 ->
    Rabs (sub_mean leg lv scene (ps / INR up) x y - pixel_mean scene (ps / INR up) x y) <= e) ->
  Rabs (pixel_value up px py x0 y0 (ps / INR up) (sub_mean leg lv scene (ps / INR up)) i j - mean i j) <= e.
Proof.
  intros U FC H. unfold pixel_value.
  rewrite (fsum_ext up _ (fun a => fsum up (fun b => sub_mean leg lv scene (ps / INR up) (pixel_centre x0 ps px j - ps / 2 + INR b * (ps / INR up) + ps / INR up / 2)
    (pixel_centre y0 ps py i - ps / 2 + INR a * (ps / INR up) + ps / INR up / 2)))).
  2: { intros a _. apply fsum_ext. intros b _. rewrite !sub_pixel by exact U. reflexivity. }
  apply (mean_near scene ps (pixel_centre x0 ps px j) (pixel_centre y0 ps py i) up PS U FC). intros a b Ha Hb.
  destruct (part_range ps up PS U a Ha), (part_range ps up PS U b Hb). apply H; lra.
Qed.
Lemma image_exact up lv mode chunk c : (1 <= up)%nat -> chunk <> Some 0%nat -> rules_ok leg lv -> (forall x y, scene x y = poly2 (2 * points lv) c x y) ->
  exists im, run up lv mode chunk = Ok im /\ rows im = py /\ cols im = px /\
  (forall i j, (i < py)%nat -> (j < px)%nat -> at_ im i j = mean i j) /\
  fsum py (fun i => fsum px (fun j => at_ im i j)) * ps ^ 2 = box scene (x0 - INR px * ps / 2) (x0 + INR px * ps / 2) (y0 - INR py * ps / 2) (y0 + INR py * ps / 2).
Proof.
  intros U CH RU SC. destruct (new_plain leg ps px py up lv kr kc psf ray src ll x0 y0 so lo le chunk PX PY U KR KC CH mode) as (im & E1 & E2 & E3 & E4).
  assert (ES : scene = poly2 (2 * points lv) c) by (extensionality x; extensionality y; apply SC).
  assert (FC : forall x y, continuity_2d_pt scene x y) by (intros x y; rewrite ES; apply poly2_continuous).
  assert (D : 0 < ps / INR up) by (apply Rdiv_lt_0_compat; [exact PS|apply lt_0_INR; lia]).
  assert (V : forall i j, (i < py)%nat -> (j < px)%nat -> at_ im i j = mean i j).
  { intros i j Hi Hj. rewrite (E4 i j Hi Hj). apply Rminus_diag_uniq. apply Rabs_eq_0. apply Rle_antisym; [|apply Rabs_pos].
    apply value_near; [exact U|intros u v _ _; apply FC|]. intros x y _ _. rewrite ES, sub_mean_poly by first [exact RU | lra]. rewrite Rminus_eq_0, Rabs_R0. lra. }
  exists im. split; [exact E1|]. split; [exact E2|]. split; [exact E3|]. split; [exact V|].
  rewrite <- (field_total scene ps px py x0 y0 PS FC). f_equal. apply fsum_ext. intros i Hi. apply fsum_ext. intros j Hj. apply V; assumption.
Qed.
Lemma image_near up lv mode chunk i j e : (1 <= up)%nat -> chunk <> Some 0%nat -> rule_inside leg lv -> (i < py)%nat -> (j < px)%nat ->
  continuous_on_square scene ps (pixel_centre x0 ps px j) (pixel_centre y0 ps py i) ->
  (forall x y u v, pixel_centre x0 ps px j - ps / 2 <= x <= pixel_centre x0 ps px j + ps / 2 -> pixel_centre y0 ps py i - ps / 2 <= y <= pixel_centre y0 ps py i + ps / 2 ->
    pixel_centre x0 ps px j - ps / 2 <= u <= pixel_centre x0 ps px j + ps / 2 -> pixel_centre y0 ps py i - ps / 2 <= v <= pixel_centre y0 ps py i + ps / 2 ->
    Rabs (u - x) <= ps / INR up / 2 -> Rabs (v - y) <= ps / INR up / 2 -> Rabs (scene u v - scene x y) <= e) ->
  exists im, run up lv mode chunk = Ok im /\ rows im = py /\ cols im = px /\ Rabs (at_ im i j - mean i j) <= 2 * e.
Proof.
  intros U CH RU Hi Hj FC B. destruct (new_plain leg ps px py up lv kr kc psf ray src ll x0 y0 so lo le chunk PX PY U KR KC CH mode) as (im & E1 & E2 & E3 & E4).
  exists im. split; [exact E1|]. split; [exact E2|]. split; [exact E3|]. rewrite (E4 i j Hi Hj).
  assert (D : 0 < ps / INR up) by (apply Rdiv_lt_0_compat; [exact PS|apply lt_0_INR; lia]).
  assert (D1 : ps / INR up <= ps). { apply Rmult_le_reg_r with (INR up); [apply lt_0_INR; lia|]. unfold Rdiv. rewrite Rmult_assoc, Rinv_l, Rmult_1_r by (apply not_0_INR; lia).
    rewrite <- (Rmult_1_r ps) at 1. apply Rmult_le_compat_l; [lra|]. change 1 with (INR 1). apply le_INR. exact U. }
  set (d := ps / INR up) in *.
  apply value_near; [exact U|exact FC|]. intros x y Hx Hy.
  assert (N : forall u v, x - d / 2 <= u <= x + d / 2 -> y - d / 2 <= v <= y + d / 2 -> Rabs (scene u v - scene x y) <= e).
  { intros u v Hu Hv. fold d in Hx, Hy. apply B; try lra; fold d; apply Rabs_le; lra. }
  assert (N1 := sub_mean_near leg lv scene d x y (scene x y) e RU ltac:(lra) N).
  assert (N2 : Rabs (pixel_mean scene d x y - scene x y) <= e). { apply pixel_mean_near; [exact D| |exact N]. intros u v Hu Hv. apply FC; fold d in Hx, Hy; lra. }
  fold d. apply Rabs_le_between in N1. apply Rabs_le_between in N2. apply Rabs_le. lra.
Qed.
Lemma image_converges i j : (i < py)%nat -> (j < px)%nat -> continuous_on_square scene ps (pixel_centre x0 ps px j) (pixel_centre y0 ps py i) ->
  forall eps, 0 < eps -> exists N, forall up lv mode chunk, (N <= up)%nat -> (1 <= up)%nat -> chunk <> Some 0%nat -> rule_inside leg lv ->
  exists im, run up lv mode chunk = Ok im /\ rows im = py /\ cols im = px /\ Rabs (at_ im i j - mean i j) <= eps.
Proof.
  intros Hi Hj FC eps He. assert (EP : 0 < eps / 2) by lra. destruct (uniform_continuity_2d scene _ _ _ _ FC (mkposreal _ EP)) as [dl Hd].
  assert (UB : exists N, ps / dl < INR N).
  { destruct (nfloor_ex (ps / dl)) as [n [_ Hn]]; [left; apply Rdiv_lt_0_compat; [exact PS|apply cond_pos]|]. exists (S n). rewrite S_INR. exact Hn. }
  destruct UB as [N HN]. exists N. intros up lv mode chunk HU U CH RU.
  replace eps with (2 * (eps / 2)) by field. apply image_near; try assumption. intros x y u v Hx Hy Hu Hv Dx Dy.
  assert (DP := cond_pos dl). assert (UP : ps / dl < INR up) by (eapply Rlt_le_trans; [exact HN|apply le_INR; exact HU]).
  assert (S : ps / INR up < dl). { apply Rmult_lt_reg_r with (INR up); [apply lt_0_INR; lia|]. unfold Rdiv. rewrite Rmult_assoc, Rinv_l, Rmult_1_r by (apply not_0_INR; lia).
    apply Rmult_lt_compat_r with (r := dl) in UP; [|exact DP]. replace (ps / dl * dl) with ps in UP by (field; lra). lra. }
  assert (D : 0 < ps / INR up) by (apply Rdiv_lt_0_compat; [exact PS|apply lt_0_INR; lia]).
  left. apply (Hd x y u v Hx Hy Hu Hv); lra.
Qed.
Lemma image_slope L up lv mode chunk : 0 <= L -> slope_at_most L scene -> (1 <= up)%nat -> chunk <> Some 0%nat -> rule_inside leg lv ->
  exists im, run up lv mode chunk = Ok im /\ rows im = py /\ cols im = px /\
  forall i j, (i < py)%nat -> (j < px)%nat -> Rabs (at_ im i j - mean i j) <= 2 * L * ps / INR up.
Proof.
  intros HL SL U CH RU. destruct (new_plain leg ps px py up lv kr kc psf ray src ll x0 y0 so lo le chunk PX PY U KR KC CH mode) as (im & E1 & E2 & E3 & E4).
  exists im. split; [exact E1|]. split; [exact E2|]. split; [exact E3|]. intros i j Hi Hj.
  assert (FC : forall x y, continuity_2d_pt scene x y).
  { intros x y eps. assert (P : 0 < eps / (2 * L + 1)) by (apply Rdiv_lt_0_compat; [apply cond_pos|lra]). exists (mkposreal _ P). cbn [pos]. intros u v Hu Hv. eapply Rle_lt_trans; [apply SL|].
    apply Rle_lt_trans with (L * (2 * (eps / (2 * L + 1)))); [apply Rmult_le_compat_l; lra|].
    replace (L * (2 * (eps / (2 * L + 1)))) with (eps - eps / (2 * L + 1)) by (field; lra). lra. }
  assert (D : 0 < ps / INR up) by (apply Rdiv_lt_0_compat; [exact PS|apply lt_0_INR; lia]).
  replace (2 * L * ps / INR up) with (2 * (L * (ps / INR up))) by (field; apply not_0_INR; lia).
  destruct (image_near up lv mode chunk i j (L * (ps / INR up)) U CH RU Hi Hj ltac:(intros u v _ _; apply FC)) as (im' & F1 & _ & _ & F4).
  - intros x y u v _ _ _ _ Dx Dy. eapply Rle_trans; [apply SL|]. apply Rmult_le_compat_l; lra.
  - rewrite E1 in F1. injection F1 as <-. exact F4.
Qed.
End Image.
