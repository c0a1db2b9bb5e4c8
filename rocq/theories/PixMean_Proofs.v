(** * Integrals over rectangles cut into equal parts *)
From Coq Require Import Reals Arith Lia Lra.
From Coquelicot Require Import Coquelicot.
From Verif Require Import Fsum Quad_Spec PixMean_Spec.
Local Open Scope R_scope.

Section Everywhere.
Variable F : R -> R -> R.
Hypothesis FC : forall x y, continuity_2d_pt F x y.
Lemma inner_cont u v : continuous (F u) v.
Proof.
  apply (proj2 (filterlim_locally (F := locally v) (F u) (F u v))). intros eps.
  destruct (FC u v eps) as [d Hd]. exists d. intros z Hz. apply Hd; [rewrite Rminus_eq_0, Rabs_R0; apply cond_pos|exact Hz].
Qed.
Lemma inner_ex u c d : ex_RInt (F u) c d.
Proof. apply (ex_RInt_continuous (V := R_CompleteNormedModule)). intros z _. apply inner_cont. Qed.
Lemma RInt_near (f g : R -> R) c d e : c <= d -> ex_RInt f c d -> ex_RInt g c d -> (forall v, c <= v <= d -> Rabs (f v - g v) <= e) ->
  Rabs (RInt f c d - RInt g c d) <= e * (d - c).
Proof.
  intros H Ef Eg B. change (RInt f c d - RInt g c d) with (minus (RInt f c d) (RInt g c d)). rewrite <- (RInt_minus (V := R_CompleteNormedModule)) by assumption.
  rewrite Rmult_comm. apply abs_RInt_le_const; [exact H|apply (ex_RInt_minus (V := R_NormedModule)); assumption|exact B].
Qed.
Lemma outer_cont c d u : c <= d -> continuous (fun u => RInt (F u) c d) u.
Proof.
  intros H. apply (proj2 (filterlim_locally (F := locally u) (fun u => RInt (F u) c d) (RInt (F u) c d))). intros eps.
  assert (EP : 0 < eps / (d - c + 1)) by (apply Rdiv_lt_0_compat; [apply cond_pos|lra]).
  destruct (uniform_continuity_2d_1d' F c d u (fun v _ => FC u v) (mkposreal _ EP)) as [dl Hd]. exists dl. intros z Hz.
  change (Rabs (RInt (F z) c d - RInt (F u) c d) < eps).
  assert (HZ : u - dl <= z <= u + dl). { change (Rabs (z - u) < dl) in Hz. apply Rabs_def2 in Hz. lra. }
  apply Rle_lt_trans with (eps / (d - c + 1) * (d - c)).
  - apply RInt_near; [exact H|apply inner_ex|apply inner_ex|]. intros v Hv. left. apply (Hd v u v z); try assumption.
    + assert (P := cond_pos dl). lra.
    + rewrite Rminus_eq_0, Rabs_R0. apply cond_pos.
  - replace (eps / (d - c + 1) * (d - c)) with (eps - eps / (d - c + 1)) by (field; lra). lra.
Qed.
Lemma outer_ex c d a b : c <= d -> ex_RInt (fun u => RInt (fun v => F u v) c d) a b.
Proof. intros H. apply (ex_RInt_continuous (V := R_CompleteNormedModule)). intros z _. apply (outer_cont c d z H). Qed.
Lemma box_x a m b c d : c <= d -> box F a b c d = box F a m c d + box F m b c d.
Proof. intros H. unfold box. symmetry. apply (RInt_Chasles (V := R_CompleteNormedModule)); apply outer_ex; exact H. Qed.
Lemma box_y a b c m d : c <= m <= d -> box F a b c d = box F a b c m + box F a b m d.
Proof.
  intros [H1 H2]. unfold box. assert (E := RInt_plus (V := R_CompleteNormedModule) _ _ a b (outer_ex c m a b H1) (outer_ex m d a b H2)).
  change plus with Rplus in E. rewrite <- E. apply RInt_ext. intros u _. symmetry. apply (RInt_Chasles (V := R_CompleteNormedModule)); apply inner_ex.
Qed.
Lemma box_empty_x a c d : box F a a c d = 0.
Proof. unfold box. apply (RInt_point (V := R_CompleteNormedModule)). Qed.
Lemma box_empty_y a b c : box F a b c c = 0.
Proof.
  unfold box. rewrite (RInt_ext _ (fun _ => 0)) by (intros u _; apply (RInt_point (V := R_CompleteNormedModule))).
  rewrite (RInt_const (V := R_CompleteNormedModule)). unfold scal. cbn. unfold mult. cbn. ring.
Qed.
Lemma box_cut_x n a h c d : c <= d -> box F a (a + INR n * h) c d = fsum n (fun k => box F (a + INR k * h) (a + INR k * h + h) c d).
Proof.
  intros H. induction n as [|n IH].
  - cbn [fsum INR]. rewrite Rmult_0_l, Rplus_0_r. apply box_empty_x.
  - cbn [fsum]. rewrite (box_x _ (a + INR n * h)), IH by exact H. f_equal. f_equal. rewrite S_INR. ring.
Qed.
Lemma box_cut_y n a b c h : 0 <= h -> box F a b c (c + INR n * h) = fsum n (fun k => box F a b (c + INR k * h) (c + INR k * h + h)).
Proof.
  intros H. induction n as [|n IH].
  - cbn [fsum INR]. rewrite Rmult_0_l, Rplus_0_r. apply box_empty_y.
  - cbn [fsum]. assert (P : 0 <= INR n * h) by (apply Rmult_le_pos; [apply pos_INR|exact H]).
    rewrite (box_y _ _ _ (c + INR n * h)), IH by (rewrite ?S_INR; split; lra). f_equal. f_equal. rewrite S_INR. ring.
Qed.
Lemma box_near a b c d v e : a <= b -> c <= d -> (forall x y, a <= x <= b -> c <= y <= d -> Rabs (F x y - v) <= e) ->
  Rabs (box F a b c d - v * ((b - a) * (d - c))) <= e * ((b - a) * (d - c)).
Proof.
  intros H1 H2 B. unfold box.
  assert (K : forall w p q : R, RInt (fun _ => w) p q = w * (q - p)).
  { intros w p q. rewrite (RInt_const (V := R_CompleteNormedModule)). unfold scal. cbn. unfold mult. cbn. ring. }
  assert (E : v * ((b - a) * (d - c)) = RInt (fun _ => v * (d - c)) a b) by (rewrite (K (v * (d - c)) a b); ring). rewrite E.
  replace (e * ((b - a) * (d - c))) with (e * (d - c) * (b - a)) by ring.
  apply RInt_near; [exact H1|apply outer_ex; exact H2|apply (ex_RInt_const (V := R_NormedModule))|].
  intros u Hu. rewrite <- K. apply RInt_near; [exact H2|apply inner_ex|apply (ex_RInt_const (V := R_NormedModule))|]. intros w Hw. apply B; assumption.
Qed.
End Everywhere.

(** ** functions continuous on the rectangle only *)
Definition clip (a b x : R) : R := Rmax a (Rmin b x).
Lemma clip_in a b x : a <= b -> a <= clip a b x <= b.
Proof. intros H. unfold clip. split; [apply Rmax_l|]. apply Rmax_lub; [exact H|apply Rmin_l]. Qed.
Lemma clip_id a b x : a <= x <= b -> clip a b x = x.
Proof. intros H. unfold clip. rewrite Rmin_right, Rmax_right by lra. reflexivity. Qed.
Lemma clip_close a b x u : a <= b -> Rabs (clip a b u - clip a b x) <= Rabs (u - x).
Proof.
  intros H. unfold clip, Rmin. destruct (Rle_dec b u), (Rle_dec b x); unfold Rmax; repeat (match goal with |- context [Rle_dec ?p ?q] => destruct (Rle_dec p q) end); unfold Rabs; repeat (match goal with |- context [Rcase_abs ?p] => destruct (Rcase_abs p) end); lra.
Qed.
Lemma clip_continuous F a b c d : a <= b -> c <= d -> (forall x y, a <= x <= b -> c <= y <= d -> continuity_2d_pt F x y) ->
  forall x y, continuity_2d_pt (fun x y => F (clip a b x) (clip c d y)) x y.
Proof.
  intros H1 H2 C x y eps. destruct (C _ _ (clip_in a b x H1) (clip_in c d y H2) eps) as [dl Hd]. exists dl. intros u v Hu Hv. apply Hd.
  - eapply Rle_lt_trans; [apply clip_close; exact H1|exact Hu].
  - eapply Rle_lt_trans; [apply clip_close; exact H2|exact Hv].
Qed.
Lemma box_ext F G a b c d : a <= b -> c <= d -> (forall x y, a <= x <= b -> c <= y <= d -> F x y = G x y) -> box F a b c d = box G a b c d.
Proof.
  intros H1 H2 E. unfold box. apply RInt_ext. rewrite Rmin_left, Rmax_right by exact H1. intros u Hu. apply RInt_ext. rewrite Rmin_left, Rmax_right by exact H2.
  intros v Hv. apply E; lra.
Qed.
Lemma fsum_le_const n f e : (forall k, (k < n)%nat -> Rabs (f k) <= e) -> Rabs (fsum n f) <= INR n * e.
Proof. intros H. eapply Rle_trans; [apply fsum_Rabs|]. rewrite <- fsum_const. apply fsum_le. exact H. Qed.

(** ** a pixel cut into n times n equal parts *)
Section Pixel.
Variables (F : R -> R -> R) (p x y : R) (n : nat).
Hypothesis Hp : 0 < p. Hypothesis Hn : (1 <= n)%nat.
Hypothesis FC : continuous_on_square F p x y.
Let h := p / INR n.
Let xs (k : nat) : R := x - p / 2 + INR k * h + h / 2.
Let ys (k : nat) : R := y - p / 2 + INR k * h + h / 2.
Let Nn : 0 < INR n. Proof. apply lt_0_INR. lia. Qed.
Let Hh : 0 < h. Proof. apply Rdiv_lt_0_compat; [exact Hp|exact Nn]. Qed.
Let NH : INR n * h = p. Proof. unfold h. field. apply Rgt_not_eq. exact Nn. Qed.
Lemma part_range k : (k < n)%nat -> 0 <= INR k * h /\ INR k * h + h <= p.
Proof.
  intros Hk. split; [apply Rmult_le_pos; [apply pos_INR|left; exact Hh]|]. rewrite <- NH. replace (INR k * h + h) with (INR (S k) * h) by (rewrite S_INR; ring).
  apply Rmult_le_compat_r; [left; exact Hh|]. apply le_INR. lia.
Qed.
Lemma pixel_cut : box F (x - p / 2) (x + p / 2) (y - p / 2) (y + p / 2) =
  fsum n (fun i => fsum n (fun j => box F (xs j - h / 2) (xs j + h / 2) (ys i - h / 2) (ys i + h / 2))).
Proof.
  set (G := fun u v => F (clip (x - p / 2) (x + p / 2) u) (clip (y - p / 2) (y + p / 2) v)).
  assert (GC : forall u v, continuity_2d_pt G u v) by (apply clip_continuous; [lra|lra|exact FC]).
  assert (GE : forall u v, x - p / 2 <= u <= x + p / 2 -> y - p / 2 <= v <= y + p / 2 -> F u v = G u v).
  { intros u v Hu Hv. unfold G. rewrite !clip_id by assumption. reflexivity. }
  rewrite (box_ext F G) by first [lra | exact GE].
  replace (y + p / 2) with (y - p / 2 + INR n * h) by (rewrite NH; field).
  rewrite (box_cut_y G GC n) by (left; exact Hh). apply fsum_ext. intros i Hi.
  replace (x + p / 2) with (x - p / 2 + INR n * h) by (rewrite NH; field).
  rewrite (box_cut_x G GC n) by (assert (Z := Hh); lra). apply fsum_ext. intros j Hj.
  destruct (part_range i Hi), (part_range j Hj). assert (Z := Hh).
  replace (x - p / 2 + INR j * h) with (xs j - h / 2) by (unfold xs; field). replace (y - p / 2 + INR i * h) with (ys i - h / 2) by (unfold ys; field).
  replace (xs j - h / 2 + h) with (xs j + h / 2) by field. replace (ys i - h / 2 + h) with (ys i + h / 2) by field.
  symmetry. apply box_ext; [lra|lra|]. intros u v Hu Hv. apply GE; unfold xs, ys in *; lra.
Qed.
Lemma mean_cut : pixel_mean F p x y = fsum n (fun i => fsum n (fun j => pixel_mean F h (xs j) (ys i))) / INR (n * n).
Proof.
  unfold pixel_mean. change (RInt _ (x - p / 2) (x + p / 2)) with (box F (x - p / 2) (x + p / 2) (y - p / 2) (y + p / 2)). rewrite pixel_cut.
  rewrite (fsum_ext n (fun i => fsum n (fun j => RInt _ _ _ / h ^ 2)) (fun i => fsum n (fun j => box F (xs j - h / 2) (xs j + h / 2) (ys i - h / 2) (ys i + h / 2)) / h ^ 2)).
  2: { intros i _. rewrite fsum_div. reflexivity. }
  rewrite fsum_div. rewrite mult_INR. rewrite <- NH. assert (Z := Hh). assert (Z' := Nn). field. split; apply Rgt_not_eq; assumption.
Qed.
(** the mean of sub-pixel values that are near the sub-pixel means is near the mean of the pixel *)
Lemma mean_near (Q : R -> R -> R) e :
  (forall i j, (i < n)%nat -> (j < n)%nat -> Rabs (Q (xs j) (ys i) - pixel_mean F h (xs j) (ys i)) <= e) ->
  Rabs (fsum n (fun i => fsum n (fun j => Q (xs j) (ys i))) / INR (n * n) - pixel_mean F p x y) <= e.
Proof.
  intros H. rewrite mean_cut. assert (N2 : 0 < INR (n * n)) by (rewrite mult_INR; apply Rmult_lt_0_compat; exact Nn).
  unfold Rdiv. rewrite <- Rmult_minus_distr_r, <- fsum_minus, Rabs_mult, (Rabs_pos_eq (/ INR (n * n))) by (left; apply Rinv_0_lt_compat; exact N2).
  apply Rmult_le_reg_r with (INR (n * n)); [exact N2|]. rewrite Rmult_assoc, Rinv_l, Rmult_1_r by (apply Rgt_not_eq; exact N2).
  rewrite mult_INR. replace (e * (INR n * INR n)) with (INR n * (INR n * e)) by ring. apply fsum_le_const. intros i Hi. rewrite <- fsum_minus. apply fsum_le_const. intros j Hj. apply H; assumption.
Qed.
End Pixel.
Lemma pixel_mean_near F p x y v e : 0 < p -> continuous_on_square F p x y ->
  (forall u w, x - p / 2 <= u <= x + p / 2 -> y - p / 2 <= w <= y + p / 2 -> Rabs (F u w - v) <= e) -> Rabs (pixel_mean F p x y - v) <= e.
Proof.
  intros Hp FC B. unfold pixel_mean. change (RInt _ (x - p / 2) (x + p / 2)) with (box F (x - p / 2) (x + p / 2) (y - p / 2) (y + p / 2)).
  set (G := fun u v => F (clip (x - p / 2) (x + p / 2) u) (clip (y - p / 2) (y + p / 2) v)).
  assert (GC : forall u v, continuity_2d_pt G u v) by (apply clip_continuous; [lra|lra|exact FC]).
  assert (GE : forall u v, x - p / 2 <= u <= x + p / 2 -> y - p / 2 <= v <= y + p / 2 -> F u v = G u v).
  { intros u w Hu Hv. unfold G. rewrite !clip_id by assumption. reflexivity. }
  rewrite (box_ext F G) by first [lra | exact GE].
  assert (BN := box_near G GC (x - p / 2) (x + p / 2) (y - p / 2) (y + p / 2) v e ltac:(lra) ltac:(lra)).
  assert (P2 : 0 < p ^ 2) by (apply pow_lt; exact Hp).
  replace ((x + p / 2 - (x - p / 2)) * (y + p / 2 - (y - p / 2))) with (p ^ 2) in BN by field.
  set (X := box G _ _ _ _) in *. replace (X / p ^ 2 - v) with ((X - v * p ^ 2) / p ^ 2) by (field; lra). unfold Rdiv at 1. rewrite Rabs_mult, (Rabs_pos_eq (/ p ^ 2)) by (left; apply Rinv_0_lt_compat; exact P2).
  apply Rmult_le_reg_r with (p ^ 2); [exact P2|]. rewrite Rmult_assoc, Rinv_l, Rmult_1_r by lra.
  apply BN. intros u w Hu Hw. rewrite <- GE by assumption. apply B; assumption.
Qed.
