(** * Proofs for C151: fields of view can be cut, joined and binned *)
From Coq Require Import Reals Lra Lia Arith Bool String.
From Verif Require Import Py Fsum Sim_Model Sim_Spec PixMean_Spec PsfEffect_Spec Whole2_Proofs.
Local Open Scope R_scope.

(** sub-pixels from the centre of their pixel *)
Lemma sub_from_centre x0 ps px up j b : (1 <= up)%nat -> sub_centre x0 (ps / INR up) (px * up) (j * up + b) = pixel_centre x0 ps px j + (INR b - (INR up - 1) / 2) * (ps / INR up).
Proof. intros H. unfold sub_centre, pixel_centre. rewrite plus_INR, !mult_INR. assert (0 < INR up) by (apply lt_0_INR; lia). field. lra. Qed.
Lemma value_from_centre up px py px' py' x0 y0 x0' y0' ps B i j i' j' : (1 <= up)%nat -> pixel_centre x0 ps px j = pixel_centre x0' ps px' j' -> pixel_centre y0 ps py i = pixel_centre y0' ps py' i' ->
  pixel_value up px py x0 y0 (ps / INR up) B i j = pixel_value up px' py' x0' y0' (ps / INR up) B i' j'.
Proof. intros H Hx Hy. unfold pixel_value. f_equal. apply fsum_ext. intros a _. apply fsum_ext. intros b _. rewrite !sub_from_centre by exact H. rewrite Hx, Hy. reflexivity. Qed.
Lemma value_binned up k px py x0 y0 d B i j : (1 <= up)%nat -> (1 <= k)%nat ->
  pixel_value (k * up) px py x0 y0 d B i j = fsum k (fun a => fsum k (fun b => pixel_value up (px * k) (py * k) x0 y0 d B (i * k + a) (j * k + b))) / INR (k * k).
Proof.
  intros Hu Hk. assert (0 < INR up) by (apply lt_0_INR; lia). assert (0 < INR k) by (apply lt_0_INR; lia). unfold pixel_value.
  assert (E : forall a, fsum k (fun b => fsum up (fun a0 => fsum up (fun b0 => B (sub_centre x0 d (px * k * up) ((j * k + b) * up + b0)) (sub_centre y0 d (py * k * up) ((i * k + a) * up + a0)))) / INR (up * up))
    = fsum up (fun a0 => fsum (k * up) (fun b => B (sub_centre x0 d (px * (k * up)) (j * (k * up) + b)) (sub_centre y0 d (py * (k * up)) (i * (k * up) + (a * up + a0))))) / INR (up * up)).
  { intros a. rewrite fsum_div. f_equal. rewrite fsum_swap. apply fsum_ext. intros a0 _. rewrite fsum_blocks. apply fsum_ext. intros b _. apply fsum_ext. intros b0 _.
    replace (px * k * up)%nat with (px * (k * up))%nat by ring. replace (py * k * up)%nat with (py * (k * up))%nat by ring.
    replace ((j * k + b) * up + b0)%nat with (j * (k * up) + (b * up + b0))%nat by ring. replace ((i * k + a) * up + a0)%nat with (i * (k * up) + (a * up + a0))%nat by ring. reflexivity. }
  rewrite (fsum_ext k _ (fun a => fsum up (fun a0 => fsum (k * up) (fun b => B (sub_centre x0 d (px * (k * up)) (j * (k * up) + b)) (sub_centre y0 d (py * (k * up)) (i * (k * up) + (a * up + a0))))) / INR (up * up))) by (intros a _; apply E).
  rewrite fsum_div. rewrite (fsum_blocks k up (fun a => fsum (k * up) (fun b => B (sub_centre x0 d (px * (k * up)) (j * (k * up) + b)) (sub_centre y0 d (py * (k * up)) (i * (k * up) + a))))).
  rewrite !mult_INR. field. lra.
Qed.

Section Fields.
Variables (leg : nat -> (nat -> R) * (nat -> R)) (ps : R) (up : nat) (lv : option nat) (kr kc : nat) (psf : nat -> nat -> R).
Variables (ray : R -> R -> R * R) (src ll : option light) (so lo le conv : bool).
Hypothesis UP : (1 <= up)%nat. Hypothesis KR : (1 <= kr)%nat. Hypothesis KC : (1 <= kc)%nat.
Lemma overlap px py mode chunk x0 y0 px' py' mode' chunk' x0' y0' : (1 <= px)%nat -> (1 <= py)%nat -> (1 <= px')%nat -> (1 <= py')%nat -> chunk <> Some 0%nat -> chunk' <> Some 0%nat ->
  (conv = true -> total kr kc psf <> 0 /\ mode_agrees mode px py kr kc /\ mode_agrees mode' px' py' kr kc) -> exists im im',
  call ray (new_sim leg ps px (Some py) up lv mode (kr, kc)) src ll kr kc psf x0 y0 so lo le conv chunk = Ok im /\
  call ray (new_sim leg ps px' (Some py') up lv mode' (kr, kc)) src ll kr kc psf x0' y0' so lo le conv chunk' = Ok im' /\
  rows im = py /\ cols im = px /\ rows im' = py' /\ cols im' = px' /\
  forall i j i' j', (i < py)%nat -> (j < px)%nat -> (i' < py')%nat -> (j' < px')%nat ->
  pixel_centre x0 ps px j = pixel_centre x0' ps px' j' -> pixel_centre y0 ps py i = pixel_centre y0' ps py' i' -> at_ im i j = at_ im' i' j'.
Proof.
  intros PX PY PX' PY' CH CH' T.
  destruct (image_val leg ps px py up lv mode kr kc psf ray src ll x0 y0 so lo le conv chunk PX PY UP KR KC CH) as (im & C & r & c & V); [intros E; destruct (T E) as (A & M & _); auto|].
  destruct (image_val leg ps px' py' up lv mode' kr kc psf ray src ll x0' y0' so lo le conv chunk' PX' PY' UP KR KC CH') as (im' & C' & r' & c' & V'); [intros E; destruct (T E) as (A & _ & M); auto|].
  exists im, im'. repeat (split; [assumption|]). intros i j i' j' Hi Hj Hi' Hj' Ex Ey. rewrite V, V' by assumption. apply value_from_centre; assumption.
Qed.
Lemma binned k px py mode chunk mode' chunk' x0 y0 : (1 <= k)%nat -> (1 <= px)%nat -> (1 <= py)%nat -> chunk <> Some 0%nat -> chunk' <> Some 0%nat ->
  (conv = true -> total kr kc psf <> 0 /\ mode_agrees mode px py kr kc /\ mode_agrees mode' (px * k) (py * k) kr kc) -> exists im im',
  call ray (new_sim leg (INR k * ps) px (Some py) (k * up) lv mode (kr, kc)) src ll kr kc psf x0 y0 so lo le conv chunk = Ok im /\
  call ray (new_sim leg ps (px * k) (Some (py * k)%nat) up lv mode' (kr, kc)) src ll kr kc psf x0 y0 so lo le conv chunk' = Ok im' /\
  rows im = py /\ cols im = px /\ rows im' = (py * k)%nat /\ cols im' = (px * k)%nat /\
  forall i j, (i < py)%nat -> (j < px)%nat -> at_ im i j = fsum k (fun a => fsum k (fun b => at_ im' (i * k + a)%nat (j * k + b)%nat)) / INR (k * k).
Proof.
  intros K PX PY CH CH' T. assert (PX' : (1 <= px * k)%nat) by nia. assert (PY' : (1 <= py * k)%nat) by nia. assert (UP' : (1 <= k * up)%nat) by nia.
  destruct (image_val leg (INR k * ps) px py (k * up) lv mode kr kc psf ray src ll x0 y0 so lo le conv chunk PX PY UP' KR KC CH) as (im & C & r & c & V); [intros E; destruct (T E) as (A & M & _); auto|].
  destruct (image_val leg ps (px * k) (py * k) up lv mode' kr kc psf ray src ll x0 y0 so lo le conv chunk' PX' PY' UP KR KC CH') as (im' & C' & r' & c' & V'); [intros E; destruct (T E) as (A & _ & M); auto|].
  exists im, im'. repeat (split; [assumption|]). intros i j Hi Hj. rewrite V by assumption.
  assert (D : INR k * ps / INR (k * up) = ps / INR up) by (rewrite mult_INR; assert (0 < INR up) by (apply lt_0_INR; lia); assert (0 < INR k) by (apply lt_0_INR; lia); field; lra).
  rewrite D. rewrite value_binned by assumption. f_equal. apply fsum_ext. intros a Ha. apply fsum_ext. intros b Hb. rewrite V' by nia. reflexivity.
Qed.
End Fields.
