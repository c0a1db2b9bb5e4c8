(** * Proofs for C137 *)
From Coq Require Import Reals Lra Lia ZArith String Bool.
From Coquelicot Require Import Coquelicot.
From Verif Require Import Py RealFun Fsum Interp2_Model Interp2_Spec Interp2_Proofs PixMap_Model PixMap_Spec PixMap_Proofs PixConv_Model PixPad_Proofs Approx_Spec Approx_Proofs Flux_Spec.
Local Open Scope R_scope.

(** ** one axis *)
Lemma lin1_at n i X : (S i < n)%nat -> (i = 0%nat \/ INR i <= X) -> (S (S i) = n \/ X < INR i + 1) ->
  forall f, lin1 n f X = f i * (1 - (X - INR i)) + f (S i) * (X - INR i).
Proof.
  intros Hi HL HU f. unfold lin1. assert (F := rfloor_spec X).
  assert (E : clampZ (rfloor X) 0 (Z.of_nat n - 2) = Z.of_nat i).
  { unfold clampZ. destruct HL as [->|HL].
    - destruct HU as [HU|HU]; [lia|]. cbn [INR] in HU. assert (rfloor X < 1)%Z by (apply lt_IZR; lra). lia.
    - rewrite INR_IZR_INZ in HL. assert (Z.of_nat i < rfloor X + 1)%Z by (apply lt_IZR; rewrite plus_IZR; lra).
      destruct HU as [HU|HU]; [lia|]. rewrite INR_IZR_INZ in HU. assert (rfloor X < Z.of_nat i + 1)%Z by (apply lt_IZR; rewrite plus_IZR; lra). lia. }
  rewrite E. unfold ax. rewrite (proj2 (Z.ltb_ge (Z.of_nat i) 0)), (proj2 (Z.ltb_ge (Z.of_nat i + 1) 0)) by lia.
  rewrite Nat2Z.id. replace (Z.to_nat (Z.of_nat i + 1)) with (S i) by lia. rewrite <- INR_IZR_INZ. reflexivity.
Qed.
Lemma affine_int a b i u v : is_RInt (fun X => a * (1 - (X - i)) + b * (X - i)) u v ((v - u) * (a + (b - a) * ((u + v) / 2 - i))).
Proof.
  replace ((v - u) * (a + (b - a) * ((u + v) / 2 - i))) with (minus (a * v + (b - a) * (v - i) ^ 2 / 2) (a * u + (b - a) * (u - i) ^ 2 / 2)).
  2:{ unfold minus, plus, opp; cbn. field. }
  apply (is_RInt_derive (fun X => a * X + (b - a) * (X - i) ^ 2 / 2)).
  - intros x _. auto_derive; [exact Logic.I|]. field.
  - intros x _. apply (ex_derive_continuous (V := R_NormedModule)). auto_derive. exact Logic.I.
Qed.
(** one piece of the axis *)
Lemma piece n f i u v : (S i < n)%nat -> u <= v -> (i = 0%nat \/ INR i <= u) -> (S (S i) = n \/ v <= INR i + 1) ->
  is_RInt (lin1 n f) u v ((v - u) * (f i + (f (S i) - f i) * ((u + v) / 2 - INR i))).
Proof.
  intros Hi Huv HL HU. eapply is_RInt_ext; [|apply affine_int]. intros x. rewrite Rmin_left, Rmax_right by exact Huv. intros Hx.
  symmetry. apply lin1_at; [exact Hi| |]; [destruct HL; [left|right]|destruct HU; [left|right]]; try assumption; lra.
Qed.
Lemma chasles (f : R -> R) a b c (u v t : R) : is_RInt f a b u -> is_RInt f b c v -> t = u + v -> is_RInt f a c t.
Proof. intros A B ->. exact (is_RInt_Chasles (V := R_NormedModule) f a b c u v A B). Qed.
Lemma inner_int n f : (2 <= n)%nat -> forall k, (1 <= k < n)%nat ->
  is_RInt (lin1 n f) (- (1 / 2)) (INR k) (fsum k f + f k / 2 + (f 0%nat - f 1%nat) / 8).
Proof.
  intros Hn k. induction k as [|k IH]; [lia|]. intros Hk. destruct k as [|k].
  - replace (fsum 1 f + f 1%nat / 2 + (f 0%nat - f 1%nat) / 8) with ((INR 1 - - (1 / 2)) * (f 0%nat + (f 1%nat - f 0%nat) * ((- (1 / 2) + INR 1) / 2 - INR 0))) by (cbn; field).
    apply piece; [lia|cbn; lra|left; reflexivity|right; cbn; lra].
  - specialize (IH ltac:(lia)).
    apply (chasles _ _ (INR (S k)) _ _ ((INR (S k) + 1 - INR (S k)) * (f (S k) + (f (S (S k)) - f (S k)) * ((INR (S k) + (INR (S k) + 1)) / 2 - INR (S k)))) _ IH).
    + rewrite (S_INR (S k)). apply piece; [lia|lra|right; lra|right; lra].
    + change (fsum (S (S k)) f) with (fsum (S k) f + f (S k)). field.
Qed.
Lemma axis_int n f : (2 <= n)%nat -> is_RInt (lin1 n f) (- (1 / 2)) (INR n - 1 / 2) (rim_sum n f).
Proof.
  intros Hn. destruct n as [|[|m]]; [lia|lia|]. set (n := S (S m)) in *.
  apply (chasles _ _ (INR (S m)) _ (fsum (S m) f + f (S m) / 2 + (f 0%nat - f 1%nat) / 8)
    ((INR n - 1 / 2 - INR (S m)) * (f m + (f (S m) - f m) * ((INR (S m) + (INR n - 1 / 2)) / 2 - INR m)))).
  - apply inner_int; unfold n; lia.
  - apply piece; [unfold n; lia|unfold n; rewrite (S_INR (S m)); lra|right; rewrite S_INR; lra|left; reflexivity].
  - unfold rim_sum. replace (n - 1)%nat with (S m) by (unfold n; lia). replace (n - 2)%nat with m by (unfold n; lia). unfold n. rewrite (S_INR (S m)), (S_INR m).
    change (fsum (S (S m)) f) with (fsum (S m) f + f (S m)). field.
Qed.

(** ** in positions on the sky *)
Lemma pos_int x0 ps n f : 0 < ps -> (2 <= n)%nat -> is_RInt (fun x => lin1 n f (pos x0 ps n x)) (field_lo x0 ps n) (field_hi x0 ps n) (ps * rim_sum n f).
Proof.
  intros P Hn. assert (A := axis_int n f Hn).
  assert (B := is_RInt_comp_lin (lin1 n f) (/ ps) ((INR n - 1) / 2 - x0 / ps) (field_lo x0 ps n) (field_hi x0 ps n) (rim_sum n f)).
  replace (/ ps * field_lo x0 ps n + ((INR n - 1) / 2 - x0 / ps)) with (- (1 / 2)) in B by (unfold field_lo; field; lra).
  replace (/ ps * field_hi x0 ps n + ((INR n - 1) / 2 - x0 / ps)) with (INR n - 1 / 2) in B by (unfold field_hi; field; lra).
  specialize (B A). apply (is_RInt_scal _ _ _ ps) in B. eapply is_RInt_ext; [|exact B]. intros x _. cbn.
  rewrite pos_eq by assumption. unfold scal, mult; cbn. unfold mult; cbn. rewrite <- Rmult_assoc, Rinv_r, Rmult_1_l by lra. f_equal. field. lra.
Qed.
Lemma int_times (f : R -> R) a b c t : is_RInt f a b t -> is_RInt (fun x => f x * c) a b (t * c).
Proof.
  intros H. rewrite Rmult_comm. apply (is_RInt_ext (fun x => scal c (f x))); [intros x _; unfold scal; cbn; unfold mult; cbn; ring|].
  exact (is_RInt_scal (V := R_NormedModule) f a b c t H).
Qed.
Lemma lin1_int n (g : nat -> R -> R) (T : nat -> R) Y lx hx : (forall i, is_RInt (g i) lx hx (T i)) ->
  is_RInt (fun x => lin1 n (fun i => g i x) Y) lx hx (lin1 n T Y).
Proof. intros H. unfold lin1. apply (is_RInt_plus (V := R_NormedModule)); apply int_times, H. Qed.
Lemma lin1_scal n c f Y : lin1 n (fun i => c * f i) Y = c * lin1 n f Y.
Proof. unfold lin1. ring. Qed.
Lemma field_order x0 ps n : 0 < ps -> field_lo x0 ps n <= field_hi x0 ps n.
Proof. intros P. unfold field_lo, field_hi. assert (Q := pos_INR n). nra. Qed.
(** a function that has the interpolated value inside the field *)
Lemma field_int F h w im x0 y0 ps s : 0 < ps -> (2 <= h)%nat -> (2 <= w)%nat ->
  (forall x y, in_field x0 ps w x -> in_field y0 ps h y -> F x y = s * linear2 h w im (pos x0 ps w x) (pos y0 ps h y)) ->
  integrates F (field_lo x0 ps w) (field_hi x0 ps w) (field_lo y0 ps h) (field_hi y0 ps h) (s * ps ^ 2 * rim_sum2 h w im).
Proof.
  intros P Hh Hw E. assert (OX := field_order x0 ps w P). assert (OY := field_order y0 ps h P).
  exists (fun y => s * ps * lin1 h (fun i => rim_sum w (fun j => im i j)) (pos y0 ps h y)). split.
  - intros y Hy. apply (is_RInt_ext (fun x => scal s (lin1 h (fun i => lin1 w (fun j => im i j) (pos x0 ps w x)) (pos y0 ps h y)))).
    { intros x. rewrite Rmin_left, Rmax_right by exact OX. intros Hx. rewrite (E x y); [|unfold in_field; lra|unfold in_field; lra]. rewrite linear2_lin1. reflexivity. }
    rewrite Rmult_assoc, <- lin1_scal. apply (is_RInt_scal (V := R_NormedModule)), lin1_int. intros i. apply pos_int; assumption.
  - replace (s * ps ^ 2 * rim_sum2 h w im) with (scal (s * ps) (ps * rim_sum h (fun i => rim_sum w (fun j => im i j)))) by (unfold scal, rim_sum2; cbn; unfold mult; cbn; ring).
    apply (is_RInt_scal (V := R_NormedModule)). apply (pos_int y0 ps h (fun i => rim_sum w (fun j => im i j))); assumption.
Qed.

(** ** the calls *)
Lemma field_or_beyond x0 ps n x : in_field x0 ps n x \/ beyond x0 ps n x.
Proof. unfold in_field, beyond, field_lo, field_hi. destruct (Rlt_dec x (x0 - INR n * ps / 2)); [tauto|]. destruct (Rlt_dec (x0 + INR n * ps / 2) x); [tauto|]. left; lra. Qed.
Lemma px_total h w im x0 y0 ps s p : 0 < ps -> (2 <= h)%nat -> (2 <= w)%nat -> is_padding2 p ->
  exists F, (forall x y, px_brightness 2 h w im x0 y0 ps s p x y = Ok (F x y)) /\
  integrates F (field_lo x0 ps w) (field_hi x0 ps w) (field_lo y0 ps h) (field_hi y0 ps h) (s * ps ^ 2 * rim_sum2 h w im).
Proof.
  intros P Hh Hw V. exists (fun x y => match px_brightness 2 h w im x0 y0 ps s p x y with Ok v => v | Raise _ => 0 end). split.
  - intros x y. destruct (px_plain h w im x0 y0 ps s p x y V) as [_ [v E]]. rewrite E. reflexivity.
  - apply field_int; try assumption. intros x y Hx Hy. rewrite px_value by assumption. reflexivity.
Qed.
Lemma pc_total ps n padding mode wk L x0 y0 im s : 0 < ps -> (2 <= n)%nat -> new_pixconv ps 2 (n, n) padding mode wk = Ok L ->
  exists F, (forall x y, pc_convergence L x0 y0 im s x y = Ok (F x y)) /\
  integrates F (field_lo x0 ps n) (field_hi x0 ps n) (field_lo y0 ps n) (field_hi y0 ps n) (s * ps ^ 2 * rim_sum2 n n im).
Proof.
  intros P Hn N. destruct (new_n _ _ _ _ _ _ N) as [E1 E2].
  exists (fun x y => match pc_convergence L x0 y0 im s x y with Ok v => v | Raise _ => 0 end). split.
  - intros x y. reflexivity.
  - apply field_int; try assumption. intros x y Hx Hy. rewrite <- E1, <- E2 in *. rewrite pc_value by assumption. reflexivity.
Qed.
(** ** dark rims *)
Lemma rim_sum_dark n g : (2 <= n)%nat -> (forall i, near_rim n i -> g i = 0) -> rim_sum n g = fsum n g.
Proof. intros Hn H. unfold rim_sum. rewrite !H by (unfold near_rim; lia). field. Qed.
Lemma rim_sum2_dark h w im : (2 <= h)%nat -> (2 <= w)%nat -> dark_rim h w im -> rim_sum2 h w im = pixel_sum h w im.
Proof.
  intros Hh Hw D. assert (E : forall i, rim_sum w (fun j => im i j) = fsum w (fun j => im i j)) by (intros i; apply rim_sum_dark; [exact Hw|]; intros j Hj; apply D; tauto).
  unfold rim_sum2, pixel_sum. rewrite rim_sum_dark; [apply fsum_ext; intros; apply E|exact Hh|]. intros i Hi. rewrite E. apply fsum_zero. intros j _. apply D. tauto.
Qed.
Lemma lin1_dark n g X : (2 <= n)%nat -> - (1 / 2) <= X <= INR n - 1 / 2 -> (forall i, (i < n)%nat -> 0 <= g i) -> (forall i, near_rim n i -> g i = 0) -> 0 <= lin1 n g X.
Proof.
  intros Hn HX G D. destruct (Rlt_dec X 0) as [L|L]; [|destruct (Rlt_dec (INR n - 1) X) as [M|M]].
  - rewrite (lin1_at n 0 X) by (lia || (left; reflexivity) || (right; cbn; lra)). rewrite !D by (unfold near_rim; lia). lra.
  - destruct n as [|[|m]]; [lia|lia|]. rewrite (lin1_at (S (S m)) m X); [|lia| |left; reflexivity].
    + rewrite !D by (unfold near_rim; lia). lra.
    + right. rewrite !S_INR in M. lra.
  - destruct (lin1_weights n X Hn HX) as (i & t & H1 & H2 & H3 & H4 & H5). rewrite H3. specialize (H5 ltac:(lra)).
    assert (A := G i ltac:(lia)). assert (B := G (S i) H1). nra.
Qed.
Lemma linear2_dark h w im X Y : (2 <= h)%nat -> (2 <= w)%nat -> - (1 / 2) <= X <= INR w - 1 / 2 -> - (1 / 2) <= Y <= INR h - 1 / 2 ->
  no_negative h w im -> dark_rim h w im -> 0 <= linear2 h w im X Y.
Proof.
  intros Hh Hw HX HY G D. rewrite linear2_lin1. apply lin1_dark; try assumption.
  - intros i Hi. apply lin1_dark; try assumption; [intros j Hj; apply G; assumption|]. intros j Hj. apply D. tauto.
  - intros i Hi. assert (Z : forall f, (forall j, f j = 0) -> lin1 w f X = 0) by (intros f Hf; unfold lin1; rewrite !Hf; ring). apply Z. intros j. apply D. tauto.
Qed.
Lemma linear2_inner_nonneg h w im X Y : (2 <= h)%nat -> (2 <= w)%nat -> 0 <= X <= INR w - 1 -> 0 <= Y <= INR h - 1 -> no_negative h w im -> 0 <= linear2 h w im X Y.
Proof.
  intros Hh Hw HX HY G. rewrite linear2_lin1.
  destruct (lin1_weights h Y Hh ltac:(lra)) as (i & t & H1 & H2 & H3 & H4 & H5). rewrite H3. specialize (H5 ltac:(lra)).
  assert (R0 : forall i, (i < h)%nat -> 0 <= lin1 w (fun j => im i j) X).
  { intros k Hk. destruct (lin1_weights w X Hw ltac:(lra)) as (j & u & K1 & K2 & K3 & K4 & K5). rewrite K3. specialize (K5 ltac:(lra)).
    assert (A := G k j Hk ltac:(lia)). assert (B := G k (S j) Hk K1). nra. }
  assert (A := R0 i ltac:(lia)). assert (B := R0 (S i) H1). nra.
Qed.
(** on the border itself *)
Lemma pos_lo x0 ps n : 0 < ps -> (2 <= n)%nat -> pos x0 ps n (field_lo x0 ps n) = - (1 / 2).
Proof. intros P Hn. rewrite pos_eq by assumption. unfold field_lo. field. lra. Qed.
Lemma linear2_left h w im Y : (2 <= h)%nat -> (2 <= w)%nat -> (forall i j, im i j = im 0%nat j) -> linear2 h w im (- (1 / 2)) Y = 3 / 2 * im 0%nat 0%nat - im 0%nat 1%nat / 2.
Proof.
  intros Hh Hw C. rewrite linear2_lin1. unfold lin1 at 1. rewrite !(lin1_at w 0 (- (1 / 2))) by (lia || (left; reflexivity) || (right; cbn; lra)).
  rewrite !(C (ax h _)). cbn [INR]. field.
Qed.
Lemma px_nonneg h w im x0 y0 ps s x y : 0 < ps -> (2 <= h)%nat -> (2 <= w)%nat -> 0 <= s -> no_negative h w im ->
  dark_rim h w im \/ (in_inner x0 ps w x /\ in_inner y0 ps h y) ->
  exists v, px_brightness 2 h w im x0 y0 ps s "zeros" x y = Ok v /\ 0 <= v.
Proof.
  intros P Hh Hw HS G D. assert (V : is_padding2 "zeros") by (unfold is_padding2; tauto).
  destruct (field_or_beyond x0 ps w x) as [FX|BX]; [|exists 0; split; [apply px_outside; try assumption; try lia; tauto|lra]].
  destruct (field_or_beyond y0 ps h y) as [FY|BY]; [|exists 0; split; [apply px_outside; try assumption; try lia; tauto|lra]].
  eexists. split; [apply px_value; assumption|]. apply Rmult_le_pos; [exact HS|]. destruct D as [D|[IX IY]].
  - apply linear2_dark; try assumption; apply pos_field; assumption.
  - apply linear2_inner_nonneg; try assumption; apply pos_inner; assumption.
Qed.
Lemma pc_nonneg ps n padding mode wk L x0 y0 im s x y : 0 < ps -> (2 <= n)%nat -> new_pixconv ps 2 (n, n) padding mode wk = Ok L -> 0 <= s -> no_negative n n im ->
  dark_rim n n im \/ (in_inner x0 ps n x /\ in_inner y0 ps n y) -> exists v, pc_convergence L x0 y0 im s x y = Ok v /\ 0 <= v.
Proof.
  intros P Hn N HS G D. destruct (new_n _ _ _ _ _ _ N) as [E1 E2].
  destruct (field_or_beyond x0 ps n x) as [FX|BX]; [|exists 0; split; [apply (conv_outside ps n padding mode wk); try assumption; try lia; tauto|lra]].
  destruct (field_or_beyond y0 ps n y) as [FY|BY]; [|exists 0; split; [apply (conv_outside ps n padding mode wk); try assumption; try lia; tauto|lra]].
  eexists. split; [apply pc_value; rewrite ?E1, ?E2; assumption|]. rewrite E1, E2. apply Rmult_le_pos; [exact HS|]. destruct D as [D|[IX IY]].
  - apply linear2_dark; try assumption; apply pos_field; assumption.
  - apply linear2_inner_nonneg; try assumption; apply pos_inner; assumption.
Qed.
(** one bright column next to the border *)
Definition stripe (i j : nat) : R := if Nat.eqb j 1 then 1 else 0.
Lemma stripe_nonneg h w : no_negative h w stripe.
Proof. intros i j _ _. unfold stripe. destruct (Nat.eqb j 1); lra. Qed.
Lemma lo_field x0 ps n : 0 < ps -> in_field x0 ps n (field_lo x0 ps n).
Proof. intros P. split; [lra|apply field_order, P]. Qed.
Lemma px_negative h w x0 y0 ps p y : 0 < ps -> (2 <= h)%nat -> (2 <= w)%nat -> is_padding2 p -> in_field y0 ps h y ->
  px_brightness 2 h w stripe x0 y0 ps 1 p (field_lo x0 ps w) y = Ok (- (1 / 2)).
Proof.
  intros P Hh Hw V Hy. rewrite px_value by (assumption || apply lo_field, P). rewrite pos_lo by assumption. rewrite linear2_left by (assumption || reflexivity). f_equal. unfold stripe; cbn. lra.
Qed.
Lemma pc_negative ps n padding mode wk L x0 y0 y : 0 < ps -> (2 <= n)%nat -> new_pixconv ps 2 (n, n) padding mode wk = Ok L -> in_field y0 ps n y ->
  pc_convergence L x0 y0 stripe 1 (field_lo x0 ps n) y = Ok (- (1 / 2)).
Proof.
  intros P Hn N Hy. destruct (new_n _ _ _ _ _ _ N) as [E1 E2]. rewrite pc_value; rewrite ?E1, ?E2; try assumption; [|apply lo_field, P].
  rewrite pos_lo by assumption. rewrite linear2_left by (assumption || reflexivity). f_equal. unfold stripe; cbn. lra.
Qed.
Lemma stripe_sum n : (2 <= n)%nat -> fsum n (fun j => stripe 0 j) = 1.
Proof. intros Hn. rewrite (fsum_single n _ 1%nat); [reflexivity|lia|]. intros j _ Hj. unfold stripe. rewrite (proj2 (Nat.eqb_neq j 1)) by exact Hj. reflexivity. Qed.
Lemma const_rim n c : (2 <= n)%nat -> rim_sum n (fun _ => c) = INR n * c.
Proof. intros Hn. unfold rim_sum. rewrite fsum_const. field. Qed.
Lemma stripe_rim h w : (2 <= h)%nat -> (4 <= w)%nat -> rim_sum2 h w stripe = 7 / 8 * INR h /\ pixel_sum h w stripe = INR h.
Proof.
  intros Hh Hw. assert (E := stripe_sum w ltac:(lia)). unfold rim_sum2, pixel_sum. change (fun i => rim_sum w (fun j => stripe i j)) with (fun _ : nat => rim_sum w (fun j => stripe 0 j)).
  change (fun i => fsum w (fun j => stripe i j)) with (fun _ : nat => fsum w (fun j => stripe 0 j)). rewrite const_rim, fsum_const by lia. split; [|rewrite E; ring].
  unfold rim_sum. rewrite E. assert (A : stripe 0 (w - 1) = 0) by (unfold stripe; rewrite (proj2 (Nat.eqb_neq _ _)) by lia; reflexivity).
  assert (B : stripe 0 (w - 2) = 0) by (unfold stripe; rewrite (proj2 (Nat.eqb_neq _ _)) by lia; reflexivity). rewrite A, B. unfold stripe; cbn [Nat.eqb]. field.
Qed.
Lemma integrates_unique F G lx hx ly hy S T : lx <= hx -> ly <= hy -> integrates F lx hx ly hy S -> integrates G lx hx ly hy T -> (forall x y, F x y = G x y) -> S = T.
Proof.
  intros OX OY (A & A1 & A2) (B & B1 & B2) E.
  assert (Q : is_RInt A ly hy T).
  { apply (is_RInt_ext B); [|exact B2]. intros y. rewrite Rmin_left, Rmax_right by exact OY. intros Hy.
    assert (C1 := A1 y ltac:(lra)). assert (C2 := B1 y ltac:(lra)). apply (is_RInt_ext _ (fun x => F x y)) in C2; [|intros x _; symmetry; apply E].
    rewrite <- (is_RInt_unique _ _ _ _ C1), <- (is_RInt_unique _ _ _ _ C2). reflexivity. }
  rewrite <- (is_RInt_unique _ _ _ _ A2), <- (is_RInt_unique _ _ _ _ Q). reflexivity.
Qed.
(** the weights, away from each other *)
Lemma rim_weights n g : (4 <= n)%nat -> rim_sum n g = fsum n (fun i => rim_weight n i * g i).
Proof.
  intros Hn. destruct n as [|[|[|[|m]]]]; try lia. set (n := S (S (S (S m)))).
  assert (E : forall f : nat -> R, fsum n f = f 0%nat + f 1%nat + fsum m (fun i => f (S (S i))) + f (S (S m)) + f (S (S (S m)))).
  { intros f. unfold n. cbn [fsum]. rewrite <- !Rplus_assoc || idtac. assert (Q : fsum (S (S m)) f = f 0%nat + f 1%nat + fsum m (fun i => f (S (S i)))) by (rewrite fsum_S_l, fsum_S_l; ring). cbn [fsum] in Q. rewrite Q. ring. }
  unfold rim_sum. rewrite !E. replace (n - 1)%nat with (S (S (S m))) by (unfold n; lia). replace (n - 2)%nat with (S (S m)) by (unfold n; lia).
  assert (M : fsum m (fun i => rim_weight n (S (S i)) * g (S (S i))) = fsum m (fun i => g (S (S i)))).
  { apply fsum_ext. intros i Hi. unfold rim_weight. rewrite !(proj2 (Nat.eqb_neq _ _)) by (unfold n; lia). ring. }
  rewrite M. assert (W0 : rim_weight n 0 = 9 / 8) by reflexivity. assert (W1 : rim_weight n 1 = 7 / 8) by reflexivity.
  assert (W2 : rim_weight n (S (S m)) = 7 / 8). { unfold rim_weight. cbn [Nat.eqb]. replace (n - 2)%nat with (S (S m)) by (unfold n; lia). rewrite Nat.eqb_refl. reflexivity. }
  assert (W3 : rim_weight n (S (S (S m))) = 9 / 8).
  { unfold rim_weight. rewrite !(proj2 (Nat.eqb_neq (S (S (S m))) _)) by (unfold n; lia). replace (n - 1)%nat with (S (S (S m))) by (unfold n; lia). rewrite Nat.eqb_refl. reflexivity. }
  rewrite W0, W1, W2, W3. field.
Qed.
Lemma outside_field x0 y0 ps h w x y : ~ (in_field x0 ps w x /\ in_field y0 ps h y) -> beyond x0 ps w x \/ beyond y0 ps h y.
Proof. intros H. destruct (field_or_beyond x0 ps w x), (field_or_beyond y0 ps h y); tauto. Qed.
Lemma px_dark h w im x0 y0 ps s : 0 < ps -> (2 <= h)%nat -> (2 <= w)%nat -> dark_rim h w im ->
  exists F, (forall x y, px_brightness 2 h w im x0 y0 ps s "zeros" x y = Ok (F x y)) /\
  (forall x y, ~ (in_field x0 ps w x /\ in_field y0 ps h y) -> F x y = 0) /\
  integrates F (field_lo x0 ps w) (field_hi x0 ps w) (field_lo y0 ps h) (field_hi y0 ps h) (s * ps ^ 2 * pixel_sum h w im) /\
  (0 <= s -> no_negative h w im -> forall x y, 0 <= F x y).
Proof.
  intros P Hh Hw D. destruct (px_total h w im x0 y0 ps s "zeros" P Hh Hw) as (F & EF & I); [unfold is_padding2; tauto|]. exists F.
  rewrite rim_sum2_dark in I by assumption. split; [exact EF|]. split; [|split; [exact I|]].
  - intros x y O. apply outside_field in O. assert (E := EF x y). rewrite px_outside in E by (assumption || lia). injection E as E. symmetry; exact E.
  - intros HS G x y. destruct (px_nonneg h w im x0 y0 ps s x y P Hh Hw HS G (or_introl D)) as (v & E & Hv). rewrite EF in E. injection E as ->. exact Hv.
Qed.
Lemma pc_dark ps n padding mode wk L x0 y0 im s : 0 < ps -> (2 <= n)%nat -> new_pixconv ps 2 (n, n) padding mode wk = Ok L -> dark_rim n n im ->
  exists F, (forall x y, pc_convergence L x0 y0 im s x y = Ok (F x y)) /\
  (forall x y, ~ (in_field x0 ps n x /\ in_field y0 ps n y) -> F x y = 0) /\
  integrates F (field_lo x0 ps n) (field_hi x0 ps n) (field_lo y0 ps n) (field_hi y0 ps n) (s * ps ^ 2 * pixel_sum n n im) /\
  (0 <= s -> no_negative n n im -> forall x y, 0 <= F x y).
Proof.
  intros P Hn N D. destruct (pc_total ps n padding mode wk L x0 y0 im s P Hn N) as (F & EF & I). exists F.
  rewrite rim_sum2_dark in I by assumption. split; [exact EF|]. split; [|split; [exact I|]].
  - intros x y O. apply outside_field in O. assert (E := EF x y). rewrite (conv_outside ps n padding mode wk) in E by (assumption || lia). injection E as E. symmetry; exact E.
  - intros HS G x y. destruct (pc_nonneg ps n padding mode wk L x0 y0 im s x y P Hn N HS G (or_introl D)) as (v & E & Hv). rewrite EF in E. injection E as ->. exact Hv.
Qed.
