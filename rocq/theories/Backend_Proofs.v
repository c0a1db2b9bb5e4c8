(** * The two backends: proofs *)
From Coq Require Import Bool Reals List Arith ZArith Lia Lra.
From Verif Require Import Py Fsum Backend_Model Backend_Spec Reduce_Model.
Import ListNotations.
Local Open Scope bool_scope.
Local Open Scope nat_scope.

Lemma length_set_nth {A} k (v : A) l : length (set_nth k v l) = length l.
Proof. revert k. induction l as [|a l IH]; intros [|k]; simpl; auto. Qed.
Lemma nth_set_nth {A} k (v : A) l d m : nth m (set_nth k v l) d = if (m =? k) && (k <? length l) then v else nth m l d.
Proof.
  revert k m. induction l as [|a l IH]; intros k m.
  - cbn [set_nth length]. replace (k <? 0) with false by (symmetry; apply Nat.ltb_ge; lia). rewrite andb_false_r. destruct k; reflexivity.
  - destruct k as [|k]; destruct m as [|m]; simpl; try reflexivity. rewrite IH. reflexivity.
Qed.
Lemma forallb_ext_in {A} (f g : A -> bool) l : (forall a, In a l -> f a = g a) -> forallb f l = forallb g l.
Proof. induction l as [|a l IH]; intros H; [reflexivity|]. simpl. rewrite (H a (or_introl eq_refl)), IH; [reflexivity|]. intros b Hb. apply H. right. exact Hb. Qed.
Lemma nth_ext0 (l l' : list nat) : length l = length l' -> (forall m, m < length l -> nth m l 0 = nth m l' 0) -> l = l'.
Proof. intros. apply (nth_ext l l' 0 0); assumption. Qed.
Lemma nth_map_seq {A} (f : nat -> A) n m d : m < n -> nth m (map f (seq 0 n)) d = f m.
Proof. intros H. rewrite (nth_indep _ d (f 0)) by (rewrite map_length, seq_length; exact H). rewrite map_nth, seq_nth by exact H. reflexivity. Qed.

Definition inside (a : arr) (idx : list nat) : Prop := forall m, m < length (dims a) -> nth m idx 0 < nth m (dims a) 0.
(** entries are compared at indices inside the shape *)
Definition agree (a b : arr) : Prop := dims a = dims b /\ forall idx, length idx = length (dims a) -> inside a idx -> entry a idx = entry b idx.

Lemma dims_jnp a pw : length (dims (jnp_pad a pw)) = length (dims a).
Proof. unfold jnp_pad. cbn [dims]. rewrite map_length, seq_length. reflexivity. Qed.
Lemma agree_pad_axis a b k l r : agree a b -> k < length (dims a) -> agree (pad_axis k l r a) (pad_axis k l r b).
Proof.
  intros [E H] Hk. split; [unfold pad_axis; cbn [dims]; rewrite E; reflexivity|].
  intros idx Hl Hin. unfold pad_axis in *. cbn [dims entry] in *. rewrite length_set_nth in Hl. rewrite <- E.
  destruct ((l <=? nth k idx 0) && (nth k idx 0 <? l + nth k (dims a) 0)) eqn:T; [|reflexivity].
  apply andb_true_iff in T. destruct T as [T1 T2]. apply Nat.leb_le in T1. apply Nat.ltb_lt in T2.
  apply H; [rewrite length_set_nth; exact Hl|]. intros m Hm. rewrite nth_set_nth.
  destruct (Nat.eqb_spec m k) as [->|N]; cbn [andb].
  - destruct (Nat.ltb_spec k (length idx)); lia.
  - assert (G := Hin m). cbn [dims] in G. rewrite length_set_nth in G. specialize (G Hm). rewrite nth_set_nth in G.
    destruct (Nat.eqb_spec m k); [contradiction|]. cbn [andb] in G. exact G.
Qed.
Lemma pad_step a pw k l r : k < length (dims a) -> length pw = length (dims a) -> nth k pw (0, 0) = (0, 0) ->
  agree (pad_axis k l r (jnp_pad a pw)) (jnp_pad a (set_nth k (l, r) pw)).
Proof.
  intros Hk Hp H0. split.
  - unfold pad_axis, jnp_pad. cbn [dims]. rewrite nth_map_seq by exact Hk. rewrite H0. cbn [fst snd].
    apply nth_ext0; [rewrite length_set_nth, !map_length; reflexivity|].
    intros m Hm. rewrite length_set_nth, map_length, seq_length in Hm. rewrite nth_set_nth, !nth_map_seq by exact Hm. rewrite nth_set_nth, map_length, seq_length, Hp.
    destruct (Nat.eqb_spec m k) as [->|N]; cbn [andb]; [|reflexivity]. destruct (Nat.ltb_spec k (length (dims a))); [cbn [fst snd]; lia|lia].
  - intros idx Hl _. unfold pad_axis in *. cbn [dims entry] in *.
    rewrite length_set_nth, dims_jnp in Hl.
    assert (Dk : nth k (dims (jnp_pad a pw)) 0 = nth k (dims a) 0).
    { unfold jnp_pad. cbn [dims]. rewrite nth_map_seq by exact Hk. rewrite H0. cbn [fst snd]. lia. }
    rewrite Dk. unfold jnp_pad. cbn [entry dims].
    set (n := length (dims a)) in *.
    destruct ((l <=? nth k idx 0) && (nth k idx 0 <? l + nth k (dims a) 0)) eqn:T.
    + apply andb_true_iff in T. destruct T as [T1 T2]. apply Nat.leb_le in T1. apply Nat.ltb_lt in T2.
      assert (FE : forallb (fun m => (fst (nth m pw (0, 0)) <=? nth m (set_nth k (nth k idx 0 - l) idx) 0) && (nth m (set_nth k (nth k idx 0 - l) idx) 0 <? fst (nth m pw (0, 0)) + nth m (dims a) 0)) (seq 0 n) =
                   forallb (fun m => (fst (nth m (set_nth k (l, r) pw) (0, 0)) <=? nth m idx 0) && (nth m idx 0 <? fst (nth m (set_nth k (l, r) pw) (0, 0)) + nth m (dims a) 0)) (seq 0 n)).
      { apply forallb_ext_in. intros m Hm. apply in_seq in Hm. rewrite !nth_set_nth, Hp, Hl.
        destruct (Nat.eqb_spec m k) as [E|N]; cbn [andb]; [|reflexivity]. subst m. destruct (Nat.ltb_spec k n); [|lia]. rewrite H0. cbn [fst].
        apply eq_true_iff_eq. rewrite !andb_true_iff, !Nat.leb_le, !Nat.ltb_lt. lia. }
      rewrite FE. match goal with |- (if ?c then _ else _) = _ => destruct c; [|reflexivity] end.
      f_equal. apply map_ext_in. intros m Hm. apply in_seq in Hm. rewrite !nth_set_nth, Hp, Hl.
      destruct (Nat.eqb_spec m k) as [->|N]; cbn [andb]; [|reflexivity]. destruct (Nat.ltb_spec k n); [|lia]. rewrite H0. cbn [fst]. lia.
    + match goal with |- _ = (if ?c then _ else _) => destruct c eqn:F; [exfalso|reflexivity] end.
      rewrite forallb_forall in F. specialize (F k). rewrite nth_set_nth, Hp, Nat.eqb_refl in F. cbn [andb] in F.
      destruct (Nat.ltb_spec k n); [|lia]. cbn [fst] in F. rewrite F in T; [discriminate|]. apply in_seq. lia.
Qed.
Lemma jnp_pad_none a : agree a (jnp_pad a (repeat (0, 0) (length (dims a)))).
Proof.
  assert (N : forall m, nth m (repeat (0, 0) (length (dims a))) (0, 0) = (0, 0)).
  { intros m. generalize (length (dims a)). intros n. revert m. induction n as [|n IH]; intros [|m]; simpl; auto. }
  split.
  - unfold jnp_pad. cbn [dims]. apply nth_ext0; [rewrite map_length, seq_length; reflexivity|]. intros m Hm. rewrite nth_map_seq by exact Hm. rewrite N. cbn [fst snd]. lia.
  - intros idx Hl Hin. unfold jnp_pad. cbn [entry].
    match goal with |- _ = (if ?c then _ else _) => replace c with true end.
    + f_equal. apply nth_ext0; [rewrite map_length, seq_length; exact Hl|]. intros m Hm. rewrite nth_map_seq by lia. rewrite N. cbn [fst]. lia.
    + symmetry. apply forallb_forall. intros m Hm. apply in_seq in Hm. rewrite N. cbn [fst]. apply andb_true_iff. split; [reflexivity|]. apply Nat.ltb_lt. apply (Hin m). lia.
Qed.
Lemma agree_trans a b c : agree a b -> agree b c -> agree a c.
Proof.
  intros [H1 H2] [H3 H4]. split; [congruence|]. intros idx Hi Hin. rewrite H2 by assumption. apply H4; [congruence|]. unfold inside in *. rewrite <- H1. exact Hin.
Qed.
Lemma pad_loop padding : forall a b pw p, Nat.Even (length padding) -> length padding + 2 * p <= 2 * length (dims a) ->
  length pw = length (dims a) -> (forall m, m < length (dims a) - p -> nth m pw (0, 0) = (0, 0)) ->
  agree b (jnp_pad a pw) ->
  exists c pw', torch_pad_axes p padding b = Ok c /\ pad_width_loop (length (dims a)) p padding pw = Ok pw' /\ agree c (jnp_pad a pw').
Proof.
  induction padding as [padding IH] using (well_founded_induction (Wf_nat.well_founded_ltof _ (@length nat))).
  intros a b pw p Ev Hb Hp H0 Ag. destruct padding as [|l [|r t]].
  - exists b, pw. split; [reflexivity|]. split; [reflexivity|exact Ag].
  - destruct Ev as [q Hq]. simpl in Hq. lia.
  - cbn [torch_pad_axes pad_width_loop]. cbn [length] in Hb.
    assert (Lb : length (dims b) = length (dims a)) by (rewrite (proj1 Ag), dims_jnp; reflexivity). rewrite Lb.
    destruct (Nat.leb_spec (length (dims a)) p); [lia|]. destruct (Nat.leb_spec (p + 1) (length (dims a))); [|lia].
    replace (length (dims a) - (p + 1)) with (length (dims a) - 1 - p) by lia. set (k := length (dims a) - 1 - p).
    apply IH.
    + unfold Wf_nat.ltof. simpl. lia.
    + destruct Ev as [q Hq]. simpl in Hq. exists (q - 1). lia.
    + lia.
    + rewrite length_set_nth. exact Hp.
    + intros m Hm. rewrite nth_set_nth. destruct (Nat.eqb_spec m k); [unfold k in *; lia|]. cbn [andb]. apply H0. lia.
    + eapply agree_trans; [apply agree_pad_axis; [exact Ag|unfold k; lia]|]. apply pad_step; [unfold k; lia|exact Hp|]. apply H0. unfold k. lia.
Qed.
Lemma pad_same a padding : Nat.Even (length padding) -> length padding <= 2 * length (dims a) ->
  exists b c, pad_torch a padding = Ok b /\ pad_jax a padding = Ok c /\ agree b c.
Proof.
  intros Ev Hl. destruct (pad_loop padding a a (repeat (0, 0) (length (dims a))) 0 Ev) as (c & pw & H1 & H2 & H3).
  - lia.
  - apply repeat_length.
  - intros m _. generalize (length (dims a)). intros n. revert m. induction n as [|n IHn]; intros [|m]; simpl; auto.
  - apply jnp_pad_none.
  - exists c, (jnp_pad a pw). split; [exact H1|]. split; [unfold pad_jax; rewrite H2; reflexivity|exact H3].
Qed.
(** what the padded array is *)
Lemma pad_too_long a padding : Nat.Even (length padding) -> 2 * length (dims a) < length padding ->
  pad_torch a padding = Raise RuntimeError /\ exists c, pad_jax a padding = Ok c.
Proof.
  intros Ev Hl. split.
  - unfold pad_torch. assert (G : forall padding p b, Nat.Even (length padding) -> p <= length (dims b) -> 2 * (length (dims b) - p) < length padding -> torch_pad_axes p padding b = Raise RuntimeError).
    { clear. induction padding as [padding IH] using (well_founded_induction (Wf_nat.well_founded_ltof _ (@length nat))).
      intros p b Ev Hp Hl. destruct padding as [|l [|r t]]; [simpl in Hl; lia|reflexivity|]. cbn [torch_pad_axes]. cbn [length] in Hl.
      destruct (Nat.leb_spec (length (dims b)) p); [reflexivity|]. apply IH.
      - unfold Wf_nat.ltof. simpl. lia.
      - destruct Ev as [q Hq]. simpl in Hq. exists (q - 1). lia.
      - unfold pad_axis. cbn [dims]. rewrite length_set_nth. lia.
      - unfold pad_axis. cbn [dims]. rewrite length_set_nth. lia. }
    apply G; [exact Ev|lia|lia].
  - unfold pad_jax. assert (G : forall padding n p pw, Nat.Even (length padding) -> exists pw', pad_width_loop n p padding pw = Ok pw').
    { clear. induction padding as [padding IH] using (well_founded_induction (Wf_nat.well_founded_ltof _ (@length nat))).
      intros n p pw Ev. destruct padding as [|l [|r t]]; [eexists; reflexivity|destruct Ev as [q Hq]; simpl in Hq; lia|]. cbn [pad_width_loop]. apply IH; [unfold Wf_nat.ltof; simpl; lia|].
      destruct Ev as [q Hq]. simpl in Hq. exists (q - 1). lia. }
    destruct (G padding (length (dims a)) 0 (repeat (0, 0) (length (dims a))) Ev) as [pw ->]. eexists. reflexivity.
Qed.

(** ** flatten *)
Lemma prod_app l l' : prod_dims (l ++ l') = prod_dims l * prod_dims l'.
Proof. induction l as [|a l IH]; simpl; [lia|]. unfold prod_dims in *. simpl. rewrite IH. lia. Qed.
Lemma prod_pos l : Forall (fun d => 0 < d) l -> 0 < prod_dims l.
Proof. induction 1; unfold prod_dims in *; simpl; [lia|]. apply Nat.mul_pos_pos; assumption. Qed.
Lemma wrap_some n d k : wrap_dim n d = Some k -> k < n /\ Z.of_nat k = (d mod Z.of_nat n)%Z /\ slice_at n d = k /\ (- Z.of_nat n <= d < Z.of_nat n)%Z.
Proof.
  unfold wrap_dim. destruct ((- Z.of_nat n <=? d) && (d <? Z.of_nat n))%Z eqn:E; [|discriminate]. intros H. injection H as <-.
  apply andb_true_iff in E. destruct E as [E1 E2]. apply Z.leb_le in E1. apply Z.ltb_lt in E2.
  assert (Z.of_nat n <> 0)%Z by lia. assert (B := Z.mod_pos_bound d (Z.of_nat n) ltac:(lia)).
  split; [lia|]. split; [rewrite Z2Nat.id; lia|]. split; [|lia].
  unfold slice_at. f_equal. destruct (Z.ltb_spec d 0).
  - rewrite Z.max_r by lia. symmetry. rewrite <- (Z.mod_add d 1) by lia. rewrite Z.mod_small; lia.
  - symmetry. apply Z.mod_small. lia.
Qed.
Lemma flatten_same shape s e sk ek : shape <> [] -> Forall (fun d => 0 < d) shape ->
  wrap_dim (length shape) s = Some sk -> wrap_dim (length shape) e = Some ek -> sk <= ek ->
  flatten_torch shape s e = flatten_jax shape s e /\ exists out, flatten_torch shape s e = Ok out /\ prod_dims out = prod_dims shape.
Proof.
  intros Hne Hpos Hs He Hle. destruct shape as [|d0 sh]; [contradiction|]. set (shape := d0 :: sh) in *.
  destruct (wrap_some _ _ _ Hs) as (Ls & _ & Ss & _). destruct (wrap_some _ _ _ He) as (Le & Me & _).
  assert (T : flatten_torch shape s e = Ok (firstn sk shape ++ [prod_dims (firstn (ek + 1 - sk) (skipn sk shape))] ++ skipn (ek + 1) shape)).
  { unfold flatten_torch. unfold shape at 1. rewrite Hs, He. destruct (Nat.ltb_spec ek sk); [lia|reflexivity]. }
  assert (S1 : firstn sk shape ++ firstn (ek + 1 - sk) (skipn sk shape) ++ skipn (ek + 1) shape = shape).
  { rewrite <- (firstn_skipn sk shape) at 4. f_equal. rewrite <- (firstn_skipn (ek + 1 - sk) (skipn sk shape)) at 2. f_equal.
    assert (G : forall (l : list nat) a b, skipn b (skipn a l) = skipn (a + b) l).
    { clear. induction l as [|x l IH]; intros a b; [rewrite !skipn_nil; reflexivity|]. destruct a; [reflexivity|]. simpl. apply IH. }
    rewrite G. f_equal. lia. }
  set (mid := firstn (ek + 1 - sk) (skipn sk shape)) in *.
  set (known := prod_dims (firstn sk shape ++ skipn (ek + 1) shape)).
  assert (Tot : prod_dims shape = prod_dims mid * known).
  { unfold known. rewrite <- S1 at 1. rewrite !prod_app. lia. }
  assert (Kp : 0 < known).
  { assert (P := prod_pos _ Hpos). rewrite Tot in P. destruct known; [lia|lia]. }
  split.
  - rewrite T. unfold flatten_jax. unfold shape at 4. fold shape. rewrite Ss. cbv zeta.
    replace (slice_at (length shape) (e mod Z.of_nat (length shape) + 1)) with (ek + 1).
    2:{ unfold slice_at. rewrite <- Me. destruct (Z.ltb_spec (Z.of_nat ek + 1) 0); [lia|]. lia. }
    unfold reshape_infer. fold known. destruct (Nat.eqb_spec known 0); [lia|]. rewrite Tot, Nat.mod_mul, Nat.div_mul by lia. reflexivity.
  - eexists. split; [exact T|]. rewrite Tot. unfold known. rewrite !prod_app. replace (prod_dims [prod_dims mid]) with (prod_dims mid) by (unfold prod_dims; simpl; lia). lia.
Qed.

(** ** average pooling *)
Lemma avg_pool_same im kernel stride : 1 <= kernel -> kernel <= rows im -> kernel <= cols im -> stride <> Some 0 ->
  exists a b, avg_pool2d_torch im kernel stride 0 = Ok a /\ avg_pool2d_jax im kernel stride 0 = Ok b /\ rows a = rows b /\ cols a = cols b /\
    forall i j, i < rows a -> j < cols a -> pixel a i j = pixel b i j.
Proof.
  intros Hk Hr Hc Hs. unfold avg_pool2d_torch, avg_pool2d_jax. set (s := default_to kernel stride).
  assert (Ps : 0 < s) by (unfold s; destruct stride as [[|q]|]; simpl; [congruence|lia|lia]).
  cbv zeta. rewrite !Nat.mul_0_r, !Nat.add_0_r.
  destruct (Nat.eqb_spec kernel 0); [lia|]. destruct (Nat.eqb_spec s 0); [lia|]. destruct (Nat.ltb_spec (rows im) kernel); [lia|]. destruct (Nat.ltb_spec (cols im) kernel); [lia|].
  cbn [orb]. eexists. eexists. split; [reflexivity|]. split; [reflexivity|]. cbn [rows cols pixel]. split; [reflexivity|]. split; [reflexivity|].
  intros i j Hi Hj. f_equal. apply fsum_ext. intros a Ha. apply fsum_ext. intros b Hb. rewrite !Nat.add_0_l, !Nat.sub_0_r.
  assert (Bi : i * s + a < rows im).
  { assert (i <= (rows im - kernel) / s) by lia. assert (M := Nat.mul_div_le (rows im - kernel) s ltac:(lia)). nia. }
  assert (Bj : j * s + b < cols im).
  { assert (j <= (cols im - kernel) / s) by lia. assert (M := Nat.mul_div_le (cols im - kernel) s ltac:(lia)). nia. }
  destruct (Nat.ltb_spec (i * s + a) (rows im)); [|lia]. destruct (Nat.ltb_spec (j * s + b) (cols im)); [|lia]. cbn [Nat.leb andb]. reflexivity.
Qed.

(** ** index updates *)
Lemma nth_fold_set ivs : forall l m, ~ In m (map fst ivs) -> nth m (fill l ivs) 0%R = nth m l 0%R.
Proof.
  induction ivs as [|[i v] t IH]; intros l m H; [reflexivity|]. simpl in *. unfold fill in *. simpl. rewrite IH by tauto. rewrite nth_set_nth.
  destruct (Nat.eqb_spec m i) as [->|]; [exfalso; tauto|reflexivity].
Qed.
Lemma add_same ivs : NoDup (map fst ivs) -> forall l, snd (add_at_indices_torch l ivs) = snd (add_at_indices_jax l ivs).
Proof.
  intros H l. unfold add_at_indices_torch, add_at_indices_jax. cbn [snd]. unfold fill.
  assert (G : forall ivs acc, NoDup (map fst ivs) -> (forall i, In i (map fst ivs) -> nth i acc 0%R = nth i l 0%R) ->
    fold_left (fun acc iv => set_nth (fst iv) (snd iv) acc) (map (fun iv : nat * R => (fst iv, (nth (fst iv) l 0 + snd iv)%R)) ivs) acc =
    fold_left (fun acc iv => set_nth (fst iv) (nth (fst iv) acc 0 + snd iv)%R acc) ivs acc).
  { clear. induction ivs as [|[i v] t IH]; intros acc Hd Hn; [reflexivity|]. simpl in *. inversion Hd; subst.
    rewrite (Hn i) by (left; reflexivity). apply IH; [assumption|]. intros j Hj. rewrite nth_set_nth. destruct (Nat.eqb_spec j i) as [->|]; [contradiction|]. cbn [andb]. apply Hn. right; exact Hj. }
  apply G; [exact H|reflexivity].
Qed.

(** ** chunks *)
Lemma split_repeat {A} size k (l : list A) fuel : 0 < size -> length l = k * size -> k <= fuel -> split_by fuel size l = split_lens (repeat size k) l.
Proof.
  revert l fuel. induction k as [|k IH]; intros l fuel Hs Hl Hf.
  - simpl in Hl. destruct l; [destruct fuel; reflexivity|discriminate].
  - destruct fuel as [|fuel]; [lia|]. destruct l as [|a l]; [simpl in Hl; lia|]. cbn [split_by repeat split_lens]. f_equal. apply IH; [exact Hs| |lia].
    rewrite skipn_length. rewrite Hl. lia.
Qed.
Lemma chunk_same {A} chunks (l : list A) : 1 <= chunks -> l <> [] -> Nat.divide chunks (length l) -> chunk_torch chunks l = chunk_jax chunks l.
Proof.
  intros Hc Hl [q Hq]. unfold chunk_torch, chunk_jax. assert (Q : 0 < q) by (destruct q; [destruct l; [contradiction|discriminate]|lia]).
  assert (E1 : length l / chunks = q) by (rewrite Hq; apply Nat.div_mul; lia).
  assert (E2 : length l mod chunks = 0) by (rewrite Hq; apply Nat.mod_mul; lia).
  rewrite E1, E2. rewrite Nat.sub_0_r. cbn [repeat app].
  replace (ceil_div (length l) chunks) with q.
  - apply split_repeat; [exact Q|lia|]. nia.
  - unfold ceil_div. apply Nat.div_unique with (r := chunks - 1); lia.
Qed.

(** ** upsampling a constant image *)
Lemma tri_weight_sum scale n i : 1 <= scale -> i < n * scale -> fsum n (tri_weight scale n i) = 1%R.
Proof.
  intros Hs Hi. unfold tri_weight. rewrite fsum_div. set (w := fun a => Rmax 0 (1 - Rabs ((INR i + 1 / 2) / INR scale - 1 / 2 - INR a))).
  change (fsum n w / fsum n w = 1)%R. apply Rinv_r. apply Rgt_not_eq.
  assert (Hq : i / scale < n) by (apply Nat.div_lt_upper_bound; lia).
  apply (fsum_pos n w (i / scale)); [exact Hq|intros; apply Rmax_l|].
  unfold w. eapply Rlt_le_trans; [|apply Rmax_r].
  assert (S : (1 <= INR scale)%R) by (change 1%R with (INR 1); apply le_INR; exact Hs).
  assert (D : (INR i = INR scale * INR (i / scale) + INR (i mod scale))%R) by (rewrite <- mult_INR, <- plus_INR, <- Nat.div_mod by lia; reflexivity).
  assert (M : (0 <= INR (i mod scale))%R) by apply pos_INR.
  assert (M2 : (INR (i mod scale) + 1 <= INR scale)%R) by (change 1%R with (INR 1); rewrite <- plus_INR; apply le_INR; assert (B := Nat.mod_upper_bound i scale ltac:(lia)); lia).
  replace ((INR i + 1 / 2) / INR scale - 1 / 2 - INR (i / scale))%R with ((INR (i mod scale) + 1 / 2) / INR scale - 1 / 2)%R by (rewrite D; field; lra).
  set (t := ((INR (i mod scale) + 1 / 2) / INR scale)%R).
  assert (T1 : (0 < t)%R) by (apply Rdiv_lt_0_compat; lra).
  assert (T2 : (t < 1)%R) by (unfold t; apply Rmult_lt_reg_r with (INR scale); [lra|]; unfold Rdiv; rewrite Rmult_assoc, Rinv_l by lra; lra).
  assert (Rabs (t - 1 / 2) < 1)%R by (apply Rabs_def1; lra). lra.
Qed.
Lemma upsample_constant h w c scale i j : 1 <= scale -> i < h * scale -> j < w * scale ->
  pixel (upsample2d_torch (Image h w (fun _ _ => c)) scale) i j = (c / INR scale ^ 2)%R /\
  pixel (upsample2d_jax (Image h w (fun _ _ => c)) scale) i j = c.
Proof.
  intros Hs Hi Hj. split; [reflexivity|]. unfold upsample2d_jax. cbn [rows cols pixel].
  transitivity (fsum h (fun a => tri_weight scale h i a * c)%R).
  - apply fsum_ext. intros a _. transitivity (tri_weight scale h i a * fsum w (tri_weight scale w j) * c)%R; [|rewrite tri_weight_sum by assumption; ring].
    rewrite <- fsum_scal_l, <- fsum_scal_r. reflexivity.
  - rewrite fsum_scal_r, tri_weight_sum by assumption. ring.
Qed.
Lemma upsample_torch_total h w f scale : 1 <= scale ->
  fsum (h * scale) (fun i => fsum (w * scale) (fun j => pixel (upsample2d_torch (Image h w f) scale) i j)) = fsum h (fun i => fsum w (fun j => f i j)).
Proof.
  intros Hs. assert (S : (0 < INR scale)%R) by (apply lt_0_INR; lia). unfold upsample2d_torch. cbn [pixel].
  rewrite fsum_blocks. apply fsum_ext. intros i _.
  transitivity (fsum scale (fun a => fsum w (fun j => f i j / INR scale)%R)).
  - apply fsum_ext. intros a Ha. rewrite fsum_blocks. apply fsum_ext. intros j _.
    transitivity (fsum scale (fun _ => f i j / INR scale ^ 2)%R).
    + apply fsum_ext. intros b Hb. rewrite !Nat.div_add_l, !Nat.div_small, !Nat.add_0_r by lia. reflexivity.
    + rewrite fsum_const. field. lra.
  - rewrite fsum_const, (fsum_div w (INR scale) (f i)). change (fun j => f i j) with (f i). generalize (fsum w (f i)). intros t. field. lra.
Qed.

Lemma map_ok_total {A B} (f : A -> result B) l : (forall a, In a l -> exists b, f a = Ok b) -> exists r, map_ok f l = Ok r.
Proof.
  induction l as [|a l IH]; intros H; [eexists; reflexivity|]. simpl. destruct (H a (or_introl eq_refl)) as [b ->]. simpl.
  destruct IH as [r ->]; [intros; apply H; right; assumption|]. eexists; reflexivity.
Qed.
Lemma map_ok_nth {A B} (f : A -> result B) l r i : map_ok f l = Ok r ->
  match nth_error l i, nth_error r i with Some a, Some b => f a = Ok b | None, None => True | _, _ => False end.
Proof.
  revert r i. induction l as [|a l IH]; intros r i H; simpl in H.
  - injection H as <-. destruct i; exact I.
  - destruct (f a) eqn:E; simpl in H; [|discriminate]. destruct (map_ok f l) eqn:F; simpl in H; [|discriminate]. injection H as <-.
    destruct i; simpl; [exact E|]. apply IH. reflexivity.
Qed.
Lemma vmap_n_spec {A B} (func : nest A -> result (nest B)) d x : (forall y, exists z, func y = Ok z) -> deep d x ->
  exists out, Nat.iter d vmap func x = Ok out /\
   forall p, length p = d -> match at_path x p, at_path out p with Some y, Some z => func y = Ok z | None, None => True | _, _ => False end.
Proof.
  intros Tot. revert x. induction d as [|d IH]; intros x Hx.
  - destruct (Tot x) as [z Hz]. exists z. split; [exact Hz|]. intros [|] Hp; [exact Hz|discriminate].
  - destruct x as [a|l]; [contradiction|]. cbn [deep] in Hx. simpl. 
    destruct (map_ok_total (Nat.iter d vmap func) l) as [r Hr].
    { intros y Hy. destruct (IH y (Hx y Hy)) as [z [Hz _]]. exists z. exact Hz. }
    exists (Node r). split; [unfold vmap; fold (@vmap A B); rewrite Hr; reflexivity|].
    intros [|i p] Hp; [discriminate|]. simpl in Hp. injection Hp as Hp. simpl.
    assert (G := map_ok_nth _ _ _ i Hr). destruct (nth_error l i) as [y|] eqn:E1, (nth_error r i) as [z|] eqn:E2; try exact G; try contradiction.
    destruct (IH y (Hx y (nth_error_In _ _ E1))) as [z' [Hz' Hq]]. rewrite Hz' in G. injection G as ->. apply Hq. exact Hp.
Qed.

(** the windows of avg_pool2d: all that fit, s apart *)
Lemma windows_fit n k s i : 1 <= s -> k <= n -> (i < (n - k) / s + 1 <-> i * s + k <= n).
Proof.
  intros Hs Hk. assert (D := Nat.div_mod (n - k) s ltac:(lia)). assert (M := Nat.mod_upper_bound (n - k) s ltac:(lia)). split; intros H.
  - assert (i * s <= (n - k) / s * s) by (apply Nat.mul_le_mono_r; lia). lia.
  - assert (i <= (n - k) / s); [|lia]. apply Nat.div_le_lower_bound; lia.
Qed.
Lemma avg_pool_windows im kernel stride s : 1 <= kernel -> kernel <= rows im -> kernel <= cols im -> 1 <= s -> stride = Some s \/ stride = None /\ s = kernel ->
  exists a, avg_pool2d_torch im kernel stride 0 = Ok a /\ (forall i, i < rows a <-> i * s + kernel <= rows im) /\ (forall j, j < cols a <-> j * s + kernel <= cols im) /\
    forall i j, i < rows a -> j < cols a -> (INR (kernel * kernel) * pixel a i j = fsum kernel (fun p => fsum kernel (fun q => pixel im (i * s + p) (j * s + q))))%R.
Proof.
  intros Hk Hr Hc Hs E. assert (Es : default_to kernel stride = s) by (destruct E as [->|[-> ->]]; reflexivity). unfold avg_pool2d_torch. rewrite Es, !Nat.mul_0_r, !Nat.add_0_r.
  destruct (Nat.eqb_spec kernel 0); [lia|]. destruct (Nat.eqb_spec s 0); [lia|]. destruct (Nat.ltb_spec (rows im) kernel); [lia|]. destruct (Nat.ltb_spec (cols im) kernel); [lia|].
  cbn [orb]. eexists. split; [reflexivity|]. cbn [rows cols pixel]. split; [intros i; apply windows_fit; assumption|]. split; [intros j; apply windows_fit; assumption|].
  intros i j Hi Hj. apply windows_fit in Hi; [|assumption..]. apply windows_fit in Hj; [|assumption..]. rewrite mult_INR.
  assert (K : (INR kernel <> 0)%R) by (apply not_0_INR; lia).
  match goal with |- (_ * (?u / _) = ?v)%R => assert (Q : u = v) end; [|rewrite Q; field; exact K].
  apply fsum_ext. intros p Hp. apply fsum_ext. intros q Hq. rewrite !Nat.add_0_l, !Nat.sub_0_r.
  destruct (Nat.ltb_spec (i * s + p) (rows im)); [|lia]. destruct (Nat.ltb_spec (j * s + q) (cols im)); [|lia]. cbn [Nat.leb andb]. reflexivity.
Qed.
