(** * Proofs about vmap_reduce and BatchedPlane *)
From Coq Require Import Reals List Arith Lia Lra.
From Verif Require Import Py LensBase_Model LensBase_Proofs Reduce_Model Reduce_Spec.
Import ListNotations.
Local Open Scope nat_scope.

(** ** ceilings *)
Lemma ceil_spec a b : 1 <= b -> (ceil_div a b - 1) * b < a + (if Nat.eqb a 0 then 1 else 0) /\ a <= ceil_div a b * b.
Proof.
  intros Hb. unfold ceil_div. assert (D := Nat.div_mod (a + b - 1) b ltac:(lia)).
  assert (M := Nat.mod_upper_bound (a + b - 1) b ltac:(lia)).
  set (q := (a + b - 1) / b) in *. destruct (Nat.eqb_spec a 0); nia.
Qed.
Lemma ceil_unique a b q : 1 <= b -> 1 <= a -> (q - 1) * b < a -> a <= q * b -> ceil_div a b = q.
Proof.
  intros Hb Ha H1 H2. destruct (ceil_spec a b Hb) as [E1 E2]. destruct (Nat.eqb_spec a 0); [lia|].
  assert (1 <= q) by nia. assert (1 <= ceil_div a b) by nia. nia.
Qed.
Lemma ceil_pos a b : 1 <= b -> 1 <= a -> 1 <= ceil_div a b.
Proof. intros Hb Ha. destruct (ceil_spec a b Hb) as [_ E2]. nia. Qed.
Lemma ceil_le a b : 1 <= b -> ceil_div a b <= a.
Proof.
  intros Hb. destruct a as [|a].
  - unfold ceil_div. rewrite Nat.div_small; lia.
  - destruct (ceil_spec (S a) b Hb) as [E1 _]. simpl Nat.eqb in E1. cbv iota in E1. nia.
Qed.
(** asking for ceil(B/c) pieces of a batch of B gives pieces of at most c *)
Lemma ceil_ceil_le B c : 1 <= B -> 1 <= c -> ceil_div B (ceil_div B c) <= c.
Proof.
  intros HB Hc. destruct (ceil_spec B c Hc) as [_ E]. assert (P := ceil_pos B c Hc HB).
  set (n := ceil_div B c) in *. destruct (ceil_spec B n P) as [E1 _]. destruct (Nat.eqb_spec B 0); [lia|].
  set (s := ceil_div B n) in *. nia.
Qed.
(** and exactly that many *)
Lemma ceil_ceil_ceil B c : 1 <= B -> 1 <= c -> ceil_div B (ceil_div B (ceil_div B c)) = ceil_div B c.
Proof.
  intros HB Hc. assert (P := ceil_pos B c Hc HB). assert (L := ceil_ceil_le B c HB Hc).
  assert (S1 := ceil_pos B (ceil_div B c) P HB).
  destruct (ceil_spec B c Hc) as [E1 E2]. destruct (Nat.eqb_spec B 0); [lia|].
  destruct (ceil_spec B (ceil_div B c) P) as [F1 F2]. destruct (Nat.eqb_spec B 0); [lia|].
  apply ceil_unique; try assumption; nia.
Qed.

(** ** both splittings are given by a list of sizes *)
Fixpoint total (l : list nat) : nat := match l with [] => 0 | a :: t => a + total t end.
Fixpoint tsizes (fuel s B : nat) : list nat :=
  match fuel, B with
  | _, 0 => []
  | 0, _ => []
  | S f, _ => Nat.min s B :: tsizes f s (B - s)
  end.
Lemma total_app l m : total (l ++ m) = total l + total m.
Proof. induction l; simpl; lia. Qed.
Lemma total_repeat a n : total (repeat a n) = n * a.
Proof. induction n; simpl; lia. Qed.
Lemma split_by_sizes {A} f s (l : list A) : split_by f s l = split_lens (tsizes f s (length l)) l.
Proof.
  revert l. induction f as [|f IH]; intros [|a l]; try reflexivity.
  cbn [split_by tsizes length split_lens]. rewrite IH, skipn_length. cbn [length]. f_equal.
  - destruct (Nat.min_spec s (S (length l))) as [[L E]|[L E]]; rewrite E; [reflexivity|].
    rewrite !firstn_all2; cbn [length]; lia || reflexivity.
  - destruct (le_lt_dec s (S (length l))).
    + rewrite Nat.min_l by lia. reflexivity.
    + rewrite Nat.min_r by lia. rewrite !(skipn_all2) by (cbn [length]; lia).
      replace (S (length l) - s) with 0 by lia. destruct f; reflexivity.
Qed.
Lemma tsizes_props f s B : 1 <= s -> B <= f ->
  total (tsizes f s B) = B /\ length (tsizes f s B) = ceil_div B s /\ Forall (fun k => 1 <= k <= s) (tsizes f s B).
Proof.
  intros Hs. revert B. induction f as [|f IH]; intros B HB.
  - assert (B = 0) by lia. subst. cbn. split; [reflexivity|]. split; [|constructor].
    unfold ceil_div. rewrite Nat.div_small; lia.
  - destruct B as [|B]; [cbn; split; [reflexivity|]; split; [|constructor]; unfold ceil_div; rewrite Nat.div_small; lia|].
    cbn [tsizes]. destruct (IH (S B - s) ltac:(lia)) as (T & L & F). split; [|split].
    + cbn [total]. rewrite T. lia.
    + cbn [length]. rewrite L. unfold ceil_div. destruct (le_lt_dec s (S B)).
      * replace (S B + s - 1) with (S B - s + s - 1 + 1 * s) by lia. rewrite Nat.div_add by lia. lia.
      * replace (S B - s) with 0 by lia. rewrite Nat.div_small by lia.
        assert (1 = (S B + s - 1) / s); [|lia]. apply (Nat.div_unique _ _ _ (S B - 1)); lia.
    + constructor; [lia|exact F].
Qed.
(** for the number of chunks vmap_reduce asks for, both backends give that many pieces, of sizes depending only on B *)
Definition sizes_of (bk : backend) (n B : nat) : list nat :=
  match bk with
  | Torch => tsizes B (ceil_div B n) B
  | Jax => repeat (S (B / n)) (B mod n) ++ repeat (B / n) (n - B mod n)
  end.
Lemma chunk_sizes {A} bk n (l : list A) : chunk bk n l = split_lens (sizes_of bk n (length l)) l.
Proof. destruct bk; [apply split_by_sizes|reflexivity]. Qed.
Lemma sizes_props bk B c n : 1 <= B -> 1 <= c -> n = ceil_div B c ->
  total (sizes_of bk n B) = B /\ length (sizes_of bk n B) = n /\ Forall (fun k => 1 <= k <= c) (sizes_of bk n B).
Proof.
  intros HB Hc ->. assert (P := ceil_pos B c Hc HB). assert (L := ceil_ceil_le B c HB Hc).
  destruct bk; cbn [sizes_of].
  - assert (S1 := ceil_pos B (ceil_div B c) P HB).
    destruct (tsizes_props B (ceil_div B (ceil_div B c)) B S1 ltac:(lia)) as (T & N & F).
    split; [exact T|]. split; [rewrite N; apply ceil_ceil_ceil; assumption|].
    eapply Forall_impl; [|exact F]. intros k Hk. cbv beta in Hk |- *. lia.
  - set (n := ceil_div B c) in *. assert (N := ceil_le B c Hc). fold n in N.
    assert (D := Nat.div_mod B n ltac:(lia)). assert (M := Nat.mod_upper_bound B n ltac:(lia)).
    split; [|split].
    + rewrite total_app, !total_repeat. nia.
    + rewrite app_length, !repeat_length. lia.
    + assert (E : B <= n * c) by (destruct (ceil_spec B c Hc) as [_ E]; exact E).
      assert (Q : 1 <= B / n) by (apply Nat.div_le_lower_bound; lia).
      apply Forall_app. split; apply Forall_forall; intros k Hk.
      * assert (0 < B mod n) by (destruct (B mod n); [destruct Hk|lia]).
        apply repeat_spec in Hk. subst k. split; [lia|]. nia.
      * apply repeat_spec in Hk. subst k. split; [lia|nia].
Qed.

(** ** the chunks *)
Section Chunks.
Context {A : Type}.
Fixpoint offsets (off : nat) (sizes : list nat) : list (nat * nat) :=
  match sizes with [] => [] | s :: t => (off, s) :: offsets (off + s) t end.
Definition piece (os : nat * nat) (a : arg A) : arg A :=
  match a with Shared v => Shared v | Batched l => Batched (firstn (snd os) (skipn (fst os) l)) end.
Lemma skipn_skipn (l : list A) a b : skipn a (skipn b l) = skipn (a + b) l.
Proof.
  revert l. induction b as [|b IH]; intros l; [rewrite Nat.add_0_r; reflexivity|].
  rewrite Nat.add_succ_r. destruct l as [|x l]; [rewrite !skipn_nil; reflexivity|]. cbn [skipn]. apply IH.
Qed.
Lemma split_offsets (l : list A) sizes off : split_lens sizes (skipn off l) = map (fun os => firstn (snd os) (skipn (fst os) l)) (offsets off sizes).
Proof.
  revert off. induction sizes as [|s t IH]; intros off; [reflexivity|]. cbn [split_lens offsets map fst snd]. f_equal.
  rewrite <- IH. f_equal. rewrite skipn_skipn. f_equal. lia.
Qed.
Lemma offsets_length off sizes : length (offsets off sizes) = length sizes.
Proof. revert off. induction sizes as [|s t IH]; intros off; [reflexivity|]. cbn. rewrite IH. reflexivity. Qed.
Lemma append_each_map {T} (f : T -> arg A) (g : T -> list (arg A)) os :
  append_each (map f os) (map g os) = Ok (map (fun o => g o ++ [f o]) os).
Proof. induction os as [|o t IH]; [reflexivity|]. cbn [map append_each]. rewrite IH. reflexivity. Qed.
Lemma for_loop_chunks (sub : arg A -> list (arg A)) os done args :
  (forall a, In a args -> sub a = map (fun o => piece o a) os) ->
  for_loop (fun a chunks => append_each (sub a) chunks) args (map (fun o => map (piece o) done) os) =
  Ok (map (fun o => map (piece o) (done ++ args)) os).
Proof.
  revert done. induction args as [|a t IH]; intros done H.
  - cbn. rewrite app_nil_r. reflexivity.
  - cbn [for_loop]. rewrite (H a (or_introl eq_refl)), append_each_map. cbn [bind].
    assert (E : map (fun o => map (piece o) done ++ [piece o a]) os = map (fun o => map (piece o) (done ++ [a])) os).
    { apply map_ext. intros o. rewrite map_app. reflexivity. }
    rewrite E, IH by (intros b Hb; apply H; right; exact Hb). rewrite <- app_assoc. reflexivity.
Qed.
Lemma batch_size_good B (args : list (arg A)) : good_args B args -> batch_size args = Ok B.
Proof.
  intros [[l H] G]. induction args as [|a t IH]; [destruct H|]. destruct a as [v|m].
  - cbn. apply IH; [destruct H as [H|H]; [discriminate|exact H]|]. intros m Hm. apply G. right; exact Hm.
  - cbn. rewrite (G m (or_introl eq_refl)). reflexivity.
Qed.
Definition n_chunks_of (B : nat) (cs : option nat) : nat := match cs with None => 1 | Some c => ceil_div B c end.
Definition cs_bound (B : nat) (cs : option nat) : nat := match cs with None => B | Some c => c end.
Lemma n_chunks_ceil B cs : 1 <= B -> n_chunks_of B cs = ceil_div B (cs_bound B cs).
Proof. intros HB. destruct cs; [reflexivity|]. cbn. symmetry. apply ceil_unique; lia. Qed.
Lemma chunk_input_ok bk cs B (args : list (arg A)) : 1 <= B -> ok_cs cs -> good_args B args ->
  chunk_input bk cs args = Ok (map (fun o => map (piece o) args) (offsets 0 (sizes_of bk (n_chunks_of B cs) B))).
Proof.
  intros HB Hcs G. unfold chunk_input.
  assert (E : match cs with None => Ok 1 | Some c => bind (batch_size args) (fun B => if Nat.eqb c 0 then Raise ZeroDivisionError else Ok (ceil_div B c)) end
     = Ok (n_chunks_of B cs)).
  { destruct cs as [c|]; [|reflexivity]. rewrite (batch_size_good B args G). cbn [bind]. cbn in Hcs.
    destruct (Nat.eqb_spec c 0); [lia|reflexivity]. }
  rewrite E. cbn [bind].
  destruct (sizes_props bk B (cs_bound B cs) (n_chunks_of B cs) HB ltac:(destruct cs; cbn in *; lia) (n_chunks_ceil B cs HB)) as (T & N & F).
  set (n := n_chunks_of B cs) in *. set (os := offsets 0 (sizes_of bk n B)).
  assert (Los : length os = n) by (unfold os; rewrite offsets_length; exact N).
  assert (I : repeat [] n = map (fun o => map (piece o) []) os).
  { rewrite <- Los. clear. induction os as [|o t IH]; [reflexivity|]. cbn. rewrite IH. reflexivity. }
  rewrite I, (for_loop_chunks _ os [] args); [reflexivity|].
  intros a Ha. destruct a as [v|l].
  - rewrite <- Los. clear. induction os as [|o t IH]; [reflexivity|]. cbn. rewrite IH. reflexivity.
  - rewrite chunk_sizes, (proj2 G l Ha). change l with (skipn 0 l) at 1. rewrite split_offsets, map_map. reflexivity.
Qed.
(** ** vmap on a chunk *)
Lemma batch_lengths_piece o B (args : list (arg A)) : good_args B args -> fst o + snd o <= B ->
  exists t, batch_lengths (map (piece o) args) = snd o :: t /\ forallb (Nat.eqb (snd o)) t = true.
Proof.
  intros [[l H] G] HB.
  assert (A1 : forall k, In k (batch_lengths (map (piece o) args)) -> k = snd o).
  { intros k Hk. unfold batch_lengths in Hk. apply in_flat_map in Hk. destruct Hk as (a & Ha & Hk).
    apply in_map_iff in Ha. destruct Ha as (b & <- & Hb). destruct b as [v|m]; cbn in Hk; [destruct Hk|].
    destruct Hk as [<-|[]]. rewrite firstn_length, skipn_length, (G m Hb). lia. }
  assert (A2 : batch_lengths (map (piece o) args) <> []).
  { intros E. assert (I : In (length (firstn (snd o) (skipn (fst o) l))) (batch_lengths (map (piece o) args))).
    { apply in_flat_map. exists (piece o (Batched l)). split; [apply in_map, H|left; reflexivity]. }
    rewrite E in I. destruct I. }
  destruct (batch_lengths (map (piece o) args)) as [|k t] eqn:E; [contradiction|].
  rewrite (A1 k (or_introl eq_refl)). exists t. split; [reflexivity|].
  apply forallb_forall. intros x Hx. apply Nat.eqb_eq. symmetry. apply A1. right; exact Hx.
Qed.
Lemma nth_error_firstn_skipn (l : list A) off len b : b < len -> nth_error (firstn len (skipn off l)) b = nth_error l (off + b).
Proof.
  revert off len b. induction l as [|a l IH]; intros off len b H.
  - rewrite skipn_nil, firstn_nil. destruct b, (off + _); reflexivity.
  - destruct off as [|off]; cbn [skipn].
    + destruct len as [|len]; [lia|]. cbn [firstn]. destruct b as [|b]; [reflexivity|]. cbn [nth_error Nat.add].
      specialize (IH 0 len b ltac:(lia)). exact IH.
    + rewrite IH by exact H. reflexivity.
Qed.
Lemma slice_piece o b a : b < snd o -> slice b (piece o a) = slice (fst o + b) a.
Proof. intros H. destruct a as [v|l]; [reflexivity|]. cbn. rewrite nth_error_firstn_skipn by exact H. reflexivity. Qed.
Definition value_at {O} (f : list A -> O) (args : list (arg A)) (b : nat) : O := f (flat_map (slice b) args).
Lemma vmap_piece {O} (f : list A -> O) o B args : good_args B args -> fst o + snd o <= B ->
  vmap_call (length args) f (map (piece o) args) = Ok (map (value_at f args) (seq (fst o) (snd o))).
Proof.
  intros G H. unfold vmap_call. rewrite map_length, Nat.eqb_refl. cbn [negb].
  destruct (batch_lengths_piece o B args G H) as (t & -> & ->). apply (f_equal Ok).
  assert (S1 : map (fun b => f (flat_map (slice b) (map (piece o) args))) (seq 0 (snd o)) =
               map (fun b => value_at f args (fst o + b)) (seq 0 (snd o))).
  { apply map_ext_in. intros b Hb. apply in_seq in Hb. unfold value_at. f_equal.
    rewrite flat_map_concat_map, map_map, <- flat_map_concat_map.
    rewrite !flat_map_concat_map. f_equal. apply map_ext. intros a. apply slice_piece. lia. }
  rewrite S1. rewrite <- (map_map (fun b => fst o + b) (value_at f args)). f_equal.
  assert (Q : forall n a s, map (fun b => a + b) (seq s n) = seq (a + s) n).
  { clear. induction n as [|n IH]; intros a s; [reflexivity|]. cbn. rewrite IH. f_equal. f_equal. lia. }
  rewrite Q. f_equal. lia.
Qed.
Lemma map_result_ok {C D} (f : C -> result D) (g : C -> D) l : (forall c, In c l -> f c = Ok (g c)) -> map_result f l = Ok (map g l).
Proof.
  induction l as [|c t IH]; intros H; [reflexivity|]. cbn. rewrite (H c (or_introl eq_refl)). cbn [bind].
  rewrite IH by (intros d Hd; apply H; right; exact Hd). reflexivity.
Qed.
Lemma offsets_bound off sizes o : In o (offsets off sizes) -> fst o + snd o <= off + total sizes.
Proof.
  revert off. induction sizes as [|s t IH]; intros off H; [destruct H|]. cbn in H. destruct H as [<-|H]; cbn; [lia|].
  specialize (IH _ H). lia.
Qed.
Lemma offsets_seq off sizes : concat (map (fun o => seq (fst o) (snd o)) (offsets off sizes)) = seq off (total sizes).
Proof.
  revert off. induction sizes as [|s t IH]; intros off; [reflexivity|]. cbn. rewrite IH, seq_app. reflexivity.
Qed.
(** vmap_reduce gives the reduction of the results of all elements of the batch *)
Lemma vmap_reduce_all {O} bk (f : list A -> O) (red : list O -> O) cs B args :
  (forall parts, parts <> [] -> Forall (fun p => p <> []) parts -> red (map red parts) = red (concat parts)) ->
  1 <= B -> ok_cs cs -> good_args B args ->
  vmap_reduce bk f red cs args = Ok (red (map (value_at f args) (seq 0 B))).
Proof.
  intros Hred HB Hcs G. unfold vmap_reduce. rewrite (chunk_input_ok bk cs B args HB Hcs G). cbn [bind].
  destruct (sizes_props bk B (cs_bound B cs) (n_chunks_of B cs) HB ltac:(destruct cs; cbn in *; lia) (n_chunks_ceil B cs HB)) as (T & N & F).
  set (sz := sizes_of bk (n_chunks_of B cs) B) in *. set (os := offsets 0 sz).
  set (F1 := fun c => bind (vmap_call (length args) f c) (fun r => Ok (red r))).
  assert (M : map_result F1 (map (fun o => map (piece o) args) os) = Ok (map (fun o => red (map (value_at f args) (seq (fst o) (snd o)))) os)).
  { assert (M1 : forall l, (forall o, In o l -> In o os) ->
      map_result F1 (map (fun o => map (piece o) args) l) = Ok (map (fun o => red (map (value_at f args) (seq (fst o) (snd o)))) l)).
    { induction l as [|o t IH]; intros Hl; [reflexivity|]. cbn [map map_result]. unfold F1 at 1.
      rewrite (vmap_piece f o B args G).
      - cbn [bind]. rewrite IH by (intros o' Ho'; apply Hl; right; exact Ho'). reflexivity.
      - assert (X := offsets_bound 0 sz o (Hl o (or_introl eq_refl))). rewrite T in X. lia. }
    apply M1. auto. }
  rewrite M. cbn [bind].
  assert (NE : os <> []).
  { intros E. assert (X : length os = n_chunks_of B cs) by (unfold os; rewrite offsets_length; exact N).
    rewrite E in X. rewrite (n_chunks_ceil B cs HB) in X. assert (P := ceil_pos B (cs_bound B cs) ltac:(destruct cs; cbn in *; lia) HB). cbn in X. lia. }
  assert (R1 : red (map (fun o => red (map (value_at f args) (seq (fst o) (snd o)))) os) = red (map (value_at f args) (seq 0 B))).
  { rewrite <- (map_map (fun o => map (value_at f args) (seq (fst o) (snd o))) red). rewrite Hred.
    - f_equal. rewrite <- T. rewrite <- offsets_seq, concat_map, map_map. reflexivity.
    - intros E. apply map_eq_nil in E. exact (NE E).
    - apply Forall_forall. intros p Hp. apply in_map_iff in Hp. destruct Hp as (o & <- & Ho).
      intros E. apply map_eq_nil in E.
      assert (Z : forall off l, Forall (fun k => 1 <= k <= cs_bound B cs) l -> In o (offsets off l) -> 1 <= snd o).
      { clear. intros off l; revert off. induction l as [|s t IH]; intros off Hf Ho; [destruct Ho|]. inversion Hf; subst.
        cbn in Ho. destruct Ho as [<-|Ho]; [cbn; lia|eauto]. }
      assert (Z1 := Z 0 sz F Ho). destruct (snd o); [lia|discriminate]. }
  rewrite <- R1. destruct os; [contradiction|]. reflexivity.
Qed.
(** what each call of the wrapped function sees *)
Lemma chunk_input_pieces bk cs B (args : list (arg A)) : 1 <= B -> ok_cs cs -> good_args B args ->
  exists chunks, chunk_input bk cs args = Ok chunks /\
    (forall k c, nth_error chunks k = Some c -> length c = length args /\ exists s, 1 <= s <= cs_bound B cs /\ good_args s c) /\
    (forall i l, nth_error args i = Some (Batched l) ->
       concat (map (fun c => match nth_error c i with Some (Batched p) => p | _ => [] end) chunks) = l) /\
    (forall i v k c, nth_error args i = Some (Shared v) -> nth_error chunks k = Some c -> nth_error c i = Some (Shared v)).
Proof.
  intros HB Hcs G. rewrite (chunk_input_ok bk cs B args HB Hcs G). eexists. split; [reflexivity|].
  destruct (sizes_props bk B (cs_bound B cs) (n_chunks_of B cs) HB ltac:(destruct cs; cbn in *; lia) (n_chunks_ceil B cs HB)) as (T & N & F).
  set (sz := sizes_of bk (n_chunks_of B cs) B) in *. set (os := offsets 0 sz). split; [|split].
  - intros k c Hk. apply nth_error_In in Hk. apply in_map_iff in Hk. destruct Hk as (o & <- & Ho).
    split; [apply map_length|]. exists (snd o).
    assert (Z : forall off l, Forall (fun k => 1 <= k <= cs_bound B cs) l -> In o (offsets off l) -> 1 <= snd o <= cs_bound B cs).
    { clear. intros off l; revert off. induction l as [|s t IH]; intros off Hf Ho; [destruct Ho|]. inversion Hf; subst.
      cbn in Ho. destruct Ho as [<-|Ho]; [cbn; lia|eauto]. }
    split; [apply (Z 0 sz F Ho)|]. destruct G as [[l Hl] G]. split.
    + exists (firstn (snd o) (skipn (fst o) l)). apply (in_map (piece o) args (Batched l) Hl).
    + intros m Hm. apply in_map_iff in Hm. destruct Hm as (b & Eb & Hb). destruct b as [v|m']; cbn in Eb; [discriminate|].
      injection Eb as <-. rewrite firstn_length, skipn_length, (G m' Hb).
      assert (X := offsets_bound 0 sz o Ho). rewrite T in X. lia.
  - intros i l Hi. rewrite map_map.
    assert (E : map (fun o => match nth_error (map (piece o) args) i with Some (Batched p) => p | _ => [] end) os =
                map (fun o => firstn (snd o) (skipn (fst o) l)) os).
    { apply map_ext. intros o. rewrite (map_nth_error (piece o) i args Hi). reflexivity. }
    rewrite E. unfold os. rewrite <- (split_offsets l sz 0). cbn [skipn].
    assert (L : length l = total sz) by (rewrite T; apply (proj2 G); eapply nth_error_In; exact Hi).
    clear - L. revert l L. induction sz as [|s t IH]; intros l L.
    + destruct l; [reflexivity|discriminate].
    + cbn. rewrite IH; [apply firstn_skipn|]. rewrite skipn_length. cbn in L. lia.
  - intros i v k c Hi Hk. apply nth_error_In in Hk. apply in_map_iff in Hk. destruct Hk as (o & <- & Ho).
    rewrite (map_nth_error (piece o) i args Hi). reflexivity.
Qed.
End Chunks.

(** ** rows: the arguments of the individual elements of the batch *)
Lemma is_row_slice {A} b (args : list (arg A)) row : is_row b args row -> flat_map (slice b) args = row.
Proof.
  intros H. induction H as [|a v args row Hav H IH]; [reflexivity|]. cbn [flat_map]. rewrite IH.
  destruct a as [u|l]; cbn in Hav |- *; [subst; reflexivity|]. rewrite Hav. reflexivity.
Qed.
Lemma rows_values {A O} (f : list A -> O) (args : list (arg A)) rows : is_rows args rows ->
  map (value_at f args) (seq 0 (length rows)) = map f rows.
Proof.
  intros H.
  assert (G : forall rows off, (forall b row, nth_error rows b = Some row -> is_row (off + b) args row) ->
    map (value_at f args) (seq off (length rows)) = map f rows).
  { clear. induction rows as [|r t IH]; intros off H; [reflexivity|]. cbn [length seq map]. f_equal.
    - unfold value_at. rewrite (is_row_slice off args r); [reflexivity|]. specialize (H 0 r eq_refl). rewrite Nat.add_0_r in H. exact H.
    - apply IH. intros b row Hb. specialize (H (S b) row Hb). rewrite Nat.add_succ_r in H. exact H. }
  apply G. intros b row Hb. apply H. exact Hb.
Qed.

(** ** sums *)
Lemma sum0_rsum l : sum0 l = rsum l.
Proof.
  unfold sum0. assert (H : forall l a, fold_left Rplus l a = (a + rsum l)%R).
  { clear. induction l as [|x l IH]; intros a; cbn; [unfold rsum; cbn; lra|]. rewrite IH. unfold rsum. cbn. lra. }
  rewrite H. lra.
Qed.
Lemma sum0_parts parts : sum0 (map sum0 parts) = sum0 (concat parts).
Proof.
  rewrite !sum0_rsum. induction parts as [|p t IH]; [reflexivity|]. cbn [map concat]. rewrite rsum_app, <- IH.
  change (rsum (sum0 p :: map sum0 t)) with (sum0 p + rsum (map sum0 t))%R. rewrite sum0_rsum. reflexivity.
Qed.
Lemma sum0_pair_parts parts : sum0_pair (map sum0_pair parts) = sum0_pair (concat parts).
Proof.
  unfold sum0_pair. rewrite !map_map. apply f_equal2.
  - rewrite concat_map, <- sum0_parts, map_map. reflexivity.
  - rewrite concat_map, <- sum0_parts, map_map. reflexivity.
Qed.
Lemma vmap_reduce_sum {A} bk (f : list A -> R) cs B args : 1 <= B -> ok_cs cs -> good_args B args ->
  vmap_reduce bk f sum0 cs args = Ok (rsum (map (value_at f args) (seq 0 B))).
Proof.
  intros HB Hcs G. rewrite (vmap_reduce_all bk f sum0 cs B args) by (try assumption; intros; apply sum0_parts).
  rewrite sum0_rsum. reflexivity.
Qed.

Lemma vmap_reduce_rows {A O} bk (f : list A -> O) (red : list O -> O) cs args rows :
  (forall parts, parts <> [] -> Forall (fun p => p <> []) parts -> red (map red parts) = red (concat parts)) ->
  rows <> [] -> ok_cs cs -> good_args (length rows) args -> is_rows args rows ->
  vmap_reduce bk f red cs args = Ok (red (map f rows)).
Proof.
  intros Hr HB Hcs G Hrows. rewrite (vmap_reduce_all bk f red cs (length rows) args) by (try assumption; destruct rows as [|r0 t0]; try contradiction; cbn; lia).
  rewrite rows_values by exact Hrows. reflexivity.
Qed.
Lemma vmap_reduce_sum_rows {A} bk (f : list A -> R) cs args rows : rows <> [] -> ok_cs cs -> good_args (length rows) args -> is_rows args rows ->
  vmap_reduce bk f sum0 cs args = Ok (fold_right Rplus 0%R (map f rows)).
Proof.
  intros HB Hcs G Hrows. rewrite (vmap_reduce_rows bk f sum0 cs args rows) by (try assumption; intros; apply sum0_parts).
  rewrite sum0_rsum. reflexivity.
Qed.

(** ** BatchedPlane equals the single plane holding one lens per batch element *)
Section BatchedPlane.
Variable lens : list R -> thin_lens.
Lemma good_xy B x y (ps : list (arg R)) : good_args B ps -> good_args B (Shared x :: Shared y :: ps).
Proof.
  intros [[l H] G]. split; [exists l; right; right; exact H|]. intros m [E|[E|Hm]]; try discriminate. apply G, Hm.
Qed.
Lemma rows_xy x y (ps : list (arg R)) rows : is_rows ps rows -> is_rows (Shared x :: Shared y :: ps) (map (fun r => x :: y :: r) rows).
Proof.
  intros H b row Hb. rewrite nth_error_map in Hb. destruct (nth_error rows b) as [r|] eqn:E; [|discriminate]. injection Hb as <-.
  constructor; [reflexivity|]. constructor; [reflexivity|]. apply H, E.
Qed.
Lemma batchedplane_singleplane bk cs x y ps rows : rows <> [] -> ok_cs cs -> good_args (length rows) ps -> is_rows ps rows ->
  bp_potential lens bk cs x y ps = Ok (singleplane_potential (map lens rows) x y) /\
  bp_convergence lens bk cs x y ps = Ok (singleplane_convergence (map lens rows) x y) /\
  bp_reduced_deflection_angle lens bk cs x y ps = Ok (singleplane_deflection (map lens rows) x y).
Proof.
  intros HB Hcs G Hr. destruct (singleplane_sums (map lens rows) x y) as (-> & -> & ->). rewrite !map_map.
  assert (NE : map (fun r => x :: y :: r) rows <> []) by (intros E; apply map_eq_nil in E; exact (HB E)).
  assert (G' : good_args (length (map (fun r => x :: y :: r) rows)) (Shared x :: Shared y :: ps)).
  { rewrite map_length. apply good_xy, G. }
  split; [|split].
  - unfold bp_potential. rewrite (vmap_reduce_sum_rows bk _ cs _ _ NE Hcs G' (rows_xy x y ps rows Hr)), map_map. reflexivity.
  - unfold bp_convergence. rewrite (vmap_reduce_sum_rows bk _ cs _ _ NE Hcs G' (rows_xy x y ps rows Hr)), map_map. reflexivity.
  - unfold bp_reduced_deflection_angle.
    rewrite (vmap_reduce_rows bk _ sum0_pair cs _ _ ltac:(intros; apply sum0_pair_parts) NE Hcs G' (rows_xy x y ps rows Hr)), map_map.
    unfold sum0_pair. rewrite !map_map, !sum0_rsum. reflexivity.
Qed.
End BatchedPlane.
