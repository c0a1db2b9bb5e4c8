(** * A simulated image is differentiated exactly when its samples are *)
From Coq Require Import Reals Lra Lia Arith ZArith List Bool String FunctionalExtensionality.
From Coquelicot Require Import Coquelicot.
From Verif Require Import Py Fsum RealFun Derive1 Geo_Model Quad_Model Dft_Model PixConv_Model Sim_Model Sim_Proofs Ad_Model Ad_Spec Ad_Proofs AdLens_Model AdEpl_Model Rev_Model Rev_Spec Rev_Proofs AdSim_Model AdSim_Spec.
Import ListNotations.
Local Open Scope R_scope.

Notation env := (nat -> R).
Section Rel.
Variable Rel : (env -> R) -> expr -> Prop.
Variable a : env.
Hypothesis rel_ext : forall f g e, (forall b, f b = g b) -> Rel f e -> Rel g e.
Hypothesis rel_cst : forall r, Rel (fun _ => r) (Cst r).
Hypothesis rel_add : forall f g d e, Rel f d -> Rel g e -> Rel (fun b => f b + g b) (Add d e).
Hypothesis rel_sub : forall f g d e, Rel f d -> Rel g e -> Rel (fun b => f b - g b) (Sub d e).
Hypothesis rel_mul : forall f g d e, Rel f d -> Rel g e -> Rel (fun b => f b * g b) (Mul d e).
Hypothesis rel_div : forall f g d e, Rel f d -> Rel g e -> g a <> 0 -> Rel (fun b => f b / g b) (Div d e).
Hypothesis rel_neg : forall f d, Rel f d -> Rel (fun b => - f b) (Neg d).

Lemma rel_fsum n (F : env -> nat -> R) T : (forall i, (i < n)%nat -> Rel (fun b => F b i) (T i)) -> Rel (fun b => fsum n (F b)) (t_fsum n T).
Proof.
  induction n as [|n IH]; intros H; cbn [fsum t_fsum]; [apply rel_cst|].
  apply (rel_add (fun b => fsum n (F b)) (fun b => F b n)); [apply IH; intros i Hi; apply H; lia|apply H; lia].
Qed.
Definition RelC (F : env -> C) (c : cexpr) : Prop := Rel (fun b => fst (F b)) (fst c) /\ Rel (fun b => snd (F b)) (snd c).
Lemma relc_cst r i : RelC (fun _ => (r, i)) (Cst r, Cst i).
Proof. split; apply rel_cst. Qed.
Lemma relc_add F G c d : RelC F c -> RelC G d -> RelC (fun b => Cplus (F b) (G b)) (t_cadd c d).
Proof. intros [A B] [A' B']. split; [apply (rel_add _ _ _ _ A A')|apply (rel_add _ _ _ _ B B')]. Qed.
Lemma relc_mul F G c d : RelC F c -> RelC G d -> RelC (fun b => Cmult (F b) (G b)) (t_cmul c d).
Proof.
  intros [A B] [A' B']. split; cbn [Cmult fst snd t_cmul].
  - apply (rel_sub _ _ _ _ (rel_mul _ _ _ _ A A') (rel_mul _ _ _ _ B B')).
  - apply (rel_add _ _ _ _ (rel_mul _ _ _ _ A B') (rel_mul _ _ _ _ B A')).
Qed.
Lemma relc_conj F c : RelC F c -> RelC (fun b => Cconj (F b)) (t_conj c).
Proof. intros [A B]. split; [exact A|apply (rel_neg _ _ B)]. Qed.
Lemma relc_csum n (F : env -> nat -> C) T : (forall i, (i < n)%nat -> RelC (fun b => F b i) (T i)) -> RelC (fun b => csum n (F b)) (t_ccsum n T).
Proof.
  induction n as [|n IH]; intros H; cbn [csum t_ccsum]; [apply relc_cst|].
  apply (relc_add (fun b => csum n (F b)) (fun b => F b n)); [apply IH; intros i Hi; apply H; lia|apply H; lia].
Qed.
Lemma relc_dft N (F : env -> nat -> C) T k : (forall i, RelC (fun b => F b i) (T i)) -> RelC (fun b => dft N (F b) k) (t_dft N T k).
Proof. intros H. unfold dft, t_dft. apply (relc_csum N (fun b x => Cmult (F b x) _)). intros i _. apply (relc_mul (fun b => F b i)); [apply H|apply relc_cst]. Qed.
Lemma relc_idft N (F : env -> nat -> C) T k : (forall i, RelC (fun b => F b i) (T i)) -> RelC (fun b => idft N (F b) k) (t_idft N T k).
Proof.
  intros H. unfold idft, t_idft. apply (relc_mul (fun b => RtoC (/ INR N))); [apply relc_cst|]. apply (relc_csum N (fun b x => Cmult (F b x) _)).
  intros i _. apply (relc_mul (fun b => F b i)); [apply H|apply relc_cst].
Qed.
Lemma relc_rfft2 h w (x : env -> nat -> nat -> R) T s0 s1 k l : (forall i j, Rel (fun b => x b i j) (T i j)) -> RelC (fun b => rfft2 h w (x b) s0 s1 k l) (t_rfft2 h w T s0 s1 k l).
Proof.
  intros H. unfold rfft2, t_rfft2, dft2. apply (relc_dft s0 (fun b i => dft s1 _ l)). intros i. apply (relc_dft s1 (fun b j => RtoC (zero_pad h w (x b) i j))). intros j.
  split; cbn [RtoC fst snd]; [|apply rel_cst]. unfold zero_pad, t_zero_pad. destruct (_ && _)%bool; [apply H|apply rel_cst].
Qed.
Lemma rel_irfft2 (Y : env -> nat -> nat -> C) T s0 s1 p q : (forall k l, RelC (fun b => Y b k l) (T k l)) -> Rel (fun b => irfft2 (Y b) s0 s1 p q) (t_irfft2 T s0 s1 p q).
Proof.
  intros H. unfold irfft2, t_irfft2. apply (relc_idft s0 (fun b k => idft s1 (hermitian s0 s1 (Y b) k) q)). intros k.
  apply (relc_idft s1 (fun b l => hermitian s0 s1 (Y b) k l)). intros l. unfold hermitian, t_hermitian. destruct (Nat.leb _ _); [apply H|].
  apply (relc_conj (fun b => Y b _ _)). apply H.
Qed.
Lemma rel_conv2d H W (im : env -> nat -> nat -> R) T h w (we : env -> nat -> nat -> R) U p q : (forall i j, Rel (fun b => im b i j) (T i j)) -> (forall i j, (i < h)%nat -> (j < w)%nat -> Rel (fun b => we b i j) (U i j)) ->
  Rel (fun b => conv2d_same H W (im b) h w (we b) p q) (t_conv2d_same H W T h w U p q).
Proof.
  intros HI HW. unfold conv2d_same, t_conv2d_same. apply (rel_fsum h (fun b x => fsum w _)). intros i Hi. apply (rel_fsum w (fun b y => _ * we b i y)). intros j Hj.
  apply (rel_mul (fun b => at_Z H W (im b) _ _)); [|apply HW; assumption]. unfold at_Z, t_at_Z. destruct (_ && _)%bool; [apply HI|apply rel_cst].
Qed.

Lemma nth_map_seq {A} (g : nat -> A) N n d : nth n (map g (seq 0 N)) d = if Nat.ltb n N then g n else d.
Proof.
  destruct (Nat.ltb_spec n N) as [L|L]; [|apply nth_overflow; rewrite map_length, seq_length; exact L].
  rewrite (nth_indep _ d (g (0 + 0)%nat)) by (rewrite map_length, seq_length; exact L). rewrite (map_nth g), seq_nth by exact L. reflexivity.
Qed.
Lemma in_flat h w q n : (n < h * w * q)%nat -> (n / (w * q) < h)%nat /\ ((n / q) mod w < w)%nat /\ (n mod q < q)%nat.
Proof.
  intros L. assert (q <> 0)%nat by (intros ->; lia). assert (w <> 0)%nat by (intros ->; lia).
  split; [apply Nat.div_lt_upper_bound; lia|split; apply Nat.mod_upper_bound; assumption].
Qed.

(** ** the calls *)
Variables (ray : env -> R -> R -> R * R) (t_ray : expr -> expr -> expr * expr) (S : sim) (X0 Y0 : env -> R) (x0 y0 : expr).
Notation all_samples := (samples_follow Rel ray t_ray S X0 Y0 x0 y0).
Lemma rel_integrate (G : env -> R * R -> R) (T : expr * expr -> expr) :
  at_samples S (fun gx gy => Rel (fun b => G b (gx + X0 b, gy + Y0 b)) (T (Add (Cst gx) x0, Add (Cst gy) y0))) ->
  forall i j, Rel (fun b => integrate S (map (G b) (points S (X0 b) (Y0 b))) i j) (t_integrate S (map T (t_points S x0 y0)) i j).
Proof.
  intros H i j. unfold integrate, t_integrate, unflat.
  apply (rel_fsum _ (fun b k => nth _ (map (G b) (points S (X0 b) (Y0 b))) 0 * weights (bld S) k)). intros k Hk.
  apply (rel_mul (fun b => nth _ (map (G b) (points S (X0 b) (Y0 b))) 0)); [|apply rel_cst].
  set (n := (_ + k)%nat). unfold points, t_points, flat. rewrite !map_map.
  eapply rel_ext; [intros b; symmetry; rewrite map_map; apply nth_map_seq|]. rewrite nth_map_seq.
  destruct (Nat.ltb_spec n (snd (n_pix (bld S)) * fst (n_pix (bld S)) * depth (bld S))) as [L|L]; [|apply rel_cst].
  destruct (in_flat _ _ _ _ L) as (A & B & C'). apply H; assumption.
Qed.
Notation follows := (image_follows Rel).
Variables (src ll : option (env -> R -> R -> R)) (tsrc tll : option t_light) (so lo le : bool) (chunk : option nat).
Hypothesis CH : chunk <> Some 0%nat.
Notation paired := (light_follows Rel ray t_ray S X0 Y0 x0 y0).
Hypothesis HS : paired src tsrc so le.
Hypothesis HL : paired ll tll lo false.
Lemma rel_scene : exists mu tmu, t_scene t_ray S tsrc tll x0 y0 so lo le chunk = Ok tmu /\ (forall b, scene (ray b) S (at_env src b) (at_env ll b) (X0 b) (Y0 b) so lo le chunk = Ok (mu b)) /\
  forall i j, Rel (fun b => mu b i j) (tmu i j).
Proof.
  unfold t_scene, scene.
  assert (M : exists mu tmu, (match tsrc with
        | Some f => if so then
            if le then
              bind (vmap chunk (fun p => t_ray (fst p) (snd p)) (t_points S x0 y0)) (fun b =>
              bind (vmap chunk (fun p => f (fst p) (snd p)) b) (fun mu_fine => Ok (t_integrate S mu_fine)))
            else bind (vmap chunk (fun p => f (fst p) (snd p)) (t_points S x0 y0)) (fun mu_fine => Ok (t_integrate S mu_fine))
          else Ok (fun _ _ => Cst 0)
        | None => Ok (fun _ _ => Cst 0) end) = Ok tmu /\
     (forall b, (match at_env src b with
        | Some f => if so then
            if le then
              bind (vmap chunk (fun p => ray b (fst p) (snd p)) (points S (X0 b) (Y0 b))) (fun b =>
              bind (vmap chunk (fun p => f (fst p) (snd p)) b) (fun mu_fine => Ok (integrate S mu_fine)))
            else bind (vmap chunk (fun p => f (fst p) (snd p)) (points S (X0 b) (Y0 b))) (fun mu_fine => Ok (integrate S mu_fine))
          else Ok (fun _ _ => 0)
        | None => Ok (fun _ _ => 0) end) = Ok (mu b)) /\ forall i j, Rel (fun b => mu b i j) (tmu i j)).
  { unfold light_follows in HS. destruct src as [f|], tsrc as [t|]; try contradiction; cbn [at_env].
    - destruct so.
      + specialize (HS eq_refl). destruct le.
        * rewrite !vmap_val by exact CH. cbn [bind]. rewrite !vmap_val by exact CH. cbn [bind]. rewrite map_map.
          exists (fun b => integrate S (map (fun p => f b (fst (ray b (fst p) (snd p))) (snd (ray b (fst p) (snd p)))) (points S (X0 b) (Y0 b)))).
          eexists. split; [reflexivity|]. split.
          { intros b. rewrite !vmap_val by exact CH. cbn [bind]. rewrite vmap_val by exact CH. cbn [bind]. rewrite map_map. reflexivity. }
          apply (rel_integrate (fun b p => f b (fst (ray b (fst p) (snd p))) (snd (ray b (fst p) (snd p)))) (fun p => t (fst (t_ray (fst p) (snd p))) (snd (t_ray (fst p) (snd p))))). exact HS.
        * rewrite !vmap_val by exact CH. cbn [bind].
          exists (fun b => integrate S (map (fun p => f b (fst p) (snd p)) (points S (X0 b) (Y0 b)))).
          eexists. split; [reflexivity|]. split; [intros b; rewrite vmap_val by exact CH; reflexivity|].
          apply (rel_integrate (fun b p => f b (fst p) (snd p)) (fun p => t (fst p) (snd p))). exact HS.
      + exists (fun _ _ _ => 0), (fun _ _ => Cst 0). repeat split. intros. apply rel_cst.
    - exists (fun _ _ _ => 0), (fun _ _ => Cst 0). repeat split. intros. apply rel_cst. }
  destruct M as (mu & tmu & E1 & E2 & E3). rewrite E1. cbn [bind].
  unfold light_follows in HL. destruct ll as [f|], tll as [t|]; try contradiction; cbn [at_env].
  - destruct lo; [|exists mu, tmu; split; [reflexivity|split; [|exact E3]]; intros b; specialize (E2 b); cbn [at_env] in E2; rewrite E2; reflexivity].
    specialize (HL eq_refl). rewrite !vmap_val by exact CH. cbn [bind].
    exists (fun b i j => mu b i j + integrate S (map (fun p => f b (fst p) (snd p)) (points S (X0 b) (Y0 b))) i j). eexists. split; [reflexivity|]. split.
    { intros b. specialize (E2 b); cbn [at_env] in E2; rewrite E2. cbn [bind]. rewrite vmap_val by exact CH. reflexivity. }
    intros i j. apply (rel_add (fun b => mu b i j)); [apply E3|].
    apply (rel_integrate (fun b p => f b (fst p) (snd p)) (fun p => t (fst p) (snd p))). exact HL.
  - exists mu, tmu. split; [reflexivity|split; [|exact E3]]. intros b; specialize (E2 b); cbn [at_env] in E2; rewrite E2; reflexivity.
Qed.
Variables (kr kc : nat) (psf : env -> nat -> nat -> R) (tpsf : nat -> nat -> expr) (conv : bool).
Hypothesis HP : psf_follows Rel a kr kc psf tpsf conv.
Lemma rel_convolve (mu : env -> nat -> nat -> R) tmu : (forall i j, Rel (fun b => mu b i j) (tmu i j)) ->
  let T := t_convolve S kr kc tpsf conv tmu in let I b := convolve S kr kc (psf b) conv (mu b) in
  (forall b, rows (I b) = t_rows T /\ cols (I b) = t_cols T) /\ forall i j, Rel (fun b => at_ (I b) i j) (t_at T i j).
Proof.
  intros H. cbv zeta. unfold t_convolve, convolve. destruct (conv && negb (Nat.eqb kr 1 && Nat.eqb kc 1))%bool eqn:EC; [|split; [split; reflexivity|exact H]].
  apply andb_true_iff in EC as [EC1 EC2]. destruct HP as [HQ HZ]; [exact EC1| |].
  { apply negb_true_iff, andb_false_iff in EC2 as [K|K]; apply Nat.eqb_neq in K; auto. }
  assert (SUM : Rel (fun b => psf_sum kr kc (psf b)) (t_psf_sum kr kc tpsf)).
  { unfold psf_sum, t_psf_sum. apply (rel_fsum kr (fun b u => fsum kc (psf b u))). intros u Hu. apply (rel_fsum kc (fun b v => psf b u v)). intros v Hv. apply HQ; assumption. }
  destruct (String.eqb (psf_mode (cfg S)) "fft").
  - destruct (fft_s (bld S)) as [s0 s1]. cbn [rows cols at_ t_rows t_cols t_at]. split; [split; reflexivity|]. intros i j.
    apply (rel_irfft2 (fun b k l => Cmult (rfft2 _ _ (mu b) s0 s1 k l) (rfft2 kr kc (fun i0 j0 => psf b i0 j0 / psf_sum kr kc (psf b)) s0 s1 k l))).
    intros k l. apply (relc_mul (fun b => rfft2 _ _ (mu b) s0 s1 k l)); [apply relc_rfft2, H|].
    (* outside the kernel the padding is used *)
    unfold rfft2, t_rfft2, dft2. apply (relc_dft s0 (fun b i => dft s1 _ l)). intros u. apply (relc_dft s1 (fun b v => RtoC (zero_pad kr kc (fun i0 j0 => psf b i0 j0 / psf_sum kr kc (psf b)) u v))). intros v.
    split; cbn [RtoC fst snd]; [|apply rel_cst]. unfold zero_pad, t_zero_pad. destruct (Nat.ltb_spec u kr), (Nat.ltb_spec v kc); cbn [andb]; try apply rel_cst.
    apply (rel_div (fun b => psf b u v)); [apply HQ; assumption|exact SUM|exact HZ].
  - destruct (String.eqb (psf_mode (cfg S)) "conv2d"); [|split; [split; reflexivity|exact H]].
    cbn [rows cols at_ t_rows t_cols t_at]. split; [split; reflexivity|]. intros i j.
    apply (rel_conv2d _ _ mu tmu kr kc (fun b i0 j0 => flip_hw kr kc (psf b) i0 j0 / psf_sum kr kc (psf b))); [exact H|]. intros u v Hu Hv. unfold flip_hw.
    apply (rel_div (fun b => psf b (kr - 1 - u)%nat (kc - 1 - v)%nat)); [apply HQ; lia|exact SUM|exact HZ].
Qed.
Lemma rel_native (I : env -> image) T : (forall b, rows (I b) = t_rows T /\ cols (I b) = t_cols T) -> (forall i j, Rel (fun b => at_ (I b) i j) (t_at T i j)) ->
  follows (fun b => native S (I b)) (t_native S T).
Proof.
  intros HR H. unfold native, t_native, avg_pool2d, t_avg_pool2d. cbn [rows cols at_ t_rows t_cols t_at]. set (up := upsample_factor (cfg S)).
  destruct (Nat.eqb_spec (slice_len (t_rows T) (snd (psf_pad (bld S))) (pixels_y (cfg S) * up + snd (psf_pad (bld S))) / up) 0) as [Z|Z]; cbn [orb image_follows];
    [intros b; destruct (HR b) as [-> ->]; rewrite Z; reflexivity|].
  destruct (Nat.eqb_spec (slice_len (t_cols T) (fst (psf_pad (bld S))) (pixels_x (cfg S) * up + fst (psf_pad (bld S))) / up) 0) as [Z'|Z']; cbn [orb image_follows];
    [intros b; destruct (HR b) as [-> ->]; rewrite Z', orb_true_r; reflexivity|].
  assert (UP : up <> 0%nat) by (intros E; apply Z; rewrite E; reflexivity).
  split.
  - intros b. destruct (HR b) as [-> ->]. apply Nat.eqb_neq in Z, Z'. rewrite Z, Z'. cbn [orb]. eexists. split; [reflexivity|]. split; reflexivity.
  - intros i j. cbn [t_at].
    apply (rel_ext (fun b => fsum up (fun u => fsum up (fun v => at_ (I b) (slice_start (t_rows T) (snd (psf_pad (bld S))) + (i * up + u))%nat (slice_start (t_cols T) (fst (psf_pad (bld S))) + (j * up + v))%nat)) / INR (up * up))).
    { intros b. destruct (HR b) as [-> ->]. apply Nat.eqb_neq in Z, Z'. rewrite Z, Z'. reflexivity. }
    apply (rel_div (fun b => fsum up _) (fun _ => INR (up * up))); [|apply rel_cst|apply not_0_INR; lia].
    apply (rel_fsum up (fun b u => fsum up (fun v => at_ (I b) _ (slice_start (t_cols T) (fst (psf_pad (bld S))) + (j * up + v))%nat))). intros u _.
    apply (rel_fsum up (fun b v => at_ (I b) _ _)). intros v _. apply H.
Qed.
Lemma rel_call : follows (fun b => call (ray b) S (at_env src b) (at_env ll b) kr kc (psf b) (X0 b) (Y0 b) so lo le conv chunk) (t_call t_ray S tsrc tll kr kc tpsf x0 y0 so lo le conv chunk).
Proof.
  destruct rel_scene as (mu & tmu & E1 & E2 & E3). unfold t_call. rewrite E1. cbn [bind]. destruct (rel_convolve mu tmu E3) as [R1 R2].
  pose proof (rel_native (fun b => convolve S kr kc (psf b) conv (mu b)) _ R1 R2) as N.
  replace (fun b => call (ray b) S (at_env src b) (at_env ll b) kr kc (psf b) (X0 b) (Y0 b) so lo le conv chunk) with (fun b => native S (convolve S kr kc (psf b) conv (mu b))); [exact N|].
  apply functional_extensionality. intros b. unfold call. rewrite E2. reflexivity.
Qed.
End Rel.
