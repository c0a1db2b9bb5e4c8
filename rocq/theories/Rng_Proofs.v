(** * Proofs for C150: random numbers *)
From Coq Require Import Reals List String Lia FinFun.
From Verif Require Import Py Micro_Model Cluster_Model Rng_Model Rng_Spec.
Import ListNotations.
Local Open Scope string_scope.

Section Jax.
Variables (K : Type) (split : K -> K * K) (uniform normal : K -> nat -> nat -> R) (randint : K -> nat -> nat) (argmax argmin : list R -> nat).
Notation do := (do_jax K split uniform normal randint argmax argmin).
Notation run := (run_jax K split uniform normal randint argmax argmin).

Lemma keyed c s k : key_of c = Some k -> snd (do c s) = s /\ forall s', fst (do c s') = fst (do c s).
Proof.
  intros H. destruct c as [n ky|n ky|h ky|rt br fov m nm ng ky|xs n ky]; cbn [key_of] in H; subst ky; cbn; try (split; [reflexivity|intros; reflexivity]).
  unfold microlens_jax. destruct (String.eqb m "mcmc"); [|split; [reflexivity|intros; reflexivity]]. destruct (split k) as [a b]. cbn. split; [reflexivity|intros; reflexivity].
Qed.
Variable k0 : K.
Lemma node_snoc k p b : node split k (p ++ [b]) = if b then snd (split (node split k p)) else fst (split (node split k p)).
Proof. revert k. induction p as [|c p IH]; intros k; [reflexivity|]. cbn [app node]. apply IH. Qed.
Definition falses (n : nat) : list bool := repeat false n.
Lemma falses_S n : falses (S n) = (falses n ++ [false])%list.
Proof. unfold falses. induction n as [|n IH]; [reflexivity|]. cbn [repeat app] in *. rewrite <- IH. reflexivity. Qed.
Lemma falses_true i n : (falses i ++ [true])%list <> falses n.
Proof. intros E. assert (H : In true (falses n)) by (rewrite <- E; apply in_or_app; right; left; reflexivity). apply repeat_spec in H. discriminate. Qed.
Lemma falses_inj i j : (falses i ++ [true])%list = (falses j ++ [true])%list -> i = j.
Proof. intros E. apply (f_equal (@List.length bool)) in E. rewrite !app_length in E. unfold falses in E. rewrite !repeat_length in E. cbn in E. lia. Qed.
(** the state after [n] draws without a key *)
Definition inv (n : nat) (s : state K) : Prop := key s = node split k0 (falses n) /\ own s = rev (map (fun i => node split k0 (falses i ++ [true])) (seq 0 n)).
Lemma take_none n s : inv n s -> exists s', take K split None s = (node split k0 (falses n ++ [true]), s') /\ inv (S n) s'.
Proof.
  intros [A B]. unfold take. rewrite A. destruct (split (node split k0 (falses n))) as [a b] eqn:E. eexists. split; [rewrite node_snoc, E; reflexivity|]. split; cbn [key own].
  - rewrite falses_S, node_snoc, E. reflexivity.
  - rewrite seq_S, map_app, rev_app_distr. cbn [map rev app plus]. rewrite B. f_equal. rewrite node_snoc, E. reflexivity.
Qed.
Lemma do_inv c n s : inv n s -> exists n', (n <= n')%nat /\ inv n' (snd (do c s)).
Proof.
  intros H. destruct (key_of c) as [k|] eqn:Ek; [exists n; split; [lia|]; rewrite (proj1 (keyed c s k Ek)); exact H|].
  destruct (take_none n s H) as (s1 & T1 & I1). destruct (take_none (S n) s1 I1) as (s2 & T2 & I2).
  destruct c as [m ky|m ky|h ky|rt br fov m nm ng ky|xs m ky]; cbn [key_of] in Ek; subst ky; cbn [do_jax]; unfold rand_jax, randn_jax, cluster_jax, randint_jax, microlens_jax.
  - rewrite T1. exists (S n). split; [lia|exact I1].
  - rewrite T1. exists (S n). split; [lia|exact I1].
  - rewrite T1. exists (S n). split; [lia|exact I1].
  - destruct (String.eqb m "mcmc"); [|exists n; split; [lia|exact H]]. unfold rand_jax. rewrite T1, T2. exists (S (S n)). split; [lia|exact I2].
  - rewrite T1. exists (S n). split; [lia|exact I1].
Qed.
Lemma run_inv p n s : inv n s -> exists n', (n <= n')%nat /\ inv n' (snd (run p s)).
Proof.
  revert n s. induction p as [|c p IH]; intros n s H; [exists n; split; [lia|exact H]|]. cbn [run_jax]. destruct (do_inv c n s H) as (m & L & I). destruct (do c s) as [a s1]. cbn [snd] in I.
  destruct (IH m s1 I) as (m' & L' & I'). destruct (run p s1) as [l s2]. cbn [snd] in *. exists m'. split; [lia|exact I'].
Qed.
Lemma inv_start : inv 0 {| key := k0; own := [] |}.
Proof. split; reflexivity. Qed.
Hypothesis NR : never_repeats split k0.
Lemma inv_fresh n s : inv n s -> NoDup (own s) /\ ~ In (key s) (own s).
Proof.
  intros [A B]. rewrite A, B. split.
  - apply NoDup_rev. apply FinFun.Injective_map_NoDup; [|apply seq_NoDup]. intros i j E. apply falses_inj. exact (NR _ _ E).
  - intros I. apply in_rev in I. apply in_map_iff in I as (i & E & _). exact (falses_true _ _ (NR _ _ E)).
Qed.
Lemma fresh p : let s := snd (run p {| key := k0; own := [] |}) in NoDup (own s) /\ ~ In (key s) (own s).
Proof. destruct (run_inv p 0 _ inv_start) as (n & _ & I). exact (inv_fresh n _ I). Qed.
Lemma axes p rt br fov nm ng : let s := snd (run p {| key := k0; own := [] |}) in exists kx ky, kx <> ky /\ ~ In kx (own s) /\ ~ In ky (own s) /\
  own (snd (do (MicrolensCall rt br fov "mcmc" nm ng None) s)) = ky :: kx :: own s /\ fst (do (MicrolensCall rt br fov "mcmc" nm ng None) s) = Flux (microlens rt br (uniform kx nm) (uniform ky nm) fov "mcmc" nm ng).
Proof.
  intros s. destruct (run_inv p 0 _ inv_start) as (n & _ & I). fold s in I. destruct (take_none n s I) as (s1 & T1 & I1). destruct (take_none (S n) s1 I1) as (s2 & T2 & I2).
  exists (node split k0 (falses n ++ [true])), (node split k0 (falses (S n) ++ [true])).
  assert (O : own s2 = node split k0 (falses (S n) ++ [true]) :: node split k0 (falses n ++ [true]) :: own s).
  { destruct I as [_ B]. destruct I2 as [_ B2]. rewrite B2, B. rewrite seq_S, map_app, rev_app_distr, seq_S, map_app, rev_app_distr. reflexivity. }
  destruct (inv_fresh _ _ I2) as [ND _]. rewrite O in ND. inversion ND as [|? ? N1 ND1]. inversion ND1 as [|? ? N2 _]. subst.
  split; [intros E; apply N1; left; exact E|]. split; [exact N2|]. split; [intros J; apply N1; right; exact J|].
  unfold do_jax, microlens_jax, rand_jax. cbn [String.eqb Ascii.eqb Bool.eqb]. rewrite T1, T2. split; [exact O|reflexivity].
Qed.
End Jax.
Lemma keyed_flux K split uniform normal randint argmax argmin rt br fov nm ng k s :
  do_jax K split uniform normal randint argmax argmin (MicrolensCall rt br fov "mcmc" nm ng (Some k)) s = (Flux (microlens rt br (uniform (fst (split k)) nm) (uniform (snd (split k)) nm) fov "mcmc" nm ng), s).
Proof. unfold do_jax, microlens_jax. cbn [String.eqb Ascii.eqb Bool.eqb]. destruct (split k) as [a b]. reflexivity. Qed.
Lemma grid_flux K split uniform normal randint argmax argmin rt br fov m nm ng k s : m <> "mcmc" ->
  do_jax K split uniform normal randint argmax argmin (MicrolensCall rt br fov m nm ng k) s = (Flux (microlens rt br (fun _ => 0%R) (fun _ => 0%R) fov m nm ng), s).
Proof. intros H. unfold do_jax, microlens_jax. destruct (String.eqb_spec m "mcmc"); [contradiction|reflexivity]. Qed.
Lemma torch_key G K next rt br fov m nm ng (k : option K) (g : G) : fst (microlens_torch G K next rt br fov m nm ng k g) = Raise NotImplementedError <-> m = "mcmc" /\ k <> None.
Proof.
  unfold microlens_torch. destruct (String.eqb_spec m "mcmc") as [->|N].
  - destruct k as [k|]; cbn [fst]; [split; [intros _; split; [reflexivity|discriminate]|reflexivity]|]. unfold rand_torch. destruct (next g nm) as [rx g1]. destruct (next g1 nm) as [ry g2]. cbn [fst].
    split; [|intros [_ H]; contradiction]. intros E. destruct fov as [[[f0 f1] f2] f3]. discriminate E.
  - cbn [fst]. split; [|intros [H _]; contradiction]. intros E. exfalso. unfold microlens in E. destruct fov as [[[f0 f1] f2] f3]. destruct (String.eqb m "mcmc"); [discriminate|]. destruct (String.eqb m "grid"); discriminate.
Qed.
