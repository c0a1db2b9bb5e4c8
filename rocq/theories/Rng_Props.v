(** * C150: random numbers are reproducible with a key and never repeat without *)
From Coq Require Import Reals List String.
From Verif Require Import Py Micro_Model Cluster_Model Rng_Model Rng_Spec Rng_Proofs.
Import ListNotations.
Local Open Scope string_scope.

(** With jax, whatever was called before, with and without keys: the keys used up by calls without a key are all different, and the one kept for later is none of them. *)
Theorem C150_fresh : forall K split uniform normal randint argmax argmin (k0 : K), never_repeats split k0 -> forall p,
  let s := snd (run_jax K split uniform normal randint argmax argmin p {| key := k0; own := [] |}) in NoDup (own s) /\ ~ In (key s) (own s).
Proof. exact fresh. Qed.
Print Assumptions C150_fresh.
(** Microlens without a key draws x and y with two different keys, neither used before; *)
Theorem C150_axes : forall K split uniform normal randint argmax argmin (k0 : K), never_repeats split k0 -> forall p rt br fov nm ng,
  let s := snd (run_jax K split uniform normal randint argmax argmin p {| key := k0; own := [] |}) in exists kx ky, kx <> ky /\ ~ In kx (own s) /\ ~ In ky (own s) /\
  own (snd (do_jax K split uniform normal randint argmax argmin (MicrolensCall rt br fov "mcmc" nm ng None) s)) = ky :: kx :: own s /\
  fst (do_jax K split uniform normal randint argmax argmin (MicrolensCall rt br fov "mcmc" nm ng None) s) = Flux (microlens rt br (uniform kx nm) (uniform ky nm) fov "mcmc" nm ng).
Proof. exact axes. Qed.
Print Assumptions C150_axes.
(** with a key it draws them with the two halves of that key; *)
Theorem C150_key : forall K split uniform normal randint argmax argmin rt br fov nm ng (k : K) s,
  do_jax K split uniform normal randint argmax argmin (MicrolensCall rt br fov "mcmc" nm ng (Some k)) s = (Flux (microlens rt br (uniform (fst (split k)) nm) (uniform (snd (split k)) nm) fov "mcmc" nm ng), s).
Proof. exact keyed_flux. Qed.
Print Assumptions C150_key.
(** and with another method than "mcmc" it draws nothing. *)
Theorem C150_grid : forall K split uniform normal randint argmax argmin rt br fov m nm ng (k : option K) s, m <> "mcmc" ->
  do_jax K split uniform normal randint argmax argmin (MicrolensCall rt br fov m nm ng k) s = (Flux (microlens rt br (fun _ => 0%R) (fun _ => 0%R) fov m nm ng), s).
Proof. exact grid_flux. Qed.
Print Assumptions C150_grid.
(** A call with a key gives the same whatever happened before, and changes nothing for later calls. *)
Theorem C150_reproducible : forall K split uniform normal randint argmax argmin (c : call K) s k, key_of c = Some k ->
  snd (do_jax K split uniform normal randint argmax argmin c s) = s /\ forall s', fst (do_jax K split uniform normal randint argmax argmin c s') = fst (do_jax K split uniform normal randint argmax argmin c s).
Proof. exact keyed. Qed.
Print Assumptions C150_reproducible.
(** With torch, Microlens raises NotImplementedError exactly when it gets a key and would use it. *)
Theorem C150_torch : forall G K next rt br fov m nm ng (k : option K) (g : G), fst (microlens_torch G K next rt br fov m nm ng k g) = Raise NotImplementedError <-> m = "mcmc" /\ k <> None.
Proof. exact torch_key. Qed.
Print Assumptions C150_torch.

(** The hypotheses can be met: keys that remember how they were made; after one draw and one simulation three keys are used up. *)
Example C150_hyps : let split := fun k : list bool => ((k ++ [false])%list, (k ++ [true])%list) in never_repeats split [] /\
  own (snd (run_jax (list bool) split (fun _ _ _ => 0%R) (fun _ _ _ => 0%R) (fun _ _ => 0) (fun _ => 0) (fun _ => 0) [Rand 5 None; Randn 3 (Some [true]); MicrolensCall (fun x y => (x, y)) (fun x y => x) (0, 1, 0, 1)%R "mcmc" 10 10 None] {| key := []; own := [] |}))
  = [[false; false; true]; [false; true]; [true]].
Proof.
  cbv zeta. split; [|reflexivity]. assert (E : forall p k, node (fun k : list bool => ((k ++ [false])%list, (k ++ [true])%list)) k p = (k ++ p)%list).
  { induction p as [|b p IH]; intros k; [symmetry; apply app_nil_r|]. cbn [node]. rewrite IH. destruct b; cbn [fst snd]; rewrite <- app_assoc; reflexivity. }
  intros p q H. rewrite !E in H. exact H.
Qed.
