(** * C118: the derivatives of a microlensing light curve *)
From Coq Require Import Reals Lra Lia Arith List String.
From Coquelicot Require Import Coquelicot.
From Verif Require Import RealFun Py Gauss_Model LensBase_Model LensBasic_Model Micro_Model Ad_Model Ad_Spec Rev_Model Rev_Spec AdSim_Model AdSim_Spec AdMicro_Model AdMicro_Spec AdMicro_Proofs.
Import ListNotations.
Local Open Scope R_scope.

(** whatever the lens, the source and the draws: if the light of every sample is differentiated exactly, so is the flux, and so is its error estimate
    unless it is zero *)
Theorem C118_any_curve : forall (a : nat -> R) (seed : nat -> option R) (ray : (nat -> R) -> R -> R -> R * R) (t_ray : expr -> expr -> expr * expr)
  (src : (nat -> R) -> R -> R -> R) (t_src : t_light) (rand_x rand_y : nat -> R) (fov : R * R * R * R) (method : string) (N_mcmc N_grid : nat),
  N_mcmc <> 0%nat -> N_grid <> 0%nat ->
  at_draws rand_x rand_y fov method N_mcmc N_grid (fun x y =>
    ad_exact (fun b => let p := ray b x y in src b (fst p) (snd p)) (let p := t_ray (Cst x) (Cst y) in t_src (fst p) (snd p)) a seed) ->
  curve_follows (fun F t => ad_exact F t a seed) a (fun b => microlens (ray b) (src b) rand_x rand_y fov method N_mcmc N_grid)
    (t_microlens t_ray t_src rand_x rand_y fov method N_mcmc N_grid).
Proof. exact any_curve. Qed.
Print Assumptions C118_any_curve.
(** the same for backpropagation *)
Theorem C118_any_curve_backward : forall (a : nat -> R) (req : nat -> bool) (ray : (nat -> R) -> R -> R -> R * R) (t_ray : expr -> expr -> expr * expr)
  (src : (nat -> R) -> R -> R -> R) (t_src : t_light) (rand_x rand_y : nat -> R) (fov : R * R * R * R) (method : string) (N_mcmc N_grid : nat),
  N_mcmc <> 0%nat -> N_grid <> 0%nat ->
  at_draws rand_x rand_y fov method N_mcmc N_grid (fun x y =>
    both_ways (fun b => let p := ray b x y in src b (fst p) (snd p)) (let p := t_ray (Cst x) (Cst y) in t_src (fst p) (snd p)) a req) ->
  curve_follows (fun F t => grad_exact F t a req) a (fun b => microlens (ray b) (src b) rand_x rand_y fov method N_mcmc N_grid)
    (t_microlens t_ray t_src rand_x rand_y fov method N_mcmc N_grid).
Proof. exact any_curve_backward. Qed.
Print Assumptions C118_any_curve_backward.
(** An isothermal ellipsoid in front of a Sersic source: the derivative with respect to any parameter of the lens and of the source is exact, provided that
    no sample is at the centre of the unsoftened lens and no ray ends at the centre of the source *)
Theorem C118_sie_sersic : forall (a : nat -> R) (seed : nat -> option R) (req : nat -> bool) (k_mode : bool) (s s_src : R) (rand_x rand_y : nat -> R)
  (fov : R * R * R * R) (method : string) (N_mcmc N_grid : nat),
  N_mcmc <> 0%nat -> N_grid <> 0%nat -> 0 <= s -> 0 <= s_src -> 0 < a 4%nat <= 1 -> sersic_fine 7 a ->
  at_draws rand_x rand_y fov method N_mcmc N_grid (fun x y =>
    ((x <> a 2%nat \/ y <> a 3%nat) \/ 0 < s) /\ (let p := sie_lens s a x y in fst p <> a 7%nat \/ snd p <> a 8%nat)) ->
  let curve b := microlens (sie_lens s b) (sersic_light k_mode s_src 7 b) rand_x rand_y fov method N_mcmc N_grid in
  let program := t_microlens (t_sie_lens s) (t_sersic_light k_mode s_src 7) rand_x rand_y fov method N_mcmc N_grid in
  (a 4%nat < 1 \/ seed 4%nat = None -> curve_follows (fun F t => ad_exact F t a seed) a curve program) /\
  (a 4%nat < 1 \/ req 4%nat = false -> curve_follows (fun F t => grad_exact F t a req) a curve program).
Proof. exact sie_curve. Qed.
Print Assumptions C118_sie_sersic.
Example C118_hyps :
  (let a n := nth n [0; 0; 0; 0; 1 / 2; 0; 1 / 10; 100; 0; 1; 0; 1; 1; 1] 0 in
   0 < a 4%nat < 1 /\ sersic_fine 7 a /\
   at_draws (fun _ => 1 / 2) (fun _ => 1 / 2) (1, 2, 1, 2) "mcmc" 10 1 (fun x y => ((x <> a 2%nat \/ y <> a 3%nat) \/ 0 < 0) /\ (let p := sie_lens 0 a x y in fst p <> a 7%nat \/ snd p <> a 8%nat))) /\
  (let ray := fun (_ : nat -> R) x y => (x, y) in let src := fun (b : nat -> R) x (_ : R) => b 0%nat * x in forall a seed,
   at_draws INR INR (0, 1, 0, 1) "mcmc" 2 1 (fun x y => ad_exact (fun b => let p := ray b x y in src b (fst p) (snd p)) (let p := (Cst x, Cst y) in Mul (Var 0) (fst p)) a seed) /\
   (a 0%nat <> 0 -> error_of (microlens (ray a) (src a) INR INR (0, 1, 0, 1) "mcmc" 2 1) <> 0)).
Proof. exact curve_hyps. Qed.
