(** * The microlensing light curve as automatic differentiation sees it (sims/microlens.py)

    The draws and the field of view are plain numbers; the lens and the source are traced. *)
From Coq Require Import Reals Arith String.
From Verif Require Import Py Fsum Gauss_Model Micro_Model Ad_Model AdLens_Model AdSim_Model.
Local Open Scope R_scope.
Local Open Scope ad_scope.

(** backend.mean, backend.std (backend_obj.py:329-339).  The libraries differentiate the standard deviation with one rule; where it is not zero
    that rule is the chain rule of this formula (where it is zero torch gives 0 and jax NaN; nothing is claimed there). *)
Definition t_mean (n m : nat) (x : nat -> nat -> expr) : expr := t_fsum n (fun i => t_fsum m (x i)) / Cst (INR (n * m)).
Definition t_std (n m : nat) (x : nat -> nat -> expr) : expr := let mu := t_mean n m x in Sqrt (t_mean n m (fun i j => (x i j - mu) * (x i j - mu))).

Section Micro.
Variables (t_ray : expr -> expr -> expr * expr) (t_source : t_light).
Variables (rand_x rand_y : nat -> R).
(** microlens.py:60-120 *)
Definition t_microlens (fov : R * R * R * R) (method : string) (N_mcmc N_grid : nat) : result (expr * expr) :=
  let '(f0, f1, f2, f3) := fov in
  let lensed x y := let '(bx, by_) := t_ray (Cst x) (Cst y) in t_source bx by_ in
  if String.eqb method "mcmc" then
    let mu (i _ : nat) := lensed (rand_x i * (f1 - f0) + f0)%R (rand_y i * (f3 - f2) + f2)%R in
    let A := Cst ((f1 - f0) * (f3 - f2))%R in
    Ok (t_mean N_mcmc 1 mu * A, t_std N_mcmc 1 mu * A / Cst (sqrt (INR N_mcmc)))
  else if String.eqb method "grid" then
    let mu i j := lensed (linspace f0 f1 N_grid i) (linspace f2 f3 N_grid j) in
    let A := Cst ((f1 - f0) * (f3 - f2))%R in
    Ok (t_mean N_grid N_grid mu * A, t_std N_grid N_grid mu * A / Cst (INR N_grid))
  else Raise ValueError.
End Micro.
