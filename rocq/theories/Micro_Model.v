(** * Microlens (model of src/caustics/sims/microlens.py) *)
From Coq Require Import Reals Arith String.
From Verif Require Import Py Fsum Gauss_Model.
Local Open Scope R_scope.

(** backend.mean and backend.std (backend_obj.py:329-339, torch with correction=0, jax with its default ddof=0) of an array of shape (n, m);
    NaN when it is empty *)
Definition mean (n m : nat) (x : nat -> nat -> R) : option R := if Nat.eqb (n * m) 0 then None else Some (fsum n (fun i => fsum m (x i)) / INR (n * m)).
Definition std (n m : nat) (x : nat -> nat -> R) : option R :=
  match mean n m x with None => None | Some mu => option_map sqrt (mean n m (fun i j => (x i j - mu) ^ 2)) end.

Section Micro.
Variables (raytrace : R -> R -> R * R) (brightness : R -> R -> R).
(** the two draws of backend.rand *)
Variables (rand_x rand_y : nat -> R).
(** microlens.py:60-120; fov = (x_min, x_max, y_min, y_max); NaN as None *)
Definition microlens (fov : R * R * R * R) (method : string) (N_mcmc N_grid : nat) : result (option R * option R) :=
  let '(f0, f1, f2, f3) := fov in
  let lensed x y := let '(bx, by_) := raytrace x y in brightness bx by_ in
  if String.eqb method "mcmc" then
    let sample_x i := rand_x i * (f1 - f0) + f0 in
    let sample_y i := rand_y i * (f3 - f2) + f2 in
    let mu (i _ : nat) := lensed (sample_x i) (sample_y i) in
    let A := (f1 - f0) * (f3 - f2) in
    Ok (option_map (fun m => m * A) (mean N_mcmc 1 mu), option_map (fun s => s * A / sqrt (INR N_mcmc)) (std N_mcmc 1 mu))
  else if String.eqb method "grid" then
    let x := linspace f0 f1 N_grid in
    let y := linspace f2 f3 N_grid in
    let mu i j := lensed (x i) (y j) in
    let A := (f1 - f0) * (f3 - f2) in
    Ok (option_map (fun m => m * A) (mean N_grid N_grid mu), option_map (fun s => s * A / INR N_grid) (std N_grid N_grid mu))
  else Raise ValueError.
End Micro.
