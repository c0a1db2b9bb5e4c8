(** * Vocabulary for the derivatives of a light curve *)
From Coq Require Import Reals Arith String.
From Verif Require Import Py Gauss_Model Micro_Model Ad_Model AdSim_Model.
Local Open Scope R_scope.

(** the two numbers that are returned *)
Definition flux_of (r : result (option R * option R)) : R := match r with Ok (Some v, _) => v | _ => 0 end.
Definition error_of (r : result (option R * option R)) : R := match r with Ok (_, Some s) => s | _ => 0 end.
(** [P] holds at every position that is sampled *)
Definition at_draws (rand_x rand_y : nat -> R) (fov : R * R * R * R) (method : string) (N_mcmc N_grid : nat) (P : R -> R -> Prop) : Prop :=
  let '(f0, f1, f2, f3) := fov in
  (method = "mcmc"%string -> forall i, (i < N_mcmc)%nat -> P (rand_x i * (f1 - f0) + f0) (rand_y i * (f3 - f2) + f2)) /\
  (method = "grid"%string -> forall i j, (i < N_grid)%nat -> (j < N_grid)%nat -> P (linspace f0 f1 N_grid i) (linspace f2 f3 N_grid j)).
(** the flux follows, and so does its error unless it is zero; or the same error is raised *)
Definition curve_follows (Rel : ((nat -> R) -> R) -> expr -> Prop) (a : nat -> R) (r : (nat -> R) -> result (option R * option R)) (t : result (expr * expr)) : Prop :=
  match t with
  | Ok (f, e) => (forall b, exists v s, r b = Ok (Some v, Some s)) /\ Rel (fun b => flux_of (r b)) f /\ (error_of (r a) <> 0 -> Rel (fun b => error_of (r b)) e)
  | Raise ex => forall b, r b = Raise ex
  end.
