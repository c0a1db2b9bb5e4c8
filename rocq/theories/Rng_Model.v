(** * Model of the random numbers of both backends and of the functions that use them (backend_obj.py, sims/microlens.py, utils.py) *)
From Coq Require Import Reals List String.
From Verif Require Import Py Micro_Model Cluster_Model.
Import ListNotations.
Local Open Scope string_scope.
Local Open Scope R_scope.

(** a call of the library that may need random numbers; [key] is the argument key *)
Inductive call (K : Type) :=
| Rand (n : nat) (key : option K)
| Randn (n : nat) (key : option K)
| Randint (high : nat) (key : option K)
| MicrolensCall (raytrace : R -> R -> R * R) (brightness : R -> R -> R) (fov : R * R * R * R) (method : string) (N_mcmc N_grid : nat) (key : option K)
| ClusterMeans (xs : list point) (k : nat) (key : option K).
Arguments Rand {K}. Arguments Randn {K}. Arguments Randint {K}. Arguments MicrolensCall {K}. Arguments ClusterMeans {K}.
Inductive answer := Array (x : nat -> R) | Index (i : nat) | Flux (r : result (option R * option R)) | Means (r : result (list point)).

Section Jax.
(** jax.random: keys, split, and what uniform, normal and randint make of a key (of an array only its size is kept) *)
Variables (K : Type) (split : K -> K * K) (uniform normal : K -> nat -> nat -> R) (randint : K -> nat -> nat).
Variables argmax argmin : list R -> nat.
(** [key] is self.key (backend_obj.py:162); [own] records which keys were used up by calls without a key: it is not in the code and nothing depends on it *)
Record state := { key : K; own : list K }.
(** backend_obj.py:527-528, 539-540, 553-554: the key of one draw *)
Definition take (k : option K) (s : state) : K * state :=
  match k with
  | None => let '(new, used) := split (key s) in (used, {| key := new; own := used :: own s |})
  | Some k => (k, s)
  end.
(** backend_obj.py:526-533 *)
Definition rand_jax (n : nat) (k : option K) (s : state) : (nat -> R) * state := let '(u, s) := take k s in (uniform u n, s).
(** backend_obj.py:538-545 *)
Definition randn_jax (n : nat) (k : option K) (s : state) : (nat -> R) * state := let '(u, s) := take k s in (normal u n, s).
(** backend_obj.py:552-557 with size=() and low=0 *)
Definition randint_jax (high : nat) (k : option K) (s : state) : nat * state := let '(u, s) := take k s in (randint u high, s).
(** microlens.py:97-120; only the method "mcmc" draws *)
Definition microlens_jax (raytrace : R -> R -> R * R) (brightness : R -> R -> R) fov (method : string) (N_mcmc N_grid : nat) (k : option K) (s : state) : result (option R * option R) * state :=
  if String.eqb method "mcmc" then
    let '(key_x, key_y) := match k with Some k => let '(a, b) := split k in (Some a, Some b) | None => (None, None) end in
    let '(rx, s) := rand_jax N_mcmc key_x s in
    let '(ry, s) := rand_jax N_mcmc key_y s in
    (microlens raytrace brightness rx ry fov method N_mcmc N_grid, s)
  else (microlens raytrace brightness (fun _ => 0) (fun _ => 0) fov method N_mcmc N_grid, s).
(** utils.py:1486-1529 *)
Definition cluster_jax (xs : list point) (k : nat) (ky : option K) (s : state) : result (list point) * state :=
  let '(first, s) := randint_jax (List.length xs) ky s in (cluster_means argmax argmin first xs k, s).
Definition do_jax (c : call K) (s : state) : answer * state :=
  match c with
  | Rand n k => let '(x, s) := rand_jax n k s in (Array x, s)
  | Randn n k => let '(x, s) := randn_jax n k s in (Array x, s)
  | Randint h k => let '(i, s) := randint_jax h k s in (Index i, s)
  | MicrolensCall rt br fov m nm ng k => let '(r, s) := microlens_jax rt br fov m nm ng k s in (Flux r, s)
  | ClusterMeans xs k ky => let '(r, s) := cluster_jax xs k ky s in (Means r, s)
  end.
Fixpoint run_jax (p : list (call K)) (s : state) : list answer * state :=
  match p with
  | [] => ([], s)
  | c :: p => let '(a, s) := do_jax c s in let '(l, s) := run_jax p s in (a :: l, s)
  end.
End Jax.
Arguments key {K}. Arguments own {K}.

Section Torch.
(** torch's global generator: its state and what the next rand makes of it *)
Variables (G K : Type) (next : G -> nat -> (nat -> R) * G).
(** backend_obj.py:523-524: the key is ignored *)
Definition rand_torch (n : nat) (k : option K) (g : G) : (nat -> R) * G := next g n.
(** microlens.py:97-120 with backend_obj.py:559-562: split_key raises *)
Definition microlens_torch (raytrace : R -> R -> R * R) (brightness : R -> R -> R) fov (method : string) (N_mcmc N_grid : nat) (k : option K) (g : G) : result (option R * option R) * G :=
  if String.eqb method "mcmc" then
    match k with
    | Some _ => (Raise NotImplementedError, g)
    | None => let '(rx, g) := rand_torch N_mcmc None g in let '(ry, g) := rand_torch N_mcmc None g in (microlens raytrace brightness rx ry fov method N_mcmc N_grid, g)
    end
  else (microlens raytrace brightness (fun _ => 0) (fun _ => 0) fov method N_mcmc N_grid, g).
End Torch.
