(** * vmap_reduce and BatchedPlane
    (model of src/caustics/utils.py:1371-1483, src/caustics/backend_obj.py:596-600,
    src/caustics/lenses/batchedplane.py) *)
From Coq Require Import Reals List Arith.
From Verif Require Import Py LensBase_Model.
Import ListNotations.
Local Open Scope nat_scope.

(** one positional argument of the wrapped function: [in_dims] entry None (shared by the whole batch)
    or a batch dimension (the list of its slices along that dimension) *)
Inductive arg (A : Type) : Type :=
| Shared : A -> arg A
| Batched : list A -> arg A.
Arguments Shared {A} _.
Arguments Batched {A} _.

(** math.ceil(a / b) for b > 0; the floating point division is idealised *)
Definition ceil_div (a b : nat) : nat := (a + b - 1) / b.

(** backend_obj.py:596-597: torch.chunk(array, chunks): pieces of length ceil(len/chunks), the last one shorter;
    possibly fewer than [chunks] pieces *)
Fixpoint split_by {A} (fuel size : nat) (l : list A) : list (list A) :=
  match fuel, l with
  | _, [] => []
  | O, _ => []
  | S fuel', _ => firstn size l :: split_by fuel' size (skipn size l)
  end.
Definition chunk_torch {A} (chunks : nat) (l : list A) : list (list A) :=
  split_by (length l) (ceil_div (length l) chunks) l.

(** backend_obj.py:599-600: numpy array_split(array, chunks): the first len mod chunks pieces are one longer *)
Fixpoint split_lens {A} (sizes : list nat) (l : list A) : list (list A) :=
  match sizes with
  | [] => []
  | s :: t => firstn s l :: split_lens t (skipn s l)
  end.
Definition chunk_jax {A} (chunks : nat) (l : list A) : list (list A) :=
  let each := length l / chunks in
  let extras := length l mod chunks in
  split_lens (repeat (S each) extras ++ repeat each (chunks - extras)) l.

Inductive backend := Torch | Jax.
Definition chunk {A} (bk : backend) : nat -> list A -> list (list A) :=
  match bk with Torch => chunk_torch | Jax => chunk_jax end.

Section Chunks.
Context {A : Type}.
(** utils.py:1376-1379: size of the first batched argument *)
Fixpoint batch_size (args : list (arg A)) : result nat :=
  match args with
  | [] => Raise IndexError
  | Shared _ :: t => batch_size t
  | Batched l :: _ => Ok (length l)
  end.
(** utils.py:1389-1390: for j, subchunk in enumerate(subchunking): chunks[j].append(subchunk) *)
Fixpoint append_each (subs : list (arg A)) (chunks : list (list (arg A))) : result (list (list (arg A))) :=
  match subs, chunks with
  | [], _ => Ok chunks
  | _ :: _, [] => Raise IndexError
  | s :: subs', c :: chunks' => bind (append_each subs' chunks') (fun r => Ok ((c ++ [s]) :: r))
  end.
(** utils.py:1371-1390, the tuple form of in_dims (the dict form 1391-1410 does the same with keys for positions) *)
Definition chunk_input (bk : backend) (chunk_size : option nat) (args : list (arg A)) : result (list (list (arg A))) :=
  bind (match chunk_size with
        | None => Ok 1
        | Some c => bind (batch_size args) (fun B => if Nat.eqb c 0 then Raise ZeroDivisionError else Ok (ceil_div B c))
        end)
  (fun n_chunks =>
    for_loop (fun a chunks =>
      append_each (match a with
                   | Shared v => repeat (Shared v) n_chunks
                   | Batched l => map Batched (chunk bk n_chunks l)
                   end) chunks) args (repeat [] n_chunks)).

(** slice b of an argument *)
Definition slice (b : nat) (a : arg A) : list A :=
  match a with
  | Shared v => [v]
  | Batched l => match nth_error l b with Some v => [v] | None => [] end
  end.
Definition batch_lengths (args : list (arg A)) : list nat :=
  flat_map (fun a => match a with Shared _ => [] | Batched l => [length l] end) args.
(** backend.vmap(func, in_dims)( *chunk ): wrong number of arguments, no batched argument or unequal batch sizes raise *)
Definition vmap_call {O} (n_in : nat) (func : list A -> O) (args : list (arg A)) : result (list O) :=
  if negb (Nat.eqb (length args) n_in) then Raise ValueError
  else match batch_lengths args with
       | [] => Raise ValueError
       | B :: t => if forallb (Nat.eqb B) t then Ok (map (fun b => func (flat_map (slice b) args)) (seq 0 B)) else Raise ValueError
       end.
(** [f(c) for c in l] where f may raise *)
Fixpoint map_result {C D} (f : C -> result D) (l : list C) : result (list D) :=
  match l with
  | [] => Ok []
  | c :: t => bind (f c) (fun d => bind (map_result f t) (fun r => Ok (d :: r)))
  end.
(** utils.py:1413-1483; backend.stack of an empty tuple raises *)
Definition vmap_reduce {O} (bk : backend) (func : list A -> O) (reduce_func : list O -> O) (chunk_size : option nat)
    (args : list (arg A)) : result O :=
  bind (chunk_input bk chunk_size args) (fun chunks =>
  bind (map_result (fun c => bind (vmap_call (length args) func c) (fun r => Ok (reduce_func r))) chunks) (fun out =>
  match out with [] => Raise RuntimeError | _ => Ok (reduce_func out) end)).
End Chunks.

(** backend.sum(x, dim=0) and the pair of sums of batchedplane.py:101 *)
Definition sum0 (l : list R) : R := fold_left Rplus l 0%R.
Definition sum0_pair (l : list (R * R)) : R * R := (sum0 (map fst l), sum0 (map snd l)).

(** lenses/batchedplane.py:61-184: a lens whose parameters are passed as a list, the batch of parameters and a query point.
    The methods of the wrapped lens are called with x, y and the remaining arguments *)
Section BatchedPlane.
Variable lens : list R -> thin_lens.
Definition with_xy {O} (m : thin_lens -> R -> R -> O) (args : list R) : option O :=
  match args with x :: y :: params => Some (m (lens params) x y) | _ => None end.
(** None (args[0] or args[1] missing) cannot happen: vmap passes as many arguments as in_dims has entries *)
Definition arg_or {O} (d : O) (o : option O) : O := match o with Some v => v | None => d end.
Definition bp_reduced_deflection_angle bk chunk_size (x y : R) (lens_params : list (arg R)) : result (R * R) :=
  vmap_reduce bk (fun a => arg_or (0, 0)%R (with_xy reduced_deflection_angle a)) sum0_pair chunk_size (Shared x :: Shared y :: lens_params).
Definition bp_convergence bk chunk_size (x y : R) (lens_params : list (arg R)) : result R :=
  vmap_reduce bk (fun a => arg_or 0%R (with_xy convergence a)) sum0 chunk_size (Shared x :: Shared y :: lens_params).
Definition bp_potential bk chunk_size (x y : R) (lens_params : list (arg R)) : result R :=
  vmap_reduce bk (fun a => arg_or 0%R (with_xy potential a)) sum0 chunk_size (Shared x :: Shared y :: lens_params).
End BatchedPlane.
