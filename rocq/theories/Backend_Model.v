(** * The two array backends (model of src/caustics/backend_obj.py) and vmap_n (src/caustics/utils.py:1324-1368)
    Only adapters that do more than rename a call are modelled.  The torch and jax functions they call are modelled from their
    documentation: arrays are a shape and the entry at every index, lists where only one axis matters.  Sizes are natural numbers
    (torch also allows negative padding). *)
From Coq Require Import Bool Reals List Arith ZArith.
From Verif Require Import Py Fsum.
Import ListNotations.
Local Open Scope bool_scope.
Local Open Scope nat_scope.

Record arr := Arr { dims : list nat; entry : list nat -> R }.
Fixpoint set_nth {A} (k : nat) (v : A) (l : list A) : list A :=
  match l, k with [], _ => [] | _ :: t, O => v :: t | a :: t, S k' => a :: set_nth k' v t end.

(** torch.nn.functional.pad on one axis, constant mode *)
Definition pad_axis (k l r : nat) (a : arr) : arr :=
  Arr (set_nth k (l + nth k (dims a) 0 + r) (dims a))
      (fun idx => let i := nth k idx 0 in
         if (l <=? i) && (i <? l + nth k (dims a) 0) then entry a (set_nth k (i - l) idx) else 0%R).
(** the pairs of [padding] belong to the axes counted from the last one *)
Fixpoint torch_pad_axes (p : nat) (padding : list nat) (a : arr) : result arr :=
  match padding with
  | [] => Ok a
  | [_] => Raise RuntimeError
  | l :: r :: t => if length (dims a) <=? p then Raise RuntimeError else torch_pad_axes (S p) t (pad_axis (length (dims a) - 1 - p) l r a)
  end.
(** backend_obj.py:275-276 with mode="constant" *)
Definition pad_torch (a : arr) (padding : list nat) : result arr := torch_pad_axes 0 padding a.
(** jax.numpy.pad: all axes at a time, constant mode *)
Definition jnp_pad (a : arr) (pw : list (nat * nat)) : arr :=
  let axes := seq 0 (length (dims a)) in
  let lo := fun m => fst (nth m pw (0, 0)) in
  Arr (map (fun m => lo m + nth m (dims a) 0 + snd (nth m pw (0, 0))) axes)
      (fun idx => if forallb (fun m => (lo m <=? nth m idx 0) && (nth m idx 0 <? lo m + nth m (dims a) 0)) axes
                  then entry a (map (fun m => nth m idx 0 - lo m) axes) else 0%R).
(** backend_obj.py:278-295: the loop over range(0, len(padding), 2); p is i // 2, pad_width[-(p + 1)] is entry ndim - (p + 1) *)
Fixpoint pad_width_loop (ndim p : nat) (padding : list nat) (pad_width : list (nat * nat)) : result (list (nat * nat)) :=
  match padding with
  | [] => Ok pad_width
  | [_] => Raise IndexError
  | l :: r :: t => pad_width_loop ndim (S p) t (if p + 1 <=? ndim then set_nth (ndim - (p + 1)) (l, r) pad_width else pad_width)
  end.
Definition pad_jax (a : arr) (padding : list nat) : result arr :=
  bind (pad_width_loop (length (dims a)) 0 padding (repeat (0, 0) (length (dims a)))) (fun pw => Ok (jnp_pad a pw)).

(** flatten keeps the order of the entries; only the shape is modelled *)
Definition prod_dims (l : list nat) : nat := fold_right Nat.mul 1 l.
Definition wrap_dim (n : nat) (d : Z) : option nat :=
  if ((- Z.of_nat n <=? d) && (d <? Z.of_nat n))%Z then Some (Z.to_nat (d mod Z.of_nat n)) else None.
(** backend_obj.py:468-469: torch.Tensor.flatten; a 0-d tensor becomes one of length 1 *)
Definition flatten_torch (shape : list nat) (start_dim end_dim : Z) : result (list nat) :=
  match shape with
  | [] => match wrap_dim 1 start_dim, wrap_dim 1 end_dim with Some _, Some _ => Ok [1] | _, _ => Raise IndexError end
  | _ => match wrap_dim (length shape) start_dim, wrap_dim (length shape) end_dim with
         | Some s, Some e => if e <? s then Raise RuntimeError
                             else Ok (firstn s shape ++ [prod_dims (firstn (e + 1 - s) (skipn s shape))] ++ skipn (e + 1) shape)
         | _, _ => Raise IndexError
         end
  end.
(** Python slices shape[:k] and shape[k:] *)
Definition slice_at (n : nat) (k : Z) : nat := Z.to_nat (if (k <? 0)%Z then Z.max 0 (Z.of_nat n + k) else k).
(** reshape to a shape with one -1 between [pre] and [post] *)
Definition reshape_infer (total : nat) (pre post : list nat) : result (list nat) :=
  let known := prod_dims (pre ++ post) in
  if known =? 0 then Raise TypeError
  else if total mod known =? 0 then Ok (pre ++ [total / known] ++ post) else Raise TypeError.
(** backend_obj.py:471-475 *)
Definition flatten_jax (shape : list nat) (start_dim end_dim : Z) : result (list nat) :=
  match shape with
  | [] => Raise ZeroDivisionError
  | _ => let end_dim := ((end_dim mod Z.of_nat (length shape)) + 1)%Z in
         reshape_infer (prod_dims shape) (firstn (slice_at (length shape) start_dim) shape) (skipn (slice_at (length shape) end_dim) shape)
  end.

(** images of h rows and w columns *)
Record image := Image { rows : nat; cols : nat; pixel : nat -> nat -> R }.
Definition default_to (d : nat) (o : option nat) : nat := match o with Some s => s | None => d end.
(** backend_obj.py:502-508: torch avg_pool2d, zeros outside the image count *)
Definition avg_pool2d_torch (im : image) (kernel : nat) (stride : option nat) (padding : nat) : result image :=
  let s := default_to kernel stride in
  if (kernel =? 0) || (s =? 0) || (rows im + 2 * padding <? kernel) || (cols im + 2 * padding <? kernel) then Raise RuntimeError
  else
    let padded := fun i j => if (padding <=? i) && (i <? padding + rows im) && (padding <=? j) && (j <? padding + cols im)
                             then pixel im (i - padding) (j - padding) else 0%R in
    Ok (Image ((rows im + 2 * padding - kernel) / s + 1) ((cols im + 2 * padding - kernel) / s + 1)
          (fun i j => Rdiv (fsum kernel (fun a => fsum kernel (fun b => padded (i * s + a) (j * s + b)))) (INR kernel ^ 2))).
(** backend_obj.py:510-521: reduce_window with VALID padding: windows that fit; the padding argument is not used *)
Definition avg_pool2d_jax (im : image) (kernel : nat) (stride : option nat) (padding : nat) : result image :=
  let s := default_to kernel stride in
  if (kernel =? 0) || (s =? 0) then Raise ValueError
  else
    let count := fun n => if n <? kernel then 0 else (n - kernel) / s + 1 in
    Ok (Image (count (rows im)) (count (cols im))
          (fun i j => Rdiv (fsum kernel (fun a => fsum kernel (fun b => pixel im (i * s + a) (j * s + b)))) (INR kernel ^ 2))).
(** backend_obj.py:262-265, method "nearest": torch.nn.Upsample, divided by scale_factor**2 *)
Definition upsample2d_torch (im : image) (scale : nat) : image :=
  Image (rows im * scale) (cols im * scale) (fun i j => Rdiv (pixel im (i / scale) (j / scale)) (INR scale ^ 2)).
(** jax.image.resize, bilinear: triangle weights about the sample position, normalised over the image *)
Definition tri_weight (scale n i a : nat) : R :=
  let w := fun a => Rmax 0 (1 - Rabs ((INR i + 1 / 2) / INR scale - 1 / 2 - INR a))%R in (w a / fsum n w)%R.
(** backend_obj.py:267-273, methods "nearest" and "bilinear" *)
Definition upsample2d_jax (im : image) (scale : nat) : image :=
  Image (rows im * scale) (cols im * scale)
    (fun i j => fsum (rows im) (fun a => fsum (cols im) (fun b => (tri_weight scale (rows im) i a * tri_weight scale (cols im) j b * pixel im a b)%R))).

(** backend_obj.py:444-458 for a list of positions (torch and jax both take the last of several values for one position).
    Result: the array passed in, after the call, and the array returned *)
Definition fill (l : list R) (ivs : list (nat * R)) : list R := fold_left (fun acc iv => set_nth (fst iv) (snd iv) acc) ivs l.
Definition fill_at_indices_torch (l : list R) (ivs : list (nat * R)) : list R * list R := let l' := fill l ivs in (l', l').
Definition fill_at_indices_jax (l : list R) (ivs : list (nat * R)) : list R * list R := (l, fill l ivs).
(** torch: array[indices] += values reads all entries first; jax: .at[].add adds one value after the other *)
Definition add_at_indices_torch (l : list R) (ivs : list (nat * R)) : list R * list R :=
  let l' := fill l (map (fun iv => (fst iv, (nth (fst iv) l 0 + snd iv)%R)) ivs) in (l', l').
Definition add_at_indices_jax (l : list R) (ivs : list (nat * R)) : list R * list R :=
  (l, fold_left (fun acc iv => set_nth (fst iv) (nth (fst iv) acc 0 + snd iv)%R acc) ivs l).

(** ** vmap_n: an array with batch dimensions in front is a nested list *)
Inductive nest (A : Type) : Type := Leaf (a : A) | Node (l : list (nest A)).
Arguments Leaf {A} _.
Arguments Node {A} _.
Fixpoint map_ok {A B} (f : A -> result B) (l : list A) : result (list B) :=
  match l with [] => Ok [] | a :: t => bind (f a) (fun b => bind (map_ok f t) (fun r => Ok (b :: r))) end.
(** backend.vmap(f) with in_dims = out_dims = 0 for one argument; arrays without dimension raise *)
Definition vmap {A B} (f : nest A -> result (nest B)) (x : nest A) : result (nest B) :=
  match x with Leaf _ => Raise ValueError | Node l => bind (map_ok f l) (fun r => Ok (Node r)) end.
(** utils.py:1361-1368 *)
Definition vmap_n {A B} (func : nest A -> result (nest B)) (depth : nat) : result (nest A -> result (nest B)) :=
  if depth <? 1 then Raise ValueError
  else Ok (Nat.iter depth vmap func).
