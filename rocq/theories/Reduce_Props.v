(** * C13, C14: vmap_reduce and BatchedPlane *)
From Coq Require Import Reals List Lra Lia.
From Verif Require Import Py LensBase_Model Reduce_Model Reduce_Spec Reduce_Proofs.
Import ListNotations.
Local Open Scope nat_scope.

(** the result is the sum over the batch for both backends and every chunk size *)
Theorem C13_sum : forall A bk (func : list A -> R) chunk_size args rows,
  rows <> [] -> ok_cs chunk_size -> good_args (length rows) args -> is_rows args rows ->
  vmap_reduce bk func sum0 chunk_size args = Ok (fold_right Rplus 0%R (map func rows)).
Proof. exact @vmap_reduce_sum_rows. Qed.
Print Assumptions C13_sum.
(** and for any other reduction which may be applied in two stages *)
Theorem C13_reduce : forall A O bk (func : list A -> O) (reduce_func : list O -> O) chunk_size args rows,
  (forall parts, parts <> [] -> Forall (fun p => p <> []) parts -> reduce_func (map reduce_func parts) = reduce_func (concat parts)) ->
  rows <> [] -> ok_cs chunk_size -> good_args (length rows) args -> is_rows args rows ->
  vmap_reduce bk func reduce_func chunk_size args = Ok (reduce_func (map func rows)).
Proof. exact @vmap_reduce_rows. Qed.
Print Assumptions C13_reduce.
(** no chunk is empty or exceeds the chunk size; the chunks of each batched argument put together are that argument *)
Theorem C13_chunks : forall A bk chunk_size B (args : list (arg A)), 1 <= B -> ok_cs chunk_size -> good_args B args ->
  exists chunks, chunk_input bk chunk_size args = Ok chunks /\
    (forall k c, nth_error chunks k = Some c -> length c = length args /\
       exists s, 1 <= s <= (match chunk_size with None => B | Some c => c end) /\ good_args s c) /\
    (forall i l, nth_error args i = Some (Batched l) ->
       concat (map (fun c => match nth_error c i with Some (Batched p) => p | _ => [] end) chunks) = l) /\
    (forall i v k c, nth_error args i = Some (Shared v) -> nth_error chunks k = Some c -> nth_error c i = Some (Shared v)).
Proof. exact @chunk_input_pieces. Qed.
Print Assumptions C13_chunks.
(** ten elements in chunks of four with one shared argument; the sum may be taken in two stages *)
Example C13_hyps : let args := [Shared 7; Batched [0;1;2;3;4;5;6;7;8;9]] in
  let rows := [[7;0];[7;1];[7;2];[7;3];[7;4];[7;5];[7;6];[7;7];[7;8];[7;9]] in
  rows <> [] /\ ok_cs (Some 4) /\ good_args (length rows) args /\ is_rows args rows /\
  chunk_input Torch (Some 4) args = Ok [[Shared 7; Batched [0;1;2;3]]; [Shared 7; Batched [4;5;6;7]]; [Shared 7; Batched [8;9]]] /\
  chunk_input Jax (Some 4) args = Ok [[Shared 7; Batched [0;1;2;3]]; [Shared 7; Batched [4;5;6]]; [Shared 7; Batched [7;8;9]]] /\
  (forall parts, parts <> [] -> Forall (fun p => p <> []) parts -> sum0 (map sum0 parts) = sum0 (concat parts)).
Proof.
  cbv zeta. split; [discriminate|]. split; [cbn; lia|]. split.
  - split; [eexists; right; left; reflexivity|]. intros l [E|[E|[]]]; [discriminate|]. injection E as <-. reflexivity.
  - split; [|split; [reflexivity|]; split; [reflexivity|intros; apply sum0_parts]].
    intros b row H. do 10 (destruct b as [|b]; [injection H as <-; repeat constructor|]). destruct b; discriminate.
Qed.

Theorem C14_batchedplane : forall (lens : list R -> thin_lens) bk chunk_size x y params rows,
  rows <> [] -> ok_cs chunk_size -> good_args (length rows) params -> is_rows params rows ->
  bp_potential lens bk chunk_size x y params = Ok (singleplane_potential (map lens rows) x y) /\
  bp_convergence lens bk chunk_size x y params = Ok (singleplane_convergence (map lens rows) x y) /\
  bp_reduced_deflection_angle lens bk chunk_size x y params = Ok (singleplane_deflection (map lens rows) x y).
Proof. exact batchedplane_singleplane. Qed.
Print Assumptions C14_batchedplane.
(** three lenses differing in their second parameter, chunks of two *)
Example C14_hyps : let params := [Shared 1%R; Batched [2; 3; 4]%R] in let rows := [[1; 2]; [1; 3]; [1; 4]]%R in
  rows <> [] /\ ok_cs (Some 2) /\ good_args (length rows) params /\ is_rows params rows.
Proof.
  cbv zeta. split; [discriminate|]. split; [cbn; lia|]. split.
  - split; [eexists; right; left; reflexivity|]. intros l [E|[E|[]]]; [discriminate|]. injection E as <-. reflexivity.
  - intros b row H. do 3 (destruct b as [|b]; [injection H as <-; repeat constructor|]). destruct b; discriminate.
Qed.
