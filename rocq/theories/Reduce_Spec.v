(** * What the caller of vmap_reduce passes: shared and batched arguments *)
From Coq Require Import List.
From Verif Require Import Reduce_Model.
Import ListNotations.
Local Open Scope nat_scope.

(** at least one argument is batched and all batched arguments have batch size B *)
Definition good_args {A} (B : nat) (args : list (arg A)) : Prop :=
  (exists l, In (Batched l) args) /\ forall l, In (Batched l) args -> length l = B.
(** chunk_size is None or at least 1 *)
Definition ok_cs (cs : option nat) : Prop := match cs with None => True | Some c => 1 <= c end.
(** row = the arguments of element b of the batch *)
Definition is_row {A} (b : nat) (args : list (arg A)) (row : list A) : Prop :=
  Forall2 (fun a v => match a with Shared u => v = u | Batched l => nth_error l b = Some v end) args row.
Definition is_rows {A} (args : list (arg A)) (rows : list (list A)) : Prop :=
  forall b row, nth_error rows b = Some row -> is_row b args row.
