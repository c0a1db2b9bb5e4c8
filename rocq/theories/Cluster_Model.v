(** * cluster_means (model of src/caustics/utils.py:1486-1529) *)
From Coq Require Import Reals List Arith.
From Verif Require Import Py.
Import ListNotations.
Local Open Scope R_scope.

Definition point := list R.
(** utils.py:1515-1517: squared distance of two points *)
Definition d2 (p q : point) : R := fold_right Rplus 0 (map (fun ab => (fst ab - snd ab) ^ 2) (combine p q)).

Section Cluster.
(** position of a largest / smallest element of a list; which one among equals is left open *)
Variables argmax argmin : list R -> nat.
(** backend.randint(high=b): any index below b (1506) *)
Variable first : nat.

(** utils.py:1511: the points whose position is not in mean_idxs *)
Definition unselected (xs : list point) (mean_idxs : list nat) : list point :=
  map snd (filter (fun ix => negb (existsb (Nat.eqb (fst ix)) mean_idxs)) (enumerate xs)).
(** utils.py:1515-1522 *)
Definition d2_closest (means : list point) (x : point) : R :=
  let d2s := map (d2 x) means in nth (argmin d2s) d2s 0.
(** utils.py:1509-1527: one pass through the loop; backend.stack of an empty list raises *)
Definition cluster_pass (xs : list point) (st : list nat * list point) : result (list nat * list point) :=
  let '(mean_idxs, means) := st in
  match unselected xs mean_idxs with
  | [] => Raise RuntimeError
  | _ =>
    let un := unselected xs mean_idxs in
    let new_idx := argmax (map (d2_closest means) un) in
    Ok (mean_idxs ++ [new_idx], means ++ [nth new_idx un []])
  end.
Fixpoint cluster_loop (n : nat) (xs : list point) (st : list nat * list point) : result (list nat * list point) :=
  match n with
  | O => Ok st
  | S n' => bind (cluster_pass xs st) (cluster_loop n' xs)
  end.
(** utils.py:1504-1508, 1529 *)
Definition cluster_means (xs : list point) (k : nat) : result (list point) :=
  match xs with
  | [] => Raise RuntimeError
  | _ => bind (cluster_loop (k - 1) xs ([first], [nth first xs []])) (fun st => Ok (snd st))
  end.
End Cluster.
