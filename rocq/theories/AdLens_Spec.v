(** * Vocabulary for the automatic Jacobians of the lens models *)
From Coq Require Import Reals List ZArith.
From Coquelicot Require Import Coquelicot.
From Verif Require Import Multipole_Model Ad_Model.
Local Open Scope R_scope.

(** r is not exactly at 1 or at one of the two bounds of the clamps *)
Definition clear_of_1 (b r : R) : Prop := r <> 1 /\ r <> 1 - b /\ r <> 1 + b.
(** the multipole orders [ms]; amplitude and angle of the k-th are the arguments 4 + 2 k and 5 + 2 k *)
Definition mode_args (ms : list Z) : list (Z * expr * expr) := map (fun '(k, m) => (m, Var (4 + 2 * k), Var (5 + 2 * k))) (combine (seq 0 (length ms)) ms).
Definition mode_vals (ms : list Z) (a : nat -> R) : list order := map (fun '(k, m) => (m, a (4 + 2 * k)%nat, a (5 + 2 * k)%nat)) (combine (seq 0 (length ms)) ms).
Definition all_nan (J : (num * num) * (num * num)) : Prop := J = ((NaN, NaN), (NaN, NaN)).
(** the partial derivatives at (x0, y0) exist and make up K times the identity *)
Definition isotropic_at (F : R -> R -> R * R) (x0 y0 K : R) : Prop :=
  is_derive (fun u => fst (F u y0)) x0 K /\ is_derive (fun w => fst (F x0 w)) y0 0 /\
  is_derive (fun u => snd (F u y0)) x0 0 /\ is_derive (fun w => snd (F x0 w)) y0 K.
