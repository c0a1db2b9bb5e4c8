(** * Keys that can be told apart *)
From Coq Require Import List.
From Verif Require Import Rng_Model.
Import ListNotations.

(** the key reached from [k] by splitting again and again, taking the second half where the path says true *)
Fixpoint node {K} (split : K -> K * K) (k : K) (path : list bool) : K :=
  match path with [] => k | b :: p => node split (if b then snd (split k) else fst (split k)) p end.
(** splitting never gives the same key twice *)
Definition never_repeats {K} (split : K -> K * K) (k : K) : Prop := forall p q, node split k p = node split k q -> p = q.
(** the argument key of a call *)
Definition key_of {K} (c : call K) : option K := match c with Rand _ k | Randn _ k | Randint _ k | MicrolensCall _ _ _ _ _ _ k | ClusterMeans _ _ k => k end.
