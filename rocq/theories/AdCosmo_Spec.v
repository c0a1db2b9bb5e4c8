(** * Vocabulary for the derivatives of distances *)
From Coq Require Import Reals.
From Coquelicot Require Import Coquelicot.
From Verif Require Import Cosmo_Model Interp1_Model CosmoTable_Model Ad_Model Ad_Spec Rev_Spec AdMulti_Spec AdCosmo_Model.
Local Open Scope R_scope.

(** either way of differentiating *)
Inductive mode := Forward (seed : nat -> option R) | Backward (req : nat -> bool).
Definition follows (m : mode) (a : nat -> R) : ((nat -> R) -> R) -> expr -> Prop := match m with Forward seed => followed a seed | Backward req => followed_back a req end.
Definition exactly (m : mode) (a : nat -> R) (F : (nat -> R) -> R) (t : expr) : Prop := match m with Forward seed => ad_exact F t a seed | Backward req => grad_exact F t a req end.
(** argument i is not differentiated *)
Definition still (m : mode) (i : nat) : Prop := match m with Forward seed => seed i = None | Backward req => req i = false end.

(** (Om0 / (1 - Om0))^(1/3), what the table is entered with at redshift 0 *)
Definition entry0 (Om0 : R) : R := Rpower (Om0 / (1 - Om0)) (1 / 3).
(** a flat universe of matter and dark energy whose distances up to redshift z are in the table *)
Definition tabulated (h0 Om0 z : R) : Prop := 0 < h0 /\ 0 < Om0 < 1 /\ / 1000 < entry0 Om0 /\ (1 + z) * entry0 Om0 <= 10.
(** H(z) / H(0) *)
Definition expansion (Om0 z : R) : R := sqrt (Om0 * (1 + z) ^ 3 + (1 - Om0)).
(** the comoving distance: the integral over the expansion rate *)
Definition true_distance (z h0 Om0 : R) : R := hubble_distance h0 * RInt (fun t => / expansion Om0 t) 0 z.
