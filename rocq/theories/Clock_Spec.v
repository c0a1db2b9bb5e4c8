(** * Measuring the Hubble constant with delays *)
From Coq Require Import Reals.
From Verif Require Import Cosmo_Model LensBase_Model.
Local Open Scope R_scope.

(** the comoving distances of a FlatLambdaCDM of Hubble constant h0, whatever its table *)
Definition universe (helper : R -> R) (Om0 h0 : R) : R -> R := fun z => comoving_distance_flat helper z h0 Om0.
(** by how much the light at P2 arrives after that at P1 *)
Definition lag (cd : R -> R) (lens : thin_lens) (z_s : R) (P1 P2 : R * R) : R := time_delay cd lens z_s (fst P2) (snd P2) true true - time_delay cd lens z_s (fst P1) (snd P1) true true.
(** the distances that enter exist in the universe of h0 = 1 *)
Definition seen_from (helper : R -> R) (Om0 zl zs : R) : Prop := angular_diameter_distance (universe helper Om0 1) zl <> 0 /\ angular_diameter_distance_z1z2 (universe helper Om0 1) zl zs <> 0.
