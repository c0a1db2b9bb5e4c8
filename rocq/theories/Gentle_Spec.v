(** * How much weak lenses on several planes can do to the light together *)
From Coq Require Import Reals List Sorting.
From Verif Require Import Tri_Spec LensBase_Model First_Spec Single_Spec.
Import ListNotations.
Local Open Scope R_scope.

(** the deflection changes by at most [k] times the displacement *)
Definition gentle (k : R) (t : thin_lens) : Prop :=
  0 <= k /\ forall x y x' y', distance (reduced_deflection_angle t x y) (reduced_deflection_angle t x' y') <= k * distance (x, y) (x', y').
(** all planes together: the product of the 1 + k, less one *)
Definition build_up (ks : list R) : R := fold_right Rmult 1 (map (fun k => 1 + k) ks) - 1.
(** lenses listed by redshift in front of the source, in a cosmology in which distances grow *)
Definition in_front (cd : R -> R) (z_s : R) (lenses : list thin_lens) : Prop :=
  lenses <> [] /\ StronglySorted Rle (map z_l lenses) /\ (forall t, In t lenses -> 0 <= z_l t < z_s) /\ (forall t, In t lenses -> 0 < cd (z_l t)) /\
  (forall a b, 0 <= a -> a < b -> b <= z_s -> cd a < cd b) /\ 1 + z_s <> 0.
(** a plane with the pieces of [First_Spec] in it *)
Definition plane_of (P : R * list piece) : thin_lens := singleplane (fst P) (map (lens_of (fst P)) (snd P)).
Definition strengths (ps : list (R * list piece)) : list R := map (fun P => total_strength (snd P)) ps.
Definition all_ordinary (ps : list (R * list piece)) : Prop := forall P p, In P ps -> In p (snd P) -> ordinary p /\ diffuse p.
