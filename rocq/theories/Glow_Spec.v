(** * All the images of a source and the centre of their light *)
From Coq Require Import Reals List.
From Verif Require Import LensBase_Model.
Local Open Scope R_scope.

(** the images of a source at S, off the centre (x0, y0) of the lens, each once and with its magnification *)
Definition all_images (alpha : R -> R -> R * R) (x0 y0 : R) (S : R * R) (l : list ((R * R) * R)) : Prop :=
  NoDup l /\ (forall P, P <> (x0, y0) -> raytrace alpha (fst P) (snd P) = S -> exists m, In (P, m) l) /\
  (forall P m, In (P, m) l -> P <> (x0, y0) /\ raytrace alpha (fst P) (snd P) = S /\ magnification alpha (fst P) (snd P) = Some m).
Definition light (l : list ((R * R) * R)) : R := fold_right (fun i a => snd i + a) 0 l.
Definition light_centre (l : list ((R * R) * R)) : R * R :=
  (fold_right (fun i a => snd i * fst (fst i) + a) 0 l / light l, fold_right (fun i a => snd i * snd (fst i) + a) 0 l / light l).
