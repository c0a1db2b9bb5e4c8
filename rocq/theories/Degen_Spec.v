(** * A source shrunk towards a point *)
From Coq Require Import Reals.
Local Open Scope R_scope.

(** [f'] shows what [f] shows, moved towards (X0, Y0) and shrunk by l (for l < 0 also turned by half a turn) *)
Definition shrunk {A} (l X0 Y0 : R) (f f' : R -> R -> A) : Prop := forall u v, f' (X0 + l * (u - X0)) (Y0 + l * (v - Y0)) = f u v.
