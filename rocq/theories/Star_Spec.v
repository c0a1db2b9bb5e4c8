(** * What C140 talks about: the light of a star *)
From Coq Require Import Reals.
From Verif Require Import PixMean_Spec MicroStat_Spec.
Local Open Scope R_scope.

(** a brightness that is a number; NaN would count as 0 here, the theorems say that it does not occur *)
Definition shown (f : R -> R -> option R) (x y : R) : R := match f x y with Some v => v | None => 0 end.
(** no NaN anywhere *)
Definition always_shown (f : R -> R -> option R) : Prop := forall x y, f x y <> None.
(** the field holds the disc of radius r around (x0, y0) *)
Definition holds_disc (f0 f1 f2 f3 x0 y0 r : R) : Prop := f0 <= x0 - r /\ x0 + r <= f1 /\ f2 <= y0 - r /\ y0 + r <= f3.
(** the light in a field is T *)
Definition light_is (F : R -> R -> R) (f0 f1 f2 f3 T : R) : Prop := integrable F f0 f1 f2 f3 /\ box F f0 f1 f2 f3 = T.
(** no lens *)
Definition straight (x y : R) : R * R := (x, y).
