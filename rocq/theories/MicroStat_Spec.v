(** * Averages over random draws (C125) *)
From Coq Require Import Reals Arith.
From Coquelicot Require Import Coquelicot.
From Verif Require Import Py PixMean_Spec.
Local Open Scope R_scope.

(** the average over one pair of independent numbers, each uniform in [0, 1] *)
Definition average (g : R -> R -> R) : R := RInt (fun u => RInt (fun v => g u v) 0 1) 0 1.
(** the average over the first n entries of two independent sequences of such numbers; the other entries do not matter for what is averaged here *)
Definition put (m : nat) (u : R) (r : nat -> R) (i : nat) : R := if Nat.eqb i m then u else r i.
Fixpoint expect (n : nat) (F : (nat -> R) -> (nat -> R) -> R) : R :=
  match n with
  | O => F (fun _ => 0) (fun _ => 0)
  | S m => average (fun u v => expect m (fun rx ry => F (put m u rx) (put m v ry)))
  end.
(** integrable over a rectangle, first along the second axis *)
Definition integrable (F : R -> R -> R) (a b c d : R) : Prop :=
  (forall u, a <= u <= b -> ex_RInt (F u) c d) /\ ex_RInt (fun u => RInt (F u) c d) a b.
(** the two numbers a simulator returned *)
Definition flux_of (r : result (option R * option R)) : R := match r with Ok (Some v, _) => v | _ => 0 end.
Definition error_of (r : result (option R * option R)) : R := match r with Ok (_, Some v) => v | _ => 0 end.
(** the source seen through the lens *)
Definition lensed (ray : R -> R -> R * R) (f : R -> R -> R) (x y : R) : R := f (fst (ray x y)) (snd (ray x y)).
(** the square of the standard deviation of brightness over the field, times the square of its area *)
Definition spread (F : R -> R -> R) (a b c d : R) : R := (b - a) * (d - c) * box (fun x y => F x y ^ 2) a b c d - box F a b c d ^ 2.
