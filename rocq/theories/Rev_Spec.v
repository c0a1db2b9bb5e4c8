(** * What backpropagation should compute *)
From Coq Require Import Reals.
From Coquelicot Require Import Coquelicot.
From Verif Require Import RealFun Ad_Model Ad_Spec Rev_Model.
Local Open Scope R_scope.

(** argument [k] moved by h *)
Definition bumped (a : nat -> R) (k : nat) (h : R) (n : nat) : R := if Nat.eqb n k then a n + h else a n.
(** every requested entry of the gradient is the partial derivative of F *)
Definition grad_exact (F : (nat -> R) -> R) (t : expr) (a : nat -> R) (req : nat -> bool) : Prop :=
  forall k, req k = true -> exists d, grad a req t k = Fin d /\ is_derive (fun h => F (bumped a k h)) 0 d.
Definition grad_exact2 (F : (nat -> R) -> R * R) (t : expr * expr) (a : nat -> R) (req : nat -> bool) : Prop :=
  grad_exact (fun a => fst (F a)) (fst t) a req /\ grad_exact (fun a => snd (F a)) (snd t) a req.
Definition grad_exact_opt (F : (nat -> R) -> option R) (t : expr) (a : nat -> R) (req : nat -> bool) : Prop :=
  grad_exact (fun a => match F a with Some v => v | None => 0 end) t a req.

(** No operation of the formula is outside the domain where it is differentiable, in the branches that are not selected as well. *)
Fixpoint tame (env : nat -> R) (e : expr) {struct e} : Prop :=
  match e with
  | Var _ | Cst _ => True
  | Add a b | Sub a b | Mul a b => tame env a /\ tame env b
  | Div a b => tame env a /\ tame env b /\ ev env b <> 0
  | Neg a | Exp a | Sin a | Cos a | Atan a | Pow a _ | AtLeast _ a | AtMost _ a | NanToNum a => tame env a
  | Sqrt a | Ln a => tame env a /\ 0 < ev env a
  | Atanh a | Acos a => tame env a /\ -1 < ev env a < 1
  | Acosh a => tame env a /\ 1 < ev env a
  | Atan2 a b => tame env a /\ tame env b /\ (ev env a <> 0 \/ ev env b <> 0)
  | RPow a p => tame env a /\ tame env p /\ 0 < ev env a
  | Where c a b => match c with Lt p q | Eq p q => tame env p /\ tame env q end /\ tame env a /\ tame env b
  | Pick f a b => tame env a /\ tame env b /\ tame env (f (ev env a) (ev env b))
  end.
(** the direction that moves argument [k] alone when the arguments [req] are differentiated *)
Definition one_of (req : nat -> bool) (k n : nat) : option R := if req n then Some (if Nat.eqb n k then 1 else 0) else None.
(** not a finite number *)
Definition bad (n : num) : Prop := forall r, n <> Fin r.
