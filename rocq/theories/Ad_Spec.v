(** * What automatic differentiation should compute *)
From Coq Require Import Reals.
From Coquelicot Require Import Coquelicot.
From Verif Require Import RealFun LensBase_Model Ad_Model.
Local Open Scope R_scope.

(** the real function an expression denotes *)
Fixpoint ev (env : nat -> R) (e : expr) {struct e} : R :=
  match e with
  | Var n => env n
  | Cst r => r
  | Add a b => ev env a + ev env b
  | Sub a b => ev env a - ev env b
  | Mul a b => ev env a * ev env b
  | Div a b => ev env a / ev env b
  | Neg a => - ev env a
  | Sqrt a => sqrt (ev env a)
  | Ln a => ln (ev env a)
  | Exp a => exp (ev env a)
  | Sin a => sin (ev env a)
  | Cos a => cos (ev env a)
  | Atan a => atan (ev env a)
  | Atanh a => atanh (ev env a)
  | Acos a => acos (ev env a)
  | Acosh a => acosh (ev env a)
  | Atan2 a b => atan2 (ev env a) (ev env b)
  | Pow a n => ev env a ^ n
  | RPow a p => Rpower (ev env a) (ev env p)
  | AtLeast b a => Rmax (ev env a) b
  | AtMost b a => Rmin (ev env a) b
  | Where (Lt p q) a b => if Rlt_dec (ev env p) (ev env q) then ev env a else ev env b
  | Where (Eq p q) a b => if Req_EM_T (ev env p) (ev env q) then ev env a else ev env b
  | NanToNum a => ev env a
  | Pick f a b => ev env (f (ev env a) (ev env b))
  end.

Definition sval (s : option R) : R := match s with Some d => d | None => 0 end.
Definition tval (t : option num) : num := match t with Some t => t | None => Fin 0 end.
(** the arguments moved along the seeded direction *)
Definition along (env : nat -> R) (seed : nat -> option R) (h : R) (n : nat) : R := env n + h * sval (seed n).


(** value and tangent are finite *)
Definition finite (d : dual) : Prop := exists v t, fst d = Fin v /\ tval (snd d) = Fin t.
(** the derivative along the seeded direction exists and is what was computed *)
Definition exact (env : nat -> R) (seed : nat -> option R) (e : expr) : Prop :=
  exists d, fst (jvp env seed e) = Fin (ev env e) /\ tval (snd (jvp env seed e)) = Fin d /\
  is_derive (fun h => ev (along env seed h) e) 0 d.

(** The points where a formula is not cut: no comparison or clamp is exactly at its threshold, no arctan2 is on the negative axis and no index
    is about to change, unless nothing in it is being differentiated.  Of a where only the selected branch matters. *)
Fixpoint regular (env : nat -> R) (seed : nat -> option R) (e : expr) {struct e} : Prop :=
  let still a := snd (jvp env seed a) = None in
  match e with
  | Var _ | Cst _ => True
  | Add a b | Sub a b | Mul a b | Div a b | RPow a b => regular env seed a /\ regular env seed b
  | Neg a | Sqrt a | Ln a | Exp a | Sin a | Cos a | Atan a | Atanh a | Acos a | Acosh a | Pow a _ => regular env seed a
  | Atan2 a b => regular env seed a /\ regular env seed b /\ (still a /\ still b \/ 0 < ev env b \/ ev env a <> 0)
  | AtLeast b a | AtMost b a => regular env seed a /\ finite (jvp env seed a) /\ (still a \/ ev env a <> b)
  | Where c a b =>
      match c with
      | Lt p q | Eq p q =>
          regular env seed p /\ regular env seed q /\ finite (jvp env seed p) /\ finite (jvp env seed q) /\
          (still p /\ still q \/ ev env p <> ev env q)
      end /\
      (test env seed c = Some true -> regular env seed a) /\ (test env seed c = Some false -> regular env seed b)
  | NanToNum a => regular env seed a /\ finite (jvp env seed a)
  | Pick f a b =>
      regular env seed a /\ regular env seed b /\ finite (jvp env seed a) /\ finite (jvp env seed b) /\
      (still a /\ still b \/ locally (ev env a, ev env b) (fun p => f (fst p) (snd p) = f (ev env a) (ev env b))) /\
      regular env seed (f (ev env a) (ev env b))
  end.

(** [F] is a function of all its arguments (position and parameters), [t] the program that is differentiated, [a] the arguments,
    [seed] the direction of differentiation: the value is that of F and the tangent its directional derivative. *)
Definition ad_exact (F : (nat -> R) -> R) (t : expr) (a : nat -> R) (seed : nat -> option R) : Prop :=
  exists d, fst (jvp a seed t) = Fin (F a) /\ tval (snd (jvp a seed t)) = Fin d /\ is_derive (fun h => F (along a seed h)) 0 d.
Definition ad_exact2 (F : (nat -> R) -> R * R) (t : expr * expr) (a : nat -> R) (seed : nat -> option R) : Prop :=
  ad_exact (fun a => fst (F a)) (fst t) a seed /\ ad_exact (fun a => snd (F a)) (snd t) a seed.
(** for functions that are not defined everywhere *)
Definition ad_exact_opt (F : (nat -> R) -> option R) (t : expr) (a : nat -> R) (seed : nat -> option R) : Prop :=
  (exists v, F a = Some v) /\ ad_exact (fun a => match F a with Some v => v | None => 0 end) t a seed.

(** all arguments as given except the first two *)
Definition moved (a : nat -> R) (x y : R) (n : nat) : R := match n with O => x | S O => y | _ => a n end.
(** a Jacobian computed with dual numbers against one of real derivatives *)
Definition entries (J : (num * num) * (num * num)) (m : mat2) : Prop :=
  fst (fst J) = Fin (m00 m) /\ snd (fst J) = Fin (m01 m) /\ fst (snd J) = Fin (m10 m) /\ snd (snd J) = Fin (m11 m).
