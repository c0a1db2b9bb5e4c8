(** * Jacobian, shear and magnification as automatic differentiation sees them (lenses/base.py, lenses/utils.py)

    These methods call backend.jacfwd themselves, so differentiating them with respect to the parameters of a lens nests one differentiation in
    another: the tangents of the inner one are computed by operations that the outer one follows.  [trace] is the inner pass: it builds the
    expression of the tangent of e by the rules of Ad_Model.jvp. *)
From Coq Require Import Reals List.
From Verif Require Import Ad_Model AdLens_Model.
Local Open Scope R_scope.
Local Open Scope ad_scope.

(** a missing tangent is zero *)
Definition or0 (t : option expr) : expr := match t with Some t => t | None => Cst 0 end.
(** the tangent of an operation with two operands, as [tan2] *)
Definition tr2 (fa fb post : expr -> expr) (ta tb : option expr) : option expr :=
  match ta, tb with
  | None, None => None
  | Some ta, None => Some (post (fa ta))
  | None, Some tb => Some (post (fb tb))
  | Some ta, Some tb => Some (post (fa ta + fb tb))
  end.
Definition t_rsqrt (a : expr) : expr := Cst 1 / Sqrt a.
(** the rules of Ad_Model.jvp.  The tangent of nan_to_num is multiplied by isfinite, which is 1 here: a value that is not finite is not followed. *)
Fixpoint trace (seed : nat -> option R) (e : expr) {struct e} : option expr :=
  let T := trace seed in
  match e with
  | Var n => option_map Cst (seed n)
  | Cst _ => None
  | Add a b => tr2 (fun t => t) (fun t => t) (fun n => n) (T a) (T b)
  | Sub a b => tr2 (fun t => t) (fun t => - t) (fun n => n) (T a) (T b)
  | Mul a b => tr2 (fun t => t * b) (fun t => a * t) (fun n => n) (T a) (T b)
  | Div a b => tr2 (fun t => t) (fun t => - (t * (a / b))) (fun n => n / b) (T a) (T b)
  | Neg a => option_map (fun t => - t) (T a)
  | Sqrt a => option_map (fun t => t / (Cst 2 * Sqrt a)) (T a)
  | Ln a => option_map (fun t => t / a) (T a)
  | Exp a => option_map (fun t => t * Exp a) (T a)
  | Sin a => option_map (fun t => t * Cos a) (T a)
  | Cos a => option_map (fun t => t * (- Sin a)) (T a)
  | Atan a => option_map (fun t => t / (a ^ 2 + Cst 1)) (T a)
  | Atanh a => option_map (fun t => t / (Cst 1 - a ^ 2)) (T a)
  | Acos a => option_map (fun t => t * (- t_rsqrt (- (a ^ 2) + Cst 1))) (T a)
  | Acosh a => option_map (fun t => t * t_rsqrt (a ^ 2 - Cst 1)) (T a)
  | Atan2 a b => tr2 (fun t => b * t) (fun t => - a * t) (fun n => n / (a ^ 2 + b ^ 2)) (T a) (T b)
  | Pow a n => option_map (fun t => match n with O => Cst 0 | S m => t * (Cst (INR n) * a ^ m) end) (T a)
  | RPow a p => tr2 (fun t => t * (p * RPow a (p - Cst 1))) (fun t => t * (RPow a p * Ln a)) (fun n => n) (T a) (T p)
  | AtLeast b a => option_map (fun t => Where (Lt a (Cst b)) (Cst 0) t) (T a)
  | AtMost b a => option_map (fun t => Where (Lt (Cst b) a) (Cst 0) t) (T a)
  | Where c a b => match T a, T b with None, None => None | ta, tb => Some (Where c (or0 ta) (or0 tb)) end
  | NanToNum a => option_map (fun t => t * Cst 1) (T a)
  | Pick f a b => Some (Pick (fun u v => or0 (T (f u v))) a b)
  end.
(** backend.jacfwd(f, (0, 1)) of a pair, as the outer differentiation sees it *)
Definition t_jacfwd (t : expr * expr) : (expr * expr) * (expr * expr) :=
  let column e k := or0 (trace (unit_seed k) e) in
  ((column (fst t) 0%nat, column (fst t) 1%nat), (column (snd t) 0%nat, column (snd t) 1%nat)).

(** ** dual numbers: the operations of Ad_Model.jvp outside of an expression *)
Definition dcst (r : R) : dual := (Fin r, None).
Definition dadd (a b : dual) : dual := (nadd (fst a) (fst b), tan2 (fun t => t) (fun t => t) (fun n => n) (snd a) (snd b)).
Definition dsub (a b : dual) : dual := (nsub (fst a) (fst b), tan2 (fun t => t) (fun t => nneg t) (fun n => n) (snd a) (snd b)).
Definition dmul (a b : dual) : dual := (nmul (fst a) (fst b), tan2 (fun t => nmul t (fst b)) (fun t => nmul (fst a) t) (fun n => n) (snd a) (snd b)).
(** backend.detach, backend_obj.py:496-500: the value without its tangent *)
Definition detach (a : dual) : dual := (fst a, None).

Definition dmat : Type := ((dual * dual) * (dual * dual))%type.
Definition dmap (f : dual -> dual) (m : dmat) : dmat := ((f (fst (fst m)), f (snd (fst m))), (f (fst (snd m)), f (snd (snd m)))).
Definition run (a : nat -> R) (seed : nat -> option R) (m : (expr * expr) * (expr * expr)) : dmat :=
  let r e := jvp a seed e in ((r (fst (fst m)), r (snd (fst m))), (r (fst (snd m)), r (snd (snd m)))).
Definition eye_minus (J : dmat) : dmat :=
  ((dsub (dcst 1) (fst (fst J)), dsub (dcst 0) (snd (fst J))), (dsub (dcst 0) (fst (snd J)), dsub (dcst 1) (snd (snd J)))).

(** base.py:970-989 (467-487 of a thick lens): jacobian_deflection_angle, method "autograd", at one position; [t] is the traced deflection, the position being the
    arguments 0 and 1 *)
Definition d_jacobian_deflection_autograd (t : expr * expr) (a : nat -> R) (seed : nat -> option R) : dmat := run a seed (t_jacfwd t).
(** base.py:1035-1048 (538-551): jacobian_lens_equation, method "autograd" *)
Definition d_jacobian_lens_equation_autograd (t : expr * expr) (a : nat -> R) (seed : nat -> option R) : dmat :=
  eye_minus (dmap detach (d_jacobian_deflection_autograd t a seed)).
(** torch.gradient along one axis, as LensBase_Model.gradient1; the spacing is a plain number *)
Definition t_gradient1 (n : nat) (h : R) (f : nat -> expr) (k : nat) : expr :=
  if Nat.eqb k 0 then (f 1%nat - f 0%nat) / Cst h
  else if Nat.eqb k (n - 1) then (f (n - 1)%nat - f (n - 2)%nat) / Cst h
  else (f (k + 1)%nat - f (k - 1)%nat) / Cst (2 * h).
(** base.py:946-968 (443-465) on a grid of rows by cols positions; [t i j] is the traced deflection at a position *)
Definition d_jacobian_deflection_finitediff (rows cols : nat) (h : R) (t : nat -> nat -> expr * expr) (i j : nat) (a : nat -> R) (seed : nat -> option R) : dmat :=
  let along_x c := t_gradient1 cols h (fun k => c (t i k)) j in
  let along_y c := t_gradient1 rows h (fun k => c (t k j)) i in
  run a seed ((along_x fst, along_y fst), (along_x snd, along_y snd)).
(** base.py:1019-1033 (520-536) *)
Definition d_jacobian_lens_equation_finitediff (rows cols : nat) (h : R) (t : nat -> nat -> expr * expr) (i j : nat) (a : nat -> R) (seed : nat -> option R) : dmat :=
  eye_minus (d_jacobian_deflection_finitediff rows cols h t i j a seed).
(** base.py:84-106 *)
Definition d_shear (A : dmat) : dual * dual :=
  let t := dmul (dcst (1 / 2)) (dadd (fst (fst A)) (snd (snd A))) in
  let n00 := dsub (dmul t (dcst 1)) (fst (fst A)) in
  let n01 := dsub (dmul t (dcst 0)) (snd (fst A)) in
  let n11 := dsub (dmul t (dcst 1)) (snd (snd A)) in
  (dmul (dcst (1 / 2)) (dsub n00 n11), n01).
(** abs; its tangent is multiplied by the sign of the value *)
Definition t_abs (a : expr) : expr := Where (Lt a (Cst 0)) (- a) a.
(** lenses/utils.py:42-72 with base.py:826-863: the magnification at the position (arguments 0 and 1) *)
Definition t_magnification (t : expr * expr) : expr :=
  let J := t_jacfwd (Var 0 - fst t, Var 1 - snd t) in
  Cst 1 / t_abs (fst (fst J) * snd (snd J) - snd (fst J) * fst (snd J)).
(** base.py:554-571, 573-590: from the Jacobian of the deflection *)
Definition d_effective_convergence_div (J : dmat) : dual := dmul (dcst (1 / 2)) (dadd (fst (fst J)) (snd (snd J))).
Definition d_effective_convergence_curl (J : dmat) : dual := dmul (dcst (1 / 2)) (dsub (fst (snd J)) (snd (fst J))).
