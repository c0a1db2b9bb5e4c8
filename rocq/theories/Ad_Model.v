(** * Forward-mode automatic differentiation (model of backend.jacfwd, backend_obj.py:416-420, as it is applied to the
      formulas of lenses/func and light/func)

    jacfwd runs the Python function on dual numbers: every array carries its value and, when it depends on a differentiated argument,
    a tangent, and every primitive computes both by its own rule.  The formulas of the library are transcribed here once more, as
    expressions over the primitives, so that those rules can be run on them; Ad_Props.v proves that the expressions have the
    values of the functions of the other models.

    A value is finite, NaN, or an infinity ([Unk], which also stands for whatever arithmetic makes of an infinity).  Only
    NaN is claimed to be absorbing.  The rules are those of torch (derivatives.yaml, forward formulas), which jax shares up to algebra. *)
From Coq Require Import Reals List.
From Verif Require Import RealFun Const_Model.
Import ListNotations.
Local Open Scope R_scope.

Inductive num := Fin (r : R) | NaN | Unk.
Definition lift1 (f : R -> num) (a : num) : num := match a with Fin r => f r | NaN => NaN | Unk => Unk end.
Definition lift2 (f : R -> R -> num) (a b : num) : num :=
  match a, b with
  | NaN, _ | _, NaN => NaN
  | Fin r, Fin t => f r t
  | _, _ => Unk
  end.
Definition nadd : num -> num -> num := lift2 (fun a b => Fin (a + b)).
Definition nsub : num -> num -> num := lift2 (fun a b => Fin (a - b)).
Definition nmul : num -> num -> num := lift2 (fun a b => Fin (a * b)).
Definition nneg : num -> num := lift1 (fun a => Fin (- a)).
(** 0/0 is NaN, a/0 an infinity *)
Definition ndiv : num -> num -> num :=
  lift2 (fun a b => if Req_EM_T b 0 then (if Req_EM_T a 0 then NaN else Unk) else Fin (a / b)).
Definition nsqrt : num -> num := lift1 (fun a => if Rlt_dec a 0 then NaN else Fin (sqrt a)).
Definition nln : num -> num := lift1 (fun a => if Rlt_dec a 0 then NaN else if Req_EM_T a 0 then Unk else Fin (ln a)).
Definition nexp : num -> num := lift1 (fun a => Fin (exp a)).
Definition nsin : num -> num := lift1 (fun a => Fin (sin a)).
Definition ncos : num -> num := lift1 (fun a => Fin (cos a)).
Definition natan : num -> num := lift1 (fun a => Fin (atan a)).
Definition natanh : num -> num :=
  lift1 (fun a => if Rlt_dec 1 (Rabs a) then NaN else if Req_EM_T (Rabs a) 1 then Unk else Fin (atanh a)).
Definition nacos : num -> num := lift1 (fun a => if Rlt_dec 1 (Rabs a) then NaN else Fin (acos a)).
Definition nacosh : num -> num := lift1 (fun a => if Rlt_dec a 1 then NaN else Fin (acosh a)).
Definition natan2 : num -> num -> num := lift2 (fun a b => Fin (atan2 a b)).
Definition npow (n : nat) : num -> num := lift1 (fun a => Fin (a ^ n)).
(** a ** p for a real exponent: only positive bases are followed *)
Definition nrpow : num -> num -> num := lift2 (fun a p => if Rlt_dec a 0 then NaN else if Req_EM_T a 0 then Unk else Fin (Rpower a p)).
(** reciprocal square root, used by the rules of acos and acosh *)
Definition nrsqrt : num -> num := lift1 (fun a => if Rlt_dec a 0 then NaN else if Req_EM_T a 0 then Unk else Fin (/ sqrt a)).

(** isfinite as a number *)
Definition nisfinite (a : num) : num := match a with Fin _ => Fin 1 | NaN => Fin 0 | Unk => Unk end.
(** nan_to_num; what becomes of an infinity is not followed *)
Definition ndenan (a : num) : num := match a with NaN => Fin 0 | _ => a end.

(** The primitives; [Var n] is the n-th argument.  [AtLeast], [AtMost] are backend.clamp(e, min=b), backend.clamp(e, max=b),
    [NanToNum] is backend.nan_to_num.  [Pick f a b] is the entry of a table at integer indices computed from a and b (floor or round,
    long, clamp): f gives the entry for every value of a and b, and integers carry no tangent. *)
Inductive expr :=
| Var (n : nat) | Cst (r : R)
| Add (a b : expr) | Sub (a b : expr) | Mul (a b : expr) | Div (a b : expr) | Neg (a : expr)
| Sqrt (a : expr) | Ln (a : expr) | Exp (a : expr) | Sin (a : expr) | Cos (a : expr) | Atan (a : expr)
| Atanh (a : expr) | Acos (a : expr) | Acosh (a : expr) | Atan2 (a b : expr)
| Pow (a : expr) (n : nat) | RPow (a p : expr)
| AtLeast (b : R) (a : expr) | AtMost (b : R) (a : expr)
| Where (c : cond) (a b : expr)
| NanToNum (a : expr) | Pick (f : R -> R -> expr) (a b : expr)
with cond := Lt (a b : expr) | Eq (a b : expr).

(** A dual number: value and tangent; no tangent (None) when no differentiated argument is involved. *)
Definition dual : Type := (num * option num)%type.
Definition tan1 (f : num -> num) (t : option num) : option num := match t with Some t => Some (f t) | None => None end.
(** the tangent of an operation with two operands: the sum of the terms that are present, followed by [post] *)
Definition tan2 (fa fb post : num -> num) (ta tb : option num) : option num :=
  match ta, tb with
  | None, None => None
  | Some ta, None => Some (post (fa ta))
  | None, Some tb => Some (post (fb tb))
  | Some ta, Some tb => Some (post (nadd (fa ta) (fb tb)))
  end.
(** a comparison with NaN is false; with an infinity it is not followed (None) *)
Definition compare (test : R -> R -> bool) (a b : num) : option bool :=
  match a, b with
  | NaN, _ | _, NaN => Some false
  | Fin r, Fin t => Some (test r t)
  | _, _ => None
  end.
Definition ltb (r t : R) : bool := if Rlt_dec r t then true else false.
Definition eqb (r t : R) : bool := if Req_EM_T r t then true else false.
(** torch.where: values and tangents are selected, a missing tangent being zero *)
Definition select (c : option bool) (a b : dual) : dual :=
  let tangent t := match t with Some t => t | None => Fin 0 end in
  let has := match snd a, snd b with None, None => false | _, _ => true end in
  match c with
  | Some true => (fst a, if has then Some (tangent (snd a)) else None)
  | Some false => (fst b, if has then Some (tangent (snd b)) else None)
  | None => (Unk, if has then Some Unk else None)
  end.
(** clamp: the tangent passes where the bound is not active, ties included *)
Definition clamped (pass : R -> bool) (bound : R) (a : dual) : dual :=
  match fst a with
  | Fin r => if pass r then a else (Fin bound, tan1 (fun _ => Fin 0) (snd a))
  | v => (v, tan1 (fun _ => v) (snd a))
  end.

Fixpoint jvp (env : nat -> R) (seed : nat -> option R) (e : expr) {struct e} : dual :=
  let un f df a := let v := fst (jvp env seed a) in (f v, tan1 (df v) (snd (jvp env seed a))) in
  let bin f da db post a b :=
    let va := fst (jvp env seed a) in let vb := fst (jvp env seed b) in
    (f va vb, tan2 (da va vb) (db va vb) (post va vb) (snd (jvp env seed a)) (snd (jvp env seed b))) in
  match e with
  | Var n => (Fin (env n), match seed n with Some d => Some (Fin d) | None => None end)
  | Cst r => (Fin r, None)
  | Add a b => bin nadd (fun _ _ t => t) (fun _ _ t => t) (fun _ _ n => n) a b
  | Sub a b => bin nsub (fun _ _ t => t) (fun _ _ t => nneg t) (fun _ _ n => n) a b
  | Mul a b => bin nmul (fun _ vb t => nmul t vb) (fun va _ t => nmul va t) (fun _ _ n => n) a b
  | Div a b => bin ndiv (fun _ _ t => t) (fun va vb t => nneg (nmul t (ndiv va vb))) (fun _ vb n => ndiv n vb) a b
  | Neg a => un nneg (fun _ t => nneg t) a
  | Sqrt a => un nsqrt (fun v t => ndiv t (nmul (Fin 2) (nsqrt v))) a
  | Ln a => un nln (fun v t => ndiv t v) a
  | Exp a => un nexp (fun v t => nmul t (nexp v)) a
  | Sin a => un nsin (fun v t => nmul t (ncos v)) a
  | Cos a => un ncos (fun v t => nmul t (nneg (nsin v))) a
  | Atan a => un natan (fun v t => ndiv t (nadd (npow 2 v) (Fin 1))) a
  | Atanh a => un natanh (fun v t => ndiv t (nsub (Fin 1) (npow 2 v))) a
  | Acos a => un nacos (fun v t => nmul t (nneg (nrsqrt (nadd (nneg (npow 2 v)) (Fin 1))))) a
  | Acosh a => un nacosh (fun v t => nmul t (nrsqrt (nsub (npow 2 v) (Fin 1)))) a
  | Atan2 a b =>
      bin natan2 (fun _ vb t => nmul vb t) (fun va _ t => nmul (nneg va) t)
                 (fun va vb n => ndiv n (nadd (npow 2 va) (npow 2 vb))) a b
  | Pow a n => un (npow n) (fun v t => match n with O => Fin 0 | S m => nmul t (nmul (Fin (INR n)) (npow m v)) end) a
  | RPow a p =>
      bin nrpow (fun va vp t => nmul t (nmul vp (nrpow va (nsub vp (Fin 1)))))
                (fun va vp t => nmul t (nmul (nrpow va vp) (nln va))) (fun _ _ n => n) a p
  | AtLeast b a => clamped (fun r => if Rle_dec b r then true else false) b (jvp env seed a)
  | AtMost b a => clamped (fun r => if Rle_dec r b then true else false) b (jvp env seed a)
  | Where c a b => select (test env seed c) (jvp env seed a) (jvp env seed b)
  | NanToNum a => un ndenan (fun v t => nmul t (nisfinite v)) a
  | Pick f a b =>
      match fst (jvp env seed a), fst (jvp env seed b) with
      | Fin u, Fin v => jvp env seed (f u v)
      | _, _ => (Unk, tan1 (fun _ => Unk) (snd (jvp env seed (f 0 0)))) (* the index computed from NaN or an infinity is not followed *)
      end
  end
with test (env : nat -> R) (seed : nat -> option R) (c : cond) {struct c} : option bool :=
  match c with
  | Lt a b => compare ltb (fst (jvp env seed a)) (fst (jvp env seed b))
  | Eq a b => compare eqb (fst (jvp env seed a)) (fst (jvp env seed b))
  end.

(** backend_obj.py:416-420, jacfwd of a pair of outputs with respect to the arguments 0 and 1: one pass per argument, with
    the unit tangent on it; an output that does not depend on the argument has derivative 0 *)
Definition unit_seed (k n : nat) : option R := if Nat.eqb n k then Some 1 else None.
Definition ad_jacfwd (t : expr * expr) (env : nat -> R) : (num * num) * (num * num) :=
  let column e k := match snd (jvp env (unit_seed k) e) with Some d => d | None => Fin 0 end in
  ((column (fst t) 0%nat, column (fst t) 1%nat), (column (snd t) 0%nat, column (snd t) 1%nat)).
