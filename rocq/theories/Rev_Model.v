(** * Reverse-mode automatic differentiation (model of backend.grad, backend_obj.py:392-396, which lenses/base.py:664-667 applies to a
      potential and lenses/func/enclosed_mass.py:113 to an enclosed mass, and of loss.backward() over any of the formulas of
      lenses/func and light/func)

    The formulas are the expressions of Ad_Model.v.  Backward passes [bar], the derivative of the result with respect to a node, to the
    operands of the node, multiplied by the local derivative, and adds up what reaches each argument.  The rules are the
    backward formulas of torch (derivatives.yaml).  A node none of whose arguments requires a gradient is not visited.
    An operand used twice is visited once by torch, with the sum of its bars, and twice here; the results are equal as real
    numbers and one is finite exactly when the other is, so only finiteness, never the kind of a non-finite result, is claimed. *)
From Coq Require Import Reals List Bool.
From Verif Require Import RealFun Ad_Model.
Local Open Scope R_scope.

(** the forward values *)
Definition val (env : nat -> R) (e : expr) : num := fst (jvp env (fun _ => None) e).
Definition tst (env : nat -> R) (c : cond) : option bool := test env (fun _ => None) c.

(** requires_grad of a node; of a table, that of the entry looked up *)
Fixpoint needs (env : nat -> R) (req : nat -> bool) (e : expr) {struct e} : bool :=
  match e with
  | Var n => req n
  | Cst _ => false
  | Add a b | Sub a b | Mul a b | Div a b | Atan2 a b | RPow a b | Where _ a b => needs env req a || needs env req b
  | Neg a | Sqrt a | Ln a | Exp a | Sin a | Cos a | Atan a | Atanh a | Acos a | Acosh a | Pow a _ | AtLeast _ a | AtMost _ a | NanToNum a => needs env req a
  | Pick f a b => match val env a, val env b with Fin u, Fin v => needs env req (f u v) | _, _ => true end
  end.

(** where(mask, bar, 0); the mask of an infinity is not followed *)
Definition masked (c : option bool) (bar : num) : num :=
  match c with Some true => bar | Some false => Fin 0 | None => Unk end.
(** the mask of clamp: value >= min, value <= max; false of NaN *)
Definition passes (pass : R -> bool) (v : num) : option bool :=
  match v with Fin r => Some (pass r) | NaN => Some false | Unk => None end.

(** the gradient with respect to argument [k] *)
Fixpoint back (env : nat -> R) (req : nat -> bool) (e : expr) (bar : num) (k : nat) {struct e} : num :=
  if needs env req e then
    let un a d := back env req a (d (val env a)) k in
    let bin a b da db := nadd (back env req a (da (val env a) (val env b)) k) (back env req b (db (val env a) (val env b)) k) in
    match e with
    | Var n => if Nat.eqb n k then bar else Fin 0
    | Cst _ => Fin 0
    | Add a b => bin a b (fun _ _ => bar) (fun _ _ => bar)
    | Sub a b => bin a b (fun _ _ => bar) (fun _ _ => nneg bar)
    | Mul a b => bin a b (fun _ vb => nmul bar vb) (fun va _ => nmul bar va)
    | Div a b => bin a b (fun _ vb => ndiv bar vb) (fun va vb => nmul (nneg bar) (ndiv (ndiv va vb) vb))
    | Neg a => un a (fun _ => nneg bar)
    | Sqrt a => un a (fun v => ndiv bar (nmul (Fin 2) (nsqrt v)))
    | Ln a => un a (fun v => ndiv bar v)
    | Exp a => un a (fun v => nmul bar (nexp v))
    | Sin a => un a (fun v => nmul bar (ncos v))
    | Cos a => un a (fun v => nmul bar (nneg (nsin v)))
    | Atan a => un a (fun v => ndiv bar (nadd (nmul v v) (Fin 1)))
    | Atanh a => un a (fun v => ndiv bar (nsub (Fin 1) (npow 2 v)))
    | Acos a => un a (fun v => nmul bar (nneg (nrsqrt (nadd (nmul (nneg v) v) (Fin 1)))))
    | Acosh a => un a (fun v => nmul bar (nrsqrt (nsub (npow 2 v) (Fin 1))))
    | Atan2 a b =>
        bin a b (fun va vb => nmul (nmul bar vb) (ndiv (Fin 1) (nadd (nmul va va) (nmul vb vb))))
                (fun va vb => nmul (nmul bar (nneg va)) (ndiv (Fin 1) (nadd (nmul va va) (nmul vb vb))))
    | Pow a n => un a (fun v => match n with O => Fin 0 | S m => nmul bar (nmul (Fin (INR n)) (npow m v)) end)
    | RPow a p =>
        bin a p (fun va vp => nmul bar (nmul vp (nrpow va (nsub vp (Fin 1)))))
                (fun va vp => nmul bar (nmul (nrpow va vp) (nln va)))
    | AtLeast b a => un a (fun v => masked (passes (fun r => if Rle_dec b r then true else false) v) bar)
    | AtMost b a => un a (fun v => masked (passes (fun r => if Rle_dec r b then true else false) v) bar)
    | Where c a b => bin a b (fun _ _ => masked (tst env c) bar) (fun _ _ => masked (option_map negb (tst env c)) bar)
    | NanToNum a => un a (fun v => nmul bar (nisfinite v))
    | Pick f a b => match val env a, val env b with Fin u, Fin v => back env req (f u v) bar k | _, _ => Unk end
    end
  else Fin 0.

(** torch.autograd.grad(result, argument k) *)
Definition grad (env : nat -> R) (req : nat -> bool) (e : expr) (k : nat) : num := back env req e (Fin 1) k.

(** lenses/base.py:664-667, the deflection of a lens that only has a potential: backend.grad(self.potential, (0, 1)), one query point *)
Definition position (n : nat) : bool := Nat.ltb n 2.
Definition ad_grad (t : expr) (env : nat -> R) : num * num := (grad env position t 0%nat, grad env position t 1%nat).
