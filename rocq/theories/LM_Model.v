(** * Batched Levenberg-Marquardt fitting (model of src/caustics/utils.py:1532-1635)
    Vectors are functions of the position, used below their dimension only.  The comparisons of the gain ratio follow IEEE
    division: with a zero denominator it is an infinity or not a number. *)
From Coq Require Import Reals List Arith.
From Coquelicot Require Import Coquelicot.
From Verif Require Import Py Fsum.
Import ListNotations.
Local Open Scope R_scope.

Definition vec := nat -> R.
Definition mat := nat -> nat -> R.
(** inverse covariance: one weight for every datum (Cinv.ndim == 1) or a matrix *)
Inductive weights := Diag (w : vec) | Full (m : mat).

(** quotient num / |den| of floating point numbers, exact except for the division by zero *)
Inductive quotient := Fin (r : R) | PlusInf | MinusInf | NaN.
Definition fdiv (num den : R) : quotient :=
  if Req_EM_T den 0 then (if Rlt_dec 0 num then PlusInf else if Rlt_dec num 0 then MinusInf else NaN) else Fin (num / den).
Definition qge (q : quotient) (e : R) : bool :=
  match q with Fin r => if Rle_dec e r then true else false | PlusInf => true | _ => false end.
Definition qgt (q : quotient) (e : R) : bool :=
  match q with Fin r => if Rlt_dec e r then true else false | PlusInf => true | _ => false end.

(** backend.clamp *)
Definition clamp (x lo hi : R) : R := Rmin (Rmax x lo) hi.
(** replace component j *)
Definition upd (X : vec) (j : nat) (t : R) : vec := fun k => if Nat.eqb k j then t else X k.
(** backend.jacfwd(f)(X): the matrix of partial derivatives *)
Definition jacobian (f : vec -> vec) (X : vec) : mat := fun i j => Derive (fun t => f (upd X j t) i) (X j).

Section LM.
Variables (Din Dout : nat).
(** backend.linalg.solve *)
Variable solve : mat -> vec -> vec.
Variable f : vec -> vec.

(** utils.py:1540-1543 and 1565-1568 *)
Definition chi2_of (Cinv : weights) (dY : vec) : R :=
  match Cinv with
  | Diag w => fsum Dout (fun i => dY i ^ 2 * w i)
  | Full m => fsum Dout (fun j => fsum Dout (fun i => dY i * m i j) * dY j)
  end.
(** utils.py:1546-1549 *)
Definition grad_of (Cinv : weights) (J : mat) (dY : vec) : vec := fun j =>
  match Cinv with
  | Diag w => fsum Dout (fun i => J i j * (dY i * w i))
  | Full m => fsum Dout (fun b => fsum Dout (fun a => J a j * m a b) * dY b)
  end.
(** utils.py:1552-1557 *)
Definition hess_of (Cinv : weights) (J : mat) (L : R) : mat := fun j k =>
  match Cinv with
  | Diag w => fsum Dout (fun i => J i j * (J i k * w i))
  | Full m => fsum Dout (fun b => fsum Dout (fun a => J a j * m a b) * J b k)
  end + L * (if Nat.eqb j k then 1 else 0).
(** utils.py:1534-1560: the proposed step *)
Definition lm_h (X Y : vec) (Cinv : weights) (L : R) : vec :=
  let dY := fun i => Y i - f X i in
  let J := jacobian f X in
  solve (hess_of Cinv J L) (grad_of Cinv J dY).
Definition moved (X h : vec) : vec := fun k => X k + h k.
(** utils.py:1571-1572 *)
Definition lm_rho (X Y : vec) (Cinv : weights) (L : R) : quotient :=
  let dY := fun i => Y i - f X i in
  let J := jacobian f X in
  let grad := grad_of Cinv J dY in
  let hess := hess_of Cinv J L in
  let h := lm_h X Y Cinv L in
  let expected_improvement := fsum Din (fun i => h i * fsum Din (fun k => hess i k * h k)) + 2 * fsum Din (fun i => h i * grad i) in
  let chi2 := chi2_of Cinv dY in
  let chi2_new := chi2_of Cinv (fun i => Y i - f (moved X h) i) in
  fdiv (chi2 - chi2_new) (Rabs expected_improvement).

Variables (Lup Ldn epsilon L_min L_max : R).
(** utils.py:1532-1579 *)
Definition lm_step (X Y : vec) (Cinv : weights) (L : R) : vec * R * R :=
  let h := lm_h X Y Cinv L in
  let rho := lm_rho X Y Cinv L in
  let chi2 := chi2_of Cinv (fun i => Y i - f X i) in
  let chi2_new := chi2_of Cinv (fun i => Y i - f (moved X h) i) in
  (if qge rho epsilon then moved X h else X,
   clamp (if qge rho epsilon then L / Ldn else L * Lup) L_min L_max,
   if qgt rho epsilon then chi2_new else chi2).

(** ** batch_lm: B fits at a time (vmap), all of them stopping together *)
Variable B : nat.
Variables (Ys : nat -> vec) (Cinvs : nat -> weights).
Variable stopping : R.
(** the third result: the covariance argument itself before the first iteration, the chi^2 of every fit afterwards *)
Inductive third := Covariance | Chi2 (c : vec).
(** utils.py:1626-1629 *)
Definition converged (Xs Xnew : nat -> vec) (Ls : vec) : bool :=
  forallb (fun b => forallb (fun k => if Rlt_dec (Rabs (Xnew b k - Xs b k)) stopping then true else false) (seq 0 Din)) (seq 0 B) &&
  (if Rlt_dec (INR B / 3) (INR (length (filter (fun b => if Rlt_dec (Ls b) (1 / 100) then true else false) (seq 0 B)))) then true else false).
(** utils.py:1631 *)
Definition all_stuck (Ls : vec) : bool := forallb (fun b => if Rle_dec L_max (Ls b) then true else false) (seq 0 B).
(** utils.py:1624-1635 *)
Fixpoint lm_loop (n : nat) (Xs : nat -> vec) (Ls : vec) (C : third) : (nat -> vec) * vec * third :=
  match n with
  | O => (Xs, Ls, C)
  | S n' =>
    let out := fun b => lm_step (Xs b) (Ys b) (Cinvs b) (Ls b) in
    let Xnew := fun b => fst (fst (out b)) in
    let Lnew := fun b => snd (fst (out b)) in
    let Cnew := Chi2 (fun b => snd (out b)) in
    if converged Xs Xnew Lnew then (Xs, Lnew, Cnew)
    else if all_stuck Lnew then (Xs, Lnew, Cnew)
    else lm_loop n' Xnew Lnew Cnew
  end.
End LM.

(** utils.py:1582-1635 with the weights already inverted (1604-1610); [lenX] and [lenY] are the batch sizes of X and Y *)
Definition batch_lm (Din Dout : nat) (solve : mat -> vec -> vec) (f : vec -> vec) (Lup Ldn epsilon L_min L_max stopping : R)
    (lenX lenY : nat) (Xs Ys : nat -> vec) (Cinvs : nat -> weights) (L : R) (max_iter : nat) : result ((nat -> vec) * vec * third) :=
  if negb (Nat.eqb lenX lenY) then Raise ValueError
  else Ok (lm_loop Din Dout solve f Lup Ldn epsilon L_min L_max lenY Ys Cinvs stopping max_iter Xs (fun _ => L * 1) Covariance).
