(** * The elliptical power law as automatic differentiation sees it (lenses/func/epl.py)

    A complex number is the pair of the expressions of its real and imaginary parts, and complex arithmetic is written out on the parts.
    torch differentiates the complex operations themselves; where everything is finite that gives the same numbers. *)
From Coq Require Import Reals List Arith.
From Verif Require Import Py Ad_Model AdLens_Model Epl_Model.
Import ListNotations.
Local Open Scope R_scope.
Local Open Scope ad_scope.

Definition cexpr : Type := (expr * expr)%type.
Definition t_cadd (a b : cexpr) : cexpr := (fst a + fst b, snd a + snd b).
Definition t_cmul (a b : cexpr) : cexpr := (fst a * fst b - snd a * snd b, fst a * snd b + snd a * fst b).
Definition t_cscale (s : expr) (a : cexpr) : cexpr := (s * fst a, s * snd a).
Definition t_conj (a : cexpr) : cexpr := (fst a, - snd a).
Definition t_cinv (a : cexpr) : cexpr := let n := fst a ^ 2 + snd a ^ 2 in (fst a / n, (- snd a) / n).
Definition t_cdiv (a b : cexpr) : cexpr := t_cmul a (t_cinv b).
Definition t_one : cexpr := (Cst 1, Cst 0).

(** backend.cumprod, backend.sum *)
Fixpoint t_cumprod_from (p : cexpr) (l : list cexpr) : list cexpr :=
  match l with [] => [] | a :: t => t_cmul p a :: t_cumprod_from (t_cmul p a) t end.
Definition t_cumprod (l : list cexpr) : list cexpr := match l with [] => [] | a :: t => a :: t_cumprod_from a t end.
Definition t_csum (l : list cexpr) : cexpr := fold_right t_cadd (Cst 0, Cst 0) l.

(** epl.py:24 and 31 *)
Definition t_factor (t : expr) (i : nat) : expr := (Cst (2 * INR i) - (Cst 2 - t)) / (Cst (2 * INR i) + (Cst 2 - t)).
(** epl.py:5-49 *)
Definition t_r_omega (z : cexpr) (t q : expr) (n_iter : nat) (chunk_size : option nat) : result cexpr :=
  let f := (Cst 1 - q) / (Cst 1 + q) in
  let phi := t_cscale (- f) (t_cdiv z (t_conj z)) in
  let chunk_size := match chunk_size with None => n_iter | Some c => c end in
  if Nat.eqb chunk_size 1 then
    Ok (snd (fold_left (fun st i => let omega_i := t_cmul (t_cscale (t_factor t i) phi) (fst st) in (omega_i, t_cadd (snd st) omega_i)) (seq 1 (n_iter - 1)) (z, z)))
  else if Nat.eqb chunk_size 0 then Raise ZeroDivisionError
  else
    let factors := map (t_factor t) (seq 1 (n_iter - 1)) in
    bind (for_loop (fun i (st : option (list cexpr * cexpr)) =>
            let rec := map (fun a => t_cscale a phi) (slice (i * chunk_size) (Nat.max ((i + 1) * chunk_size) n_iter) factors) in
            match st with
            | None => let c := t_cumprod rec in Ok (Some (c, t_csum c))
            | Some (c, res) => bind (py_last c) (fun a => let c := tl (t_cumprod (a :: rec)) in Ok (Some (c, t_cadd res (t_csum c))))
            end) (seq 0 (n_iter / chunk_size)) None)
      (fun st => match st with
                 | None => Raise TypeError (* 1 + None *)
                 | Some (_, res) => Ok (t_cmul z (t_cadd t_one res))
                 end).
(** epl.py:52-137 *)
Definition t_deflection_epl (x0 y0 q phi Rein t x y : expr) (n_iter : nat) (chunk_size : option nat) : result (expr * expr) :=
  let '(x, y) := t_translate_rotate x y x0 y0 (Some phi) in
  let z : cexpr := (q * x, y) in
  let r := Sqrt (fst z ^ 2 + snd z ^ 2) in
  bind (t_r_omega z t q n_iter chunk_size) (fun r_om =>
  let alpha_c := t_cscale (Cst 2 / (Cst 1 + q) * RPow (Rein * Sqrt q / r) t) r_om in
  Ok (t_derotate (NanToNum (fst alpha_c)) (NanToNum (snd alpha_c)) (Some phi))).
(** epl.py:140-215 *)
Definition t_potential_epl (x0 y0 q phi Rein t x y : expr) (n_iter : nat) (chunk_size : option nat) : result expr :=
  bind (t_deflection_epl x0 y0 q phi Rein t x y n_iter chunk_size) (fun a =>
  let '(ax, ay) := t_derotate (fst a) (snd a) (Some (- phi)) in
  let '(x, y) := t_translate_rotate x y x0 y0 (Some phi) in
  Ok ((x * ax + y * ay) / (Cst 2 - t))).
