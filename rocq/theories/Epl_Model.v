(** * Elliptical power law (model of src/caustics/lenses/func/epl.py)

    Complex numbers are pairs of reals (Coquelicot).  z / conj(z) and the powers are those of the code wherever they are finite. *)
From Coq Require Import Reals List Arith.
From Coquelicot Require Import Complex.
From Verif Require Import Py Geo_Model.
Import ListNotations.
Local Open Scope R_scope.

(** backend.cumprod along a list *)
Fixpoint cumprod_from (p : C) (l : list C) : list C :=
  match l with [] => [] | a :: t => (p * a)%C :: cumprod_from (p * a)%C t end.
Definition cumprod (l : list C) : list C := match l with [] => [] | a :: t => a :: cumprod_from a t end.
Definition csum (l : list C) : C := fold_right Cplus 0%C l.
(** l[a:b] with 0 <= a <= b *)
Definition slice {A} (a b : nat) (l : list A) : list A := firstn (b - a) (skipn a l).
(** l[-1] *)
Definition py_last {A} (l : list A) : result A := match rev l with [] => Raise IndexError | a :: _ => Ok a end.

(** epl.py:24 and 31 *)
Definition factor (t : R) (i : nat) : R := (2 * INR i - (2 - t)) / (2 * INR i + (2 - t)).
(** epl.py:5-49 *)
Definition r_omega (z : C) (t q : R) (n_iter : nat) (chunk_size : option nat) : result C :=
  let f := (1 - q) / (1 + q) in
  let phi := (z / Cconj z * - f)%C in
  let chunk_size := match chunk_size with None => n_iter | Some c => c end in
  if Nat.eqb chunk_size 1 then
    Ok (snd (fold_left (fun st i => let omega_i := (factor t i * phi * fst st)%C in (omega_i, (snd st + omega_i)%C)) (seq 1 (n_iter - 1)) (z, z)))
  else if Nat.eqb chunk_size 0 then Raise ZeroDivisionError
  else
    let factors := map (factor t) (seq 1 (n_iter - 1)) in
    bind (for_loop (fun i (st : option (list C * C)) =>
            let rec := map (fun a => (a * phi)%C) (slice (i * chunk_size) (Nat.max ((i + 1) * chunk_size) n_iter) (map RtoC factors)) in
            match st with
            | None => let c := cumprod rec in Ok (Some (c, csum c))
            | Some (c, res) => bind (py_last c) (fun a => let c := tl (cumprod (a :: rec)) in Ok (Some (c, (res + csum c)%C)))
            end) (seq 0 (n_iter / chunk_size)) None)
      (fun st => match st with
                 | None => Raise TypeError (* 1 + None *)
                 | Some (_, res) => Ok (z * (1 + res))%C
                 end).
(** a ** t for a >= 0 and t > 0 *)
Definition power (a t : R) : R := if Req_EM_T a 0 then 0 else Rpower a t.
(** epl.py:52-137.  At z = 0 every quantity is NaN, which nan_to_num turns into 0. *)
Definition reduced_deflection_angle_epl (x0 y0 q phi Rein t : R) (n_iter : nat) (chunk_size : option nat) (x y : R) : result (R * R) :=
  let '(x, y) := translate_rotate x y x0 y0 (Some phi) in
  let z : C := (q * x, y) in
  let r := Cmod z in
  bind (r_omega z t q n_iter chunk_size) (fun r_om =>
  let alpha_c := if Req_EM_T r 0 then RtoC 0 else ((2 / (1 + q) * power (Rein * sqrt q / r) t)%R * r_om)%C in
  Ok (derotate (fst alpha_c) (snd alpha_c) (Some phi))).
(** epl.py:140-215 *)
Definition potential_epl (x0 y0 q phi Rein t : R) (n_iter : nat) (chunk_size : option nat) (x y : R) : result R :=
  bind (reduced_deflection_angle_epl x0 y0 q phi Rein t n_iter chunk_size x y) (fun a =>
  let '(ax, ay) := derotate (fst a) (snd a) (Some (- phi)) in
  let '(x, y) := translate_rotate x y x0 y0 (Some phi) in
  Ok ((x * ax + y * ay) / (2 - t))).
(** epl.py:218-287 *)
Definition convergence_epl (x0 y0 q phi Rein t s x y : R) : R :=
  let '(x, y) := translate_rotate x y x0 y0 (Some phi) in
  let psi := sqrt (q ^ 2 * x ^ 2 + y ^ 2 + s ^ 2) in
  (2 - t) / 2 * power (Rein * sqrt q / psi) t.
