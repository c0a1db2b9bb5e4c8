(** * Triangles and the image search (model of src/caustics/lenses/func/base.py:7-244) *)
From Coq Require Import Reals List Arith.
From Coquelicot Require Import Coquelicot.
From Verif Require Import Py Fsum LM_Model Gauss_Model.
Import ListNotations.
Local Open Scope bool_scope.
Local Open Scope R_scope.

Definition pt := (R * R)%type.
Definition tri := (pt * pt * pt)%type.
Definition padd (a b : pt) : pt := (fst a + fst b, snd a + snd b).
Definition psub (a b : pt) : pt := (fst a - fst b, snd a - snd b).
Definition pscale (k : R) (a : pt) : pt := (k * fst a, k * snd a).
(** broadcasting p + d for a triangle p (three rows) and a row d *)
Definition tmap (f : pt -> pt) (p : tri) : tri := let '(p0, p1, p2) := p in (f p0, f p1, f p2).
Definition tadd (p : tri) (d : pt) : tri := tmap (fun a => padd a d) p.
Definition tsub (p : tri) (d : pt) : tri := tmap (fun a => psub a d) p.

(** func/base.py:7-21.  If the triangle is degenerate the two quotients are infinite or not a number and one of the comparisons fails *)
Definition triangle_contains (p : tri) (v : pt) : bool :=
  let '(p0, p1, p2) := p in
  let p01 := psub p1 p0 in
  let p02 := psub p2 p0 in
  let dp0p02 := fst p0 * snd p02 - snd p0 * fst p02 in
  let dp0p01 := fst p0 * snd p01 - snd p0 * fst p01 in
  let dp01p02 := fst p01 * snd p02 - snd p01 * fst p02 in
  let dvp02 := fst v * snd p02 - snd v * fst p02 in
  let dvp01 := fst v * snd p01 - snd v * fst p01 in
  if Req_EM_T dp01p02 0 then false
  else
    let a := (dvp02 - dp0p02) / dp01p02 in
    let b := - (dvp01 - dp0p01) / dp01p02 in
    (if Rle_dec 0 a then true else false) && (if Rle_dec 0 b then true else false) && (if Rle_dec (a + b) 1 then true else false).

(** func/base.py:24-32 *)
Definition triangle_area (p : tri) : R :=
  let '(p0, p1, p2) := p in
  1 / 2 * Rabs (fst p0 * (snd p1 - snd p2) + fst p1 * (snd p2 - snd p0) + fst p2 * (snd p0 - snd p1)).

(** func/base.py:35-62 *)
Definition triangle_neighbors (p : tri) : list tri :=
  let '(p0, p1, p2) := p in
  let p01 := psub p1 p0 in
  let p02 := psub p2 p0 in
  let p12 := psub p2 p1 in
  let pref := tmap (fun a => padd (pscale (-1) (psub a p0)) p0) p in
  [ p;
    tadd p p01;
    tsub p p01;
    tadd p p02;
    tsub p p02;
    tadd p p12;
    tsub p p12;
    pref;
    tadd pref p01;
    tadd pref (pscale 2 p01);
    tadd pref p02;
    tadd pref (pscale 2 p02);
    tadd (tadd pref p01) p02 ].

(** func/base.py:65-81 *)
Definition triangle_upsample (p : tri) : list tri :=
  let '(p0, p1, p2) := p in
  let mid a b := ((fst a + fst b) / 2, (snd a + snd b) / 2) in
  let p01 := mid p1 p0 in
  let p02 := mid p2 p0 in
  let p12 := mid p2 p1 in
  [ (p0, p01, p02); (p01, p1, p12); (p02, p12, p2); (p01, p12, p02) ].

(** func/base.py:84-88 *)
Definition rlt (a b : R) : bool := if Rlt_dec a b then true else false.
Definition close_pt (a b : pt) : bool := rlt (Rabs (fst a - fst b)) (1 / 10 ^ 6) && rlt (Rabs (snd a - snd b)) (1 / 10 ^ 6).
Definition triangle_equals (p q : tri) : bool :=
  let '(p0, p1, p2) := p in let '(q0, q1, q2) := q in close_pt p0 q0 && close_pt p1 q1 && close_pt p2 q2.

(** func/base.py:95-100 and 168-173: keep x unless it is near one already kept; the special case i == 0 is the empty list *)
Definition keep {A} (near : A -> A -> bool) (l : list A) : list A :=
  fold_left (fun unique x => if existsb (near x) unique then unique else unique ++ [x]) l [].
(** func/base.py:91-102 *)
Definition remove_triangle_duplicates (p : list tri) : list tri := keep triangle_equals p.
(** func/base.py:163-175 *)
Definition norm2 (a : pt) : R := sqrt (fst a ^ 2 + snd a ^ 2).
Definition remove_duplicate_points (x : list pt) (epsilon : R) : list pt := keep (fun a b => rlt (norm2 (psub a b)) epsilon) x.

(** func/base.py:105-160 with batch_lm and its default settings *)
Definition vec_of (p : pt) : vec := fun k => match k with O => fst p | _ => snd p end.
Definition pt_of (v : vec) : pt := (v 0%nat, v 1%nat).
Definition forward_raytrace_rootfind (solve : mat -> vec -> vec) (raytrace : pt -> pt) (b : pt) (guesses : list pt) : result (list pt) :=
  let f : vec -> vec := fun X => vec_of (raytrace (pt_of X)) in
  let n := length guesses in
  bind (batch_lm 2 2 solve f 9 11 (1 / 10) (1 / 10 ^ 9) (10 ^ 9) (1 / 10 ^ 4) n n
          (fun k => vec_of (nth k guesses (0, 0))) (fun _ => vec_of b) (fun _ => Diag (fun _ => / 1)) 1 50)
       (fun out => Ok (map (fun k => pt_of (fst (fst out) k)) (seq 0 n))).

(** backend.allclose(Smid, s, atol=epsilon) with its default rtol *)
Definition allclose (l : list pt) (s : pt) (atol : R) : bool :=
  forallb (fun a => (if Rle_dec (Rabs (fst a - fst s)) (atol + 1 / 10 ^ 5 * Rabs (fst s)) then true else false) &&
                    (if Rle_dec (Rabs (snd a - snd s)) (atol + 1 / 10 ^ 5 * Rabs (snd s)) then true else false)) l.

(** func/base.py:180-197: the upper, then the lower triangles of the squares of the grid, row by row *)
Definition initial_triangles (x0 y0 fov : R) (n : nat) : list tri :=
  let E := fun i j : nat => (linspace (x0 - fov / 2) (x0 + fov / 2) n i, linspace (y0 - fov / 2) (y0 + fov / 2) n j) in
  let cells := flat_map (fun i => map (fun j => (i, j)) (seq 0 (n - 1))) (seq 0 (n - 1)) in
  map (fun ij => let '(i, j) := ij in (E i j, E i (S j), E (S i) (S j))) cells ++
  map (fun ij => let '(i, j) := ij in (E i j, E (S i) j, E (S i) (S j))) cells.

Section Search.
Variable raytrace : pt -> pt.
(** the root finder started from the centres of the triangles *)
Variable rootfind : pt -> list pt -> result (list pt).
Variable s : pt.
Variable epsilon : R.
Definition centroid (p : tri) : pt := let '(p0, p1, p2) := p in pscale (1 / 3) (padd (padd p0 p1) p2).
(** func/base.py:203-208 *)
Definition refine (E : list tri) : list tri :=
  flat_map triangle_upsample (remove_triangle_duplicates (flat_map triangle_neighbors E)).
(** func/base.py:210-215 *)
Definition locate (E : list tri) : list tri := filter (fun p => triangle_contains (tmap raytrace p) s) E.
(** func/base.py:228 *)
Definition all_inside (E : list tri) (Emid : list pt) : bool := forallb (fun pe => triangle_contains (fst pe) (snd pe)) (combine E Emid).
(** func/base.py:200-238.  [left] is the number of passes after this one (i <= max_depth); [Emid] is unbound (None) until the
    triangles are small enough.  The result is the final Emid. *)
Fixpoint search (left : nat) (first : bool) (E : list tri) (Emid : option (list pt)) : result (option (list pt)) :=
  let E := if first then E else refine E in
  let E := locate E in
  match E with
  | [] => Raise IndexError (* E[0] *)
  | p :: _ =>
    bind
      (if rlt (triangle_area p) (epsilon ^ 2) then
         bind (rootfind s (map centroid E)) (fun Emid1 =>
         if negb (Nat.eqb (length Emid1) (length E)) then Raise ValueError
         else if all_inside E Emid1 && allclose (map raytrace Emid1) s epsilon then Ok (true, Some Emid1)
         else Ok (false, Some (filter (fun e => rlt (norm2 (psub (raytrace e) s)) epsilon) Emid1)))
       else Ok (false, Emid))
      (fun r => let '(done, Emid) := r in
       if done then Ok Emid
       else match left with
            | O => Ok Emid
            | S left' => search left' false E Emid
            end)
  end.
(** func/base.py:178-244 *)
Definition forward_raytrace (x0 y0 fov : R) (n max_depth : nat) : result (list pt) :=
  bind (search max_depth true (initial_triangles x0 y0 fov n) None) (fun Emid =>
  match Emid with
  | None => Raise NameError (* local variable 'Emid' referenced before assignment *)
  | Some l => Ok (remove_duplicate_points l epsilon)
  end).
End Search.
