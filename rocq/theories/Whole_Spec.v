(** * Moving, turning and mirroring a whole scene (C124) *)
From Coq Require Import Reals Arith List String.
From Verif Require Import Py Fsum LensBase_Model.
Local Open Scope R_scope.

(** a linear map of the plane, as the two rows of its matrix *)
Record linear := Linear { lxx : R; lxy : R; lyx : R; lyy : R }.
Definition apply (M : linear) (v : R * R) : R * R := (lxx M * fst v + lxy M * snd v, lyx M * fst v + lyy M * snd v).
(** it keeps lengths: a turn or a reflection *)
Definition keeps_lengths (M : linear) : Prop := forall v, fst (apply M v) ^ 2 + snd (apply M v) ^ 2 = fst v ^ 2 + snd v ^ 2.
(** the point v after the motion: the linear map, then a shift by (a, b) *)
Definition carry (M : linear) (a b : R) (v : R * R) : R * R := (fst (apply M v) + a, snd (apply M v) + b).
(** the motions named in the theorems *)
Definition unturned : linear := Linear 1 0 0 1.
Definition turned (t : R) : linear := Linear (cos t) (- sin t) (sin t) (cos t).
Definition flipped_y : linear := Linear 1 0 0 (-1).
Definition flipped_x : linear := Linear (-1) 0 0 1.
Definition swapped : linear := Linear 0 1 1 0.

(** lens' is lens carried along by the motion *)
Definition moved_lens (M : linear) (a b : R) (lens lens' : thin_lens) : Prop :=
  z_l lens' = z_l lens /\ forall x y, let p := carry M a b (x, y) in
  reduced_deflection_angle lens' (fst p) (snd p) = apply M (reduced_deflection_angle lens x y) /\
  potential lens' (fst p) (snd p) = potential lens x y /\ convergence lens' (fst p) (snd p) = convergence lens x y.
(** the matrix J as seen after the motion: M J times the transpose of M *)
Definition turn_matrix (M : linear) (J : mat2) : mat2 :=
  Mat2 (lxx M * (m00 J * lxx M + m01 J * lxy M) + lxy M * (m10 J * lxx M + m11 J * lxy M)) (lxx M * (m00 J * lyx M + m01 J * lyy M) + lxy M * (m10 J * lyx M + m11 J * lyy M))
       (lyx M * (m00 J * lxx M + m01 J * lxy M) + lyy M * (m10 J * lxx M + m11 J * lxy M)) (lyx M * (m00 J * lyx M + m01 J * lyy M) + lyy M * (m10 J * lyx M + m11 J * lyy M)).
(** the same for a ray-tracing function and for a light profile *)
Definition moved_ray (M : linear) (a b : R) (ray ray' : R -> R -> R * R) : Prop :=
  forall x y, let p := carry M a b (x, y) in ray' (fst p) (snd p) = carry M a b (ray x y).
Definition moved_light (M : linear) (a b : R) (f f' : option (R -> R -> R)) : Prop :=
  match f, f' with
  | Some f, Some f' => forall x y, let p := carry M a b (x, y) in f' (fst p) (snd p) = f x y
  | None, None => True
  | _, _ => False
  end.
(** two outcomes: the same error, or results in the relation P *)
Definition alike {A B} (P : A -> B -> Prop) (r : result A) (r' : result B) : Prop :=
  match r, r' with Ok v, Ok v' => P v v' | Raise e, Raise e' => e = e' | _, _ => False end.
(** a quadrature rule is the same seen from either end, as Gauss-Legendre rules are *)
Definition even_rule (leg : nat -> (nat -> R) * (nat -> R)) (level : option nat) : Prop :=
  match level with
  | Some l => forall k, (k < l)%nat -> fst (leg l) (l - 1 - k)%nat = - fst (leg l) k /\ snd (leg l) (l - 1 - k)%nat = snd (leg l) k
  | None => True
  end.
