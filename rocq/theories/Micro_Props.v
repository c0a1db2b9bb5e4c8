(** * C69: Microlens *)
From Coq Require Import Reals Lra Lia Arith String.
From Coquelicot Require Import Coquelicot.
From Verif Require Import Py Fsum Micro_Model Micro_Proofs.
Local Open Scope R_scope.

(** both methods, whatever the random numbers *)
Theorem C69_uniform : forall ray f rx ry fov method Nm Ng k, ordered fov -> samples method Nm Ng -> (forall i, 0 <= rx i <= 1) -> (forall i, 0 <= ry i <= 1) ->
  (forall x y, in_fov fov x y -> f (fst (ray x y)) (snd (ray x y)) = k) -> microlens ray f rx ry fov method Nm Ng = Ok (Some (k * area fov), Some 0).
Proof. exact uniform. Qed.
Print Assumptions C69_uniform.
(** only the part of the sky inside the field counts; the error estimate is at most half the range of brightness times the area over the square root of the number of samples *)
Theorem C69_bounds : forall ray f rx ry fov method Nm Ng lo hi, ordered fov -> samples method Nm Ng -> (forall i, 0 <= rx i <= 1) -> (forall i, 0 <= ry i <= 1) ->
  (forall x y, in_fov fov x y -> lo <= f (fst (ray x y)) (snd (ray x y)) <= hi) ->
  exists flux err, microlens ray f rx ry fov method Nm Ng = Ok (Some flux, Some err) /\ lo * area fov <= flux <= hi * area fov /\
  0 <= err <= (hi - lo) / 2 * area fov / sqrt (INR (count method Nm Ng)).
Proof. exact bounds. Qed.
Print Assumptions C69_bounds.
(** the grid method integrates affine brightness exactly *)
Theorem C69_affine : forall ray f rx ry fov Nm Ng c0 c1 c2, (2 <= Ng)%nat -> ordered fov -> (forall x y, in_fov fov x y -> f (fst (ray x y)) (snd (ray x y)) = c0 + c1 * x + c2 * y) ->
  let '(f0, f1, f2, f3) := fov in
  exists err, microlens ray f rx ry fov "grid" Nm Ng = Ok (Some (RInt (fun x => RInt (fun y => c0 + c1 * x + c2 * y) f2 f3) f0 f1), Some err).
Proof. exact affine. Qed.
Print Assumptions C69_affine.
Theorem C69_unknown : forall ray f rx ry fov method Nm Ng, method <> "mcmc"%string -> method <> "grid"%string -> microlens ray f rx ry fov method Nm Ng = Raise ValueError.
Proof. exact unknown. Qed.
Print Assumptions C69_unknown.
Example C69_hyps : ordered (-1, 2, 0, 3) /\ samples "grid" 0 5 /\ (forall x y, in_fov (-1, 2, 0, 3) x y -> -3 <= (fun x y => x - y) (fst ((fun x y => (x + 1, y)) x y)) (snd ((fun x y => (x + 1, y)) x y)) <= 3).
Proof. split; [cbn; lra|]. split; [right; split; [reflexivity|lia]|]. intros x y H. cbn in *. lra. Qed.
