(** * C133: an elliptical isothermal lens makes at most four images *)
From Coq Require Import Reals Lra List.
From Verif Require Import LensBasic_Model LensBase_Model First_Spec Four_Spec Four_Proofs.
Import ListNotations.
Local Open Scope R_scope.

(** Whatever the source, no five different positions show it. *)
Theorem C133_at_most_four : forall x0 y0 q phi Rein bx by_, 0 < q <= 1 -> 0 < Rein -> forall l, NoDup l ->
  (forall p, In p l -> seen_at x0 y0 q phi Rein bx by_ p) -> (length l <= 4)%nat.
Proof. exact four. Qed.
Print Assumptions C133_at_most_four.
(** A source behind the centre has exactly four images, on the axes of the lens. *)
Theorem C133_centre : forall x0 y0 q phi Rein, 0 < q < 1 -> 0 < Rein -> let f := sqrt (1 - q ^ 2) in let a := Rein * sqrt q / f * atan (f / q) in let b := Rein * sqrt q / f * (/ 2 * ln ((1 + f) / (1 - f))) in
  let cross := [along x0 y0 phi a 0; along x0 y0 phi (- a) 0; along x0 y0 phi 0 b; along x0 y0 phi 0 (- b)] in NoDup cross /\ forall p, seen_at x0 y0 q phi Rein x0 y0 p <-> In p cross.
Proof. exact centre_four. Qed.
Print Assumptions C133_centre.
(** With q = 1 too: the code shows four points there, not the Einstein ring. *)
Theorem C133_round : forall x0 y0 phi Rein, 0 < Rein -> exists l, length l = 4%nat /\ NoDup l /\ forall p, seen_at x0 y0 1 phi Rein x0 y0 p <-> In p l.
Proof. exact round_four. Qed.
Print Assumptions C133_round.

Example C133_hyps : 0 < 1 / 2 <= 1 /\ exists l, NoDup l /\ length l = 4%nat /\ forall p, In p l -> seen_at 1 2 (1 / 2) 1 3 1 2 p.
Proof.
  split; [lra|]. destruct (centre_four 1 2 (1 / 2) 1 3) as [N E]; [lra|lra|]. eexists. split; [exact N|]. split; [reflexivity|]. intros p I. apply E, I.
Qed.
