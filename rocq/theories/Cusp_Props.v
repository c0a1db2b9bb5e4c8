(** * C143: how many images a source on an axis of an elliptical lens has *)
From Coq Require Import Reals Lra Lia List.
From Verif Require Import RealFun LensBasic_Model Four_Spec Cusp_Proofs.
Import ListNotations.
Local Open Scope R_scope.

(** A source at (signed) distance beta on the major axis of an SIE without core has one image, one more when |beta| < K atan(f/q), and two more when |beta| < K (f/q - atan(f/q));
    f = sqrt(1 - q^2), K = Rein sqrt(q) / f. The source at the centre and those exactly at the two distances are included. *)
Theorem C143_major : forall x0 y0 q phi Rein beta, 0 < q < 1 -> 0 < Rein -> let f := sqrt (1 - q ^ 2) in let K := Rein * sqrt q / f in
  let src := along x0 y0 phi beta 0 in exists l, NoDup l /\ (forall p, seen_at x0 y0 q phi Rein (fst src) (snd src) p <-> In p l) /\
  length l = (1 + (if Rlt_dec (Rabs beta) (K * atan (f / q)) then 1 else 0) + (if Rlt_dec (Rabs beta) (K * (f / q - atan (f / q))) then 2 else 0))%nat.
Proof. exact major_count. Qed.
Print Assumptions C143_major.
(** On the minor axis: one, one more when |beta| < K artanh(f), two more when |beta| < K (artanh(f) - f). *)
Theorem C143_minor : forall x0 y0 q phi Rein beta, 0 < q < 1 -> 0 < Rein -> let f := sqrt (1 - q ^ 2) in let K := Rein * sqrt q / f in let artanh u := / 2 * ln ((1 + u) / (1 - u)) in
  let src := along x0 y0 phi 0 beta in exists l, NoDup l /\ (forall p, seen_at x0 y0 q phi Rein (fst src) (snd src) p <-> In p l) /\
  length l = (1 + (if Rlt_dec (Rabs beta) (K * artanh f) then 1 else 0) + (if Rlt_dec (Rabs beta) (K * (artanh f - f)) then 2 else 0))%nat.
Proof. exact minor_count. Qed.
Print Assumptions C143_minor.
(** Three images of a source on the major axis occur exactly for lenses flat enough, 2 atan(f/q) < f/q, whatever the Einstein radius; *)
Theorem C143_three : forall x0 y0 q phi Rein, 0 < q < 1 -> 0 < Rein -> let f := sqrt (1 - q ^ 2) in
  ((exists beta l, let src := along x0 y0 phi beta 0 in NoDup l /\ length l = 3%nat /\ forall p, seen_at x0 y0 q phi Rein (fst src) (snd src) p <-> In p l) <-> 2 * atan (f / q) < f / q).
Proof. exact major_three. Qed.
Print Assumptions C143_three.
(** on the minor axis they never occur. *)
Theorem C143_not_three : forall x0 y0 q phi Rein beta l, 0 < q < 1 -> 0 < Rein -> let src := along x0 y0 phi 0 beta in
  NoDup l -> (forall p, seen_at x0 y0 q phi Rein (fst src) (snd src) p <-> In p l) -> length l <> 3%nat.
Proof. exact minor_not_three. Qed.
Print Assumptions C143_not_three.

(** The hypotheses can be met: q = 1/5, and a source far out on the major axis has one image. *)
Example C143_hyps : 0 < 1 / 5 < 1 /\ 0 < 1 /\ let f := sqrt (1 - (1 / 5) ^ 2) in let src := along 0 0 0 (1 * sqrt (1 / 5) / f * (f / (1 / 5))) 0 in
  exists l, NoDup l /\ (forall p, seen_at 0 0 (1 / 5) 0 1 (fst src) (snd src) p <-> In p l) /\ length l = 1%nat.
Proof.
  split; [lra|]. split; [lra|]. intros f src. destruct (a_cusps (1 / 5) 1) as (P1 & P2 & _); [lra|lra|]. fold f in P1, P2. set (K := 1 * sqrt (1 / 5) / f) in *.
  destruct (major_count 0 0 (1 / 5) 0 1 (K * (f / (1 / 5)))) as (l & N & E & L); [lra|lra|]. exists l. split; [exact N|]. split; [exact E|]. rewrite L. fold f K.
  assert (0 < K * (f / (1 / 5))) by lra. rewrite Rabs_right by lra. destruct (Rlt_dec (K * (f / (1 / 5))) (K * atan (f / (1 / 5)))); [lra|]. destruct (Rlt_dec (K * (f / (1 / 5))) (K * (f / (1 / 5) - atan (f / (1 / 5))))); [lra|]. reflexivity.
Qed.
