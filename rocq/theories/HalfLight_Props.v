(** * C92: Re is the half-light radius of a Sersic profile *)
From Coq Require Import Reals Lra Lia Arith.
From Coquelicot Require Import Coquelicot.
From Verif Require Import Py Fsum Light_Model Light_Spec HalfLight_Spec HalfLight_Proofs.
Local Open Scope R_scope.

(** not exactly: with n = 1/2, more than half of the light is inside Re *)
Theorem C92_refuted : forall x0 y0 q phi Re Ie, 0 < Re -> 0 < Ie -> 0 < q -> exists I,
  (forall x y, sersic_brightness false 0 x0 y0 q phi (1 / 2) Re Ie x y = Some (I (ell_radius x0 y0 q phi x y))) /\
  (exists L, light_inside q I Re L) /\ (exists Lt, light_total q I Lt) /\ forall L Lt, light_inside q I Re L -> light_total q I Lt -> Lt / 2 < L.
Proof. exact class_not_half. Qed.
Print Assumptions C92_refuted.
(** for integer and half-integer n the fraction of the light inside Re differs from 1/2 by at most 2e-4 / (2n)^3; with use_lenstronomy_k by at most 0.011, and 6e-4 from n = 3/2 on *)
Theorem C92_half_light_partial : forall use_lenstronomy_k m x0 y0 q phi Re Ie, (1 <= m <= 20)%nat -> 0 < Re -> 0 < Ie -> 0 < q -> exists I L Lt,
  (forall x y, sersic_brightness use_lenstronomy_k 0 x0 y0 q phi (INR m / 2) Re Ie x y = Some (I (ell_radius x0 y0 q phi x y))) /\
  light_inside q I Re L /\ light_total q I Lt /\ 0 < Lt /\
  Rabs (L / Lt - 1 / 2) <= (if use_lenstronomy_k then if Nat.leb m 2 then 11 / 1000 else 6 / 10000 else 2 / 10000 / INR m ^ 3).
Proof. exact class_half_light. Qed.
Print Assumptions C92_half_light_partial.
(** the light inside any radius r: t is k (r / Re)^(1/n) *)
Theorem C92_growth_partial : forall (use_lenstronomy_k : bool) m x0 y0 q phi Re Ie, (1 <= m <= 20)%nat -> 0 < Re -> 0 < Ie -> 0 < q -> exists I Lt,
  (forall x y, sersic_brightness use_lenstronomy_k 0 x0 y0 q phi (INR m / 2) Re Ie x y = Some (I (ell_radius x0 y0 q phi x y))) /\ light_total q I Lt /\ 0 < Lt /\
  forall r, 0 < r -> let t := (if use_lenstronomy_k then k_lenstronomy (INR m / 2) else k_sersic (INR m / 2)) * Rpower (r / Re) (2 / INR m) in
  light_inside q I r (Lt * (1 - exp (- t) * fsum m (fun j => t ^ j / INR (fact j)))).
Proof. exact class_growth. Qed.
Print Assumptions C92_growth_partial.
Example C92_hyps : (1 <= 8 <= 20)%nat /\ 0 < 3 / 2 /\ INR 8 / 2 = 4.
Proof. split; [lia|]. split; [lra|]. cbn; lra. Qed.
