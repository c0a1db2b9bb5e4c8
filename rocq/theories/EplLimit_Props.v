(** * C101: the EPL series converges to a consistent lens, at the rate its axis ratio dictates *)
From Coq Require Import Reals Lra Lia.
From Verif Require Import Py Lens_Spec LensBasic_Model Epl_Model Epl_Spec Series2_Proofs EplLimit_Proofs.
Local Open Scope R_scope.

(** There is an exact EPL lens, with the library's convergence, and the deflection computed with [n] terms is at most the stated distance from its deflection, for every [n]. *)
Theorem C101_limit : forall x0 y0 q phi Rein t, 0 < q <= 1 -> 0 < Rein -> 0 < t < 2 ->
  exists psi alpha, (forall x y, x <> x0 \/ y <> y0 -> lens_consistent psi alpha (convergence_epl x0 y0 q phi Rein t 0) x y) /\
  forall n c x y, (1 <= n)%nat -> good_chunk n c -> x <> x0 \/ y <> y0 ->
    let E := 2 / ((2 - t) * q) * convergence_epl x0 y0 q phi Rein t 0 x y * sqrt ((x - x0) ^ 2 + (y - y0) ^ 2) * ((1 - q) / (1 + q)) ^ n in
    exists a, reduced_deflection_angle_epl x0 y0 q phi Rein t n c x y = Ok a /\ (fst a - fst (alpha x y)) ^ 2 + (snd a - snd (alpha x y)) ^ 2 <= E ^ 2.
Proof. exact epl_limit. Qed.
Print Assumptions C101_limit.
(** For t = 1 the exact lens is the SIE; the bound does not depend on the position. *)
Theorem C101_isothermal : forall x0 y0 q phi Rein n c x y, (1 <= n)%nat -> good_chunk n c -> 0 < q < 1 -> 0 < Rein -> x <> x0 \/ y <> y0 ->
  exists a, reduced_deflection_angle_epl x0 y0 q phi Rein 1 n c x y = Ok a /\
    let b := reduced_deflection_angle_sie x0 y0 q phi Rein 0 x y in
    (fst a - fst b) ^ 2 + (snd a - snd b) ^ 2 <= (Rein / sqrt q * (((1 - q) / (1 + q)) ^ n / (2 * INR n + 1))) ^ 2.
Proof. exact epl_iso_error. Qed.
Print Assumptions C101_isothermal.
Example C101_hyps : 0 < 4 / 5 <= 1 /\ 0 < 2 /\ 0 < 3 / 2 < 2 /\ (1 <= 18)%nat /\ good_chunk 18 None /\ good_chunk 18 (Some 12%nat) /\ (1 <> 0 \/ 0 <> 0) /\ 0 < 4 / 5 < 1.
Proof. cbn. repeat split; try lra; try lia. Qed.
