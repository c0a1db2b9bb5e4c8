(** * What C109 talks about: point spread functions *)
From Coq Require Import Reals Arith String.
From Verif Require Import Fsum.
Local Open Scope R_scope.

(** the sum of a PSF with kr rows and kc columns *)
Definition total (kr kc : nat) (psf : nat -> nat -> R) : R := fsum kr (fun u => fsum kc (fun v => psf u v)).
(** the settings for which the two PSF modes agree (C66) *)
Definition mode_agrees (mode : string) (px py kr kc : nat) : Prop :=
  mode = "conv2d"%string \/ (mode = "fft"%string /\ px = py /\ (kr / 2 = kc / 2)%nat).
(** all the light of the PSF is in the pixel (u, v) *)
Definition single_pixel (kr kc : nat) (psf : nat -> nat -> R) (u v : nat) : Prop :=
  (u < kr)%nat /\ (v < kc)%nat /\ psf u v <> 0 /\ forall a b, (a < kr)%nat -> (b < kc)%nat -> (a <> u \/ b <> v) -> psf a b = 0.
(** dark unless closer to the centre than a on the first axis and b on the second *)
Definition dark_outside (B : R -> R -> R) (x0 y0 a b : R) : Prop := forall x y, a <= Rabs (x - x0) \/ b <= Rabs (y - y0) -> B x y = 0.
