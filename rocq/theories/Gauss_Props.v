(** * C18: gaussian *)
From Coq Require Import Reals Lia Lra.
From Verif Require Import Fsum Gauss_Model Gauss_Proofs.
Local Open Scope R_scope.

Theorem C18_positive : forall pixelscale nx ny sigma upsample i j, sigma <> 0 -> (1 <= upsample)%nat -> (i < ny)%nat -> (j < nx)%nat ->
  0 < gaussian pixelscale nx ny sigma upsample i j.
Proof. exact gaussian_positive. Qed.
Print Assumptions C18_positive.
Theorem C18_sum_one : forall pixelscale nx ny sigma upsample, sigma <> 0 -> (1 <= upsample)%nat -> (1 <= nx)%nat -> (1 <= ny)%nat ->
  fsum ny (fun i => fsum nx (fun j => gaussian pixelscale nx ny sigma upsample i j)) = 1.
Proof. exact gaussian_sum_one. Qed.
Print Assumptions C18_sum_one.
Theorem C18_symmetric : forall pixelscale nx ny sigma upsample i j, sigma <> 0 -> (i < ny)%nat -> (j < nx)%nat ->
  gaussian pixelscale nx ny sigma upsample (ny - 1 - i) j = gaussian pixelscale nx ny sigma upsample i j /\
  gaussian pixelscale nx ny sigma upsample i (nx - 1 - j) = gaussian pixelscale nx ny sigma upsample i j.
Proof. exact gaussian_rev. Qed.
Print Assumptions C18_symmetric.
(** entry (i, j) is the share of the block of upsample by upsample samples at rows i*upsample .. and columns j*upsample .. *)
Theorem C18_blocks : forall pixelscale nx ny sigma upsample i j, sigma <> 0 -> (1 <= upsample)%nat -> (i < ny)%nat -> (j < nx)%nat ->
  let g n k := exp (- (1 / 2) * ((INR k - (INR n - 1) / 2) * pixelscale) ^ 2 / sigma ^ 2) in
  gaussian pixelscale nx ny sigma upsample i j * (fsum (ny * upsample) (g (ny * upsample)%nat) * fsum (nx * upsample) (g (nx * upsample)%nat)) =
  fsum upsample (fun a => g (ny * upsample)%nat (i * upsample + a)%nat) * fsum upsample (fun b => g (nx * upsample)%nat (j * upsample + b)%nat).
Proof. exact gaussian_value. Qed.
Print Assumptions C18_blocks.
Example C18_hyps : (2 : R) <> 0 /\ (1 <= 3)%nat /\ (1 < 4)%nat /\ (6 < 7)%nat.
Proof. repeat split; lra || lia. Qed.
