(** * The gaussian point spread function (model of src/caustics/utils.py:1638-1661) *)
From Coq Require Import Reals Arith.
From Verif Require Import Fsum.
Local Open Scope R_scope.

(** backend.linspace(a, b, n)[i] *)
Definition linspace (a b : R) (n i : nat) : R := if Nat.leb n 1 then a else a + INR i * ((b - a) / INR (n - 1)).
(** row-major reshape of an array with [cols] columns: the entry with flat index k *)
Definition flat_entry (cols : nat) (Z : nat -> nat -> R) (k : nat) : R := Z (Nat.div k cols) (Nat.modulo k cols).
(** utils.py:1639-1661: entry (i, j) of the result, which has ny rows and nx columns *)
Definition gaussian_sums (pixelscale : R) (nx ny : nat) (sigma : R) (upsample : nat) (i j : nat) : R :=
  let xs := linspace (- (INR (nx * upsample) - 1) * pixelscale / 2) ((INR (nx * upsample) - 1) * pixelscale / 2) (nx * upsample) in
  let ys := linspace (- (INR (ny * upsample) - 1) * pixelscale / 2) ((INR (ny * upsample) - 1) * pixelscale / 2) (ny * upsample) in
  let X := fun r c : nat => xs c in
  let Y := fun r c : nat => ys r in
  let Z := fun r c => exp (- (1 / 2) * (X r c ^ 2 + Y r c ^ 2) / sigma ^ 2) in
  (* Z.reshape(ny, upsample, nx, upsample)[i, a, j, b], summed over a and b *)
  fsum upsample (fun a => fsum upsample (fun b => flat_entry (nx * upsample) Z (((i * upsample + a) * nx + j) * upsample + b))).
Definition gaussian (pixelscale : R) (nx ny : nat) (sigma : R) (upsample : nat) (i j : nat) : R :=
  gaussian_sums pixelscale nx ny sigma upsample i j / fsum ny (fun r => fsum nx (fun c => gaussian_sums pixelscale nx ny sigma upsample r c)).
