(** * Discrete Fourier transforms (torch.fft.rfft2 / irfft2, jax.numpy.fft.rfft2 / irfft2 with an explicit size)

    These are library functions; this is what their documentation says.  [rfft2 x s] pads or crops x with zeros to the size s
    and keeps the columns 0 .. s1/2 of the spectrum; [irfft2 Y s] completes the other columns by Hermitian symmetry. *)
From Coq Require Import Reals Arith.
From Coquelicot Require Import Complex.
Local Open Scope R_scope.

Fixpoint csum (n : nat) (f : nat -> C) : C := match n with O => RtoC 0 | S k => Cplus (csum k f) (f k) end.
Definition cis (t : R) : C := (cos t, sin t).
(** forward and inverse transforms in one dimension *)
Definition dft (N : nat) (x : nat -> C) (k : nat) : C := csum N (fun a => Cmult (x a) (cis (- (2 * PI * INR (k * a) / INR N)))).
Definition idft (N : nat) (X : nat -> C) (p : nat) : C := Cmult (RtoC (/ INR N)) (csum N (fun k => Cmult (X k) (cis (2 * PI * INR (k * p) / INR N)))).
(** an array of shape (h, w) enlarged by zeros or cropped *)
Definition zero_pad (h w : nat) (x : nat -> nat -> R) (i j : nat) : R := if (Nat.ltb i h && Nat.ltb j w)%bool then x i j else 0.
Definition dft2 (s0 s1 : nat) (x : nat -> nat -> C) (k l : nat) : C := dft s0 (fun a => dft s1 (x a) l) k.
(** entries with l <= s1 / 2 are the ones returned *)
Definition rfft2 (h w : nat) (x : nat -> nat -> R) (s0 s1 : nat) (k l : nat) : C := dft2 s0 s1 (fun a b => RtoC (zero_pad h w x a b)) k l.
Definition hermitian (s0 s1 : nat) (Y : nat -> nat -> C) (k l : nat) : C :=
  if Nat.leb l (Nat.div s1 2) then Y k l else Cconj (Y (Nat.modulo (s0 - k) s0) (s1 - l)%nat).
Definition irfft2 (Y : nat -> nat -> C) (s0 s1 : nat) (p q : nat) : R :=
  fst (idft s0 (fun k => idft s1 (hermitian s0 s1 Y k) q) p).
