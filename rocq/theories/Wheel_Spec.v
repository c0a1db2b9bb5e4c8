(** * A ring of galaxies of one shape *)
From Coq Require Import Reals.
From Coquelicot Require Import Complex.
Local Open Scope R_scope.

(** the ellipticity e of a galaxy turned by j / N of half a turn *)
Definition turned (e : C) (N j : nat) : C := (e * (cos (2 * PI * INR j / INR N), sin (2 * PI * INR j / INR N)))%C.
(** the mean of N complex numbers *)
Fixpoint total (N : nat) (f : nat -> C) : C := match N with O => RtoC 0 | S k => (total k f + f k)%C end.
Definition mean (N : nat) (f : nat -> C) : C := (total N f / RtoC (INR N))%C.
