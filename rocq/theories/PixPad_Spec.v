(** * What C89-C91 talk about *)
From Coq Require Import Reals String Arith.
Local Open Scope R_scope.

(** which pixel of an n by n map stands at index a of the padded axis; beyond the padding there is nothing *)
Definition stands_at (padding : string) (n a : nat) : option nat :=
  if Nat.ltb a n then Some a
  else if String.eqb padding "tile" then if Nat.ltb a (2 * n) then Some (Nat.modulo a n) else None
  else if String.eqb padding "circular" then if Nat.ltb a (2 * n - 1) then Some (Nat.modulo a n) else None
  else if String.eqb padding "reflect" then if Nat.ltb a (2 * n - 1) then Some (n - 1 - (a - (n - 1)))%nat else None
  else None.
(** displacement of pixel i from the mass at index a of a periodic axis of s pixels; none if it is longer than the kernel *)
Definition displacement (pixelscale : R) (n s i a : nat) : option R :=
  let u := Nat.modulo (i + Nat.div (s + 1) 2 + (s - a)) s in
  if Nat.ltb u (2 * n) then Some ((INR u - INR n + 1 / 2) * pixelscale) else None.
(** the taper: 1 up to a fraction 1 - w of the half-size of the kernel, then linear to 0; no taper for w <= 0 *)
Definition taper (pixelscale : R) (n : nat) (w X Y : R) : R :=
  let r := sqrt (X ^ 2 + Y ^ 2) / ((INR n - 1 / 2) * pixelscale) in
  if Rle_dec w 0 then 1 else if Rle_dec r (1 - w) then 1 else if Rle_dec 1 r then 0 else (1 - r) / w.
(** the map moved cyclically: entry (i, j) of the result is entry (i + u, j + v) of the map *)
Definition moved (n u v : nat) (A : nat -> nat -> R) (i j : nat) : R := A (Nat.modulo (i + u) n) (Nat.modulo (j + v) n).
