(** * Directions on the sky *)
From Coq Require Import Reals.
Local Open Scope R_scope.
(** unit vector towards right ascension ra and declination dec, both in degrees *)
Definition direction (ra dec : R) : R * R * R :=
  let a := ra * (PI / 180) in let d := dec * (PI / 180) in (cos d * cos a, cos d * sin a, sin d).
Definition dot (u v : R * R * R) : R := fst (fst u) * fst (fst v) + snd (fst u) * snd (fst v) + snd u * snd v.
(** the open hemisphere around a direction *)
Definition visible (ra dec ra0 dec0 : R) : Prop := 0 < dot (direction ra dec) (direction ra0 dec0).
