(** * What C65-C68 talk about *)
From Coq Require Import Reals Arith List String.
From Verif Require Import Py Fsum Quad_Model Quad_Spec.
Local Open Scope R_scope.

(** centre of sub-pixel k of n on an axis of sub-pixels of size d centred at x0 *)
Definition sub_centre (x0 d : R) (n k : nat) : R := x0 + (INR k - (INR n - 1) / 2) * d.
(** quadrature of a brightness over the sub-pixel of size d centred at (x, y); levels up to 1 mean the value at the centre *)
Definition sub_mean (leg : nat -> (nat -> R) * (nat -> R)) (level : option nat) (f : R -> R -> R) (d x y : R) : R :=
  match level with
  | Some l => if Nat.ltb 1 l then quad l (fst (leg l)) (snd (leg l)) f d x y else f x y
  | None => f x y
  end.
(** the brightness of the scene for the given switches *)
Definition scene_brightness (raytrace : R -> R -> R * R) (source lens_light : option (R -> R -> R)) (source_on lens_on lensed : bool) (x y : R) : R :=
  match source with
  | Some f => if source_on then if lensed then f (fst (raytrace x y)) (snd (raytrace x y)) else f x y else 0
  | None => 0 end +
  match lens_light with Some g => if lens_on then g x y else 0 | None => 0 end.
(** plain convolution with the normalised PSF centred on its middle pixel (kr/2, kc/2), in steps of d *)
Definition blurred (kr kc : nat) (psf : nat -> nat -> R) (d : R) (B : R -> R -> R) (x y : R) : R :=
  fsum kr (fun u => fsum kc (fun v => psf u v / fsum kr (fun u' => fsum kc (psf u')) *
    B (x - (INR v - INR (kc / 2)) * d) (y - (INR u - INR (kr / 2)) * d))).
(** mean over the up x up sub-pixels of pixel (i, j) *)
Definition pixel_value (up px py : nat) (x0 y0 d : R) (B : R -> R -> R) (i j : nat) : R :=
  fsum up (fun a => fsum up (fun b => B (sub_centre x0 d (px * up) (j * up + b)) (sub_centre y0 d (py * up) (i * up + a)))) / INR (up * up).
(** the last value in l that [pick] selects, or v *)
Fixpoint latest {A B} (pick : A -> option B) (v : B) (l : list A) : B :=
  match l with nil => v | cons a l => latest pick (match pick a with Some b => b | None => v end) l end.
(** the quadrature rules used are Gauss-Legendre rules *)
Definition rules_ok (leg : nat -> (nat -> R) * (nat -> R)) (level : option nat) : Prop :=
  match level with Some l => (1 < l)%nat -> gauss_rule l (fst (leg l)) (snd (leg l)) | None => True end.
