(** * Vocabulary for the derivatives of a simulated image *)
From Coq Require Import Reals List.
From Verif Require Import Py LensBase_Model LensBasic_Model Light_Model Quad_Model Sim_Model Ad_Model Ad_Spec Rev_Spec AdSim_Model.
Local Open Scope R_scope.

(** one pixel of the image that is returned *)
Definition pixel (r : result image) (i j : nat) : R := match r with Ok im => at_ im i j | Raise _ => 0 end.
(** the light that comes from the point (x, y) of the image plane: of the source there, or of the source at the end of the ray *)
Definition seen_at (ray : R -> R -> R * R) (f : R -> R -> R) (lensed : bool) (x y : R) : R :=
  if lensed then let p := ray x y in f (fst p) (snd p) else f x y.
(** [P] holds at every point where the simulator samples the image plane *)
Definition at_samples (S : sim) (P : R -> R -> Prop) : Prop :=
  forall i j k, (i < snd (n_pix (bld S)))%nat -> (j < fst (n_pix (bld S)))%nat -> (k < depth (bld S))%nat -> P (grid_x (bld S) i j k) (grid_y (bld S) i j k).
(** forward and backward differentiation are both possible, and the values agree *)
Definition both_ways (F : (nat -> R) -> R) (t : expr) (a : nat -> R) (req : nat -> bool) : Prop :=
  tame a t /\ ev a t = F a /\ forall k, req k = true -> ad_exact F t a (one_of req k).

(** ** a program [t] follows a function F of the arguments in the sense of [Rel] (for instance: its derivative is exact) *)
Section Follow.
Variable Rel : ((nat -> R) -> R) -> expr -> Prop.
Section Samples.
Variables (ray : (nat -> R) -> R -> R -> R * R) (t_ray : expr -> expr -> expr * expr) (S : sim) (X0 Y0 : (nat -> R) -> R) (x0 y0 : expr).
(** the light that is sampled, with the grid shifted by (X0, Y0) *)
Definition samples_follow (f : (nat -> R) -> R -> R -> R) (t : expr -> expr -> expr) (lensed : bool) : Prop :=
  at_samples S (fun gx gy => Rel (fun b => seen_at (ray b) (f b) lensed (gx + X0 b) (gy + Y0 b))
    (let x := Add (Cst gx) x0 in let y := Add (Cst gy) y0 in if lensed then let p := t_ray x y in t (fst p) (snd p) else t x y)).
(** a light that may be absent or switched off *)
Definition light_follows (f : option ((nat -> R) -> R -> R -> R)) (t : option (expr -> expr -> expr)) (on lensed : bool) : Prop :=
  match f, t with Some f, Some t => on = true -> samples_follow f t lensed | None, None => True | _, _ => False end.
End Samples.
(** whatever the arguments, the image has the traced shape, and every pixel of it follows; or the same error is raised *)
Definition image_follows (r : (nat -> R) -> result image) (t : result timage) : Prop :=
  match t with
  | Ok T => (forall b, exists im, r b = Ok im /\ rows im = t_rows T /\ cols im = t_cols T) /\ forall i j, Rel (fun b => pixel (r b) i j) (t_at T i j)
  | Raise e => forall b, r b = Raise e
  end.
(** the PSF is used unless it is switched off or has a single pixel; its pixels follow and do not add up to zero *)
Definition psf_follows (a : nat -> R) (kr kc : nat) (psf : (nat -> R) -> nat -> nat -> R) (t : nat -> nat -> expr) (on : bool) : Prop :=
  on = true -> (kr <> 1 \/ kc <> 1)%nat -> (forall u v, (u < kr)%nat -> (v < kc)%nat -> Rel (fun b => psf b u v) (t u v)) /\ psf_sum kr kc (psf a) <> 0.
End Follow.
Definition at_env (f : option ((nat -> R) -> R -> R -> R)) (b : nat -> R) : option light := match f with Some f => Some (f b) | None => None end.

(** ** an isothermal ellipsoid and two Sersic profiles; the arguments are: 0, 1 the shift of the image, 2-6 the lens (x0, y0, q, phi, Rein),
    7-13 the source and 14-20 the light of the lens (x0, y0, q, phi, n, Re, Ie), from 21 on the pixels of the PSF *)
Definition sie_lens (s : R) (b : nat -> R) : R -> R -> R * R := LensBase_Model.raytrace (fun x y => reduced_deflection_angle_sie (b 2%nat) (b 3%nat) (b 4%nat) (b 5%nat) (b 6%nat) s x y).
Definition sersic_light (lenstronomy_k : bool) (s : R) (m : nat) (b : nat -> R) (x y : R) : R :=
  match sersic_brightness lenstronomy_k s (b m) (b (m + 1)%nat) (b (m + 2)%nat) (b (m + 3)%nat) (b (m + 4)%nat) (b (m + 5)%nat) (b (m + 6)%nat) x y with Some v => v | None => 0 end.
Definition free_psf (kc : nat) (b : nat -> R) (u v : nat) : R := b (21 + u * kc + v)%nat.
(** axis ratio, index and radius of the profile are positive *)
Definition sersic_fine (m : nat) (a : nat -> R) : Prop := 0 < a (m + 2)%nat /\ 0 < a (m + 4)%nat /\ 0 < a (m + 5)%nat.
