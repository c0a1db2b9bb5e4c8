(** * The simulated image as automatic differentiation sees it (sims/lens_source.py, light/sersic.py)

    The grid and the quadrature weights are constants; the shift of the grid, the lens, the lights and the pixels of the PSF are traced.
    The discrete Fourier transforms are linear maps and are written out as the sums they are; the libraries differentiate them by their
    transposes, which gives the same numbers. *)
From Coq Require Import Reals ZArith Arith List Bool String.
From Verif Require Import Py Geo_Model Quad_Model PixConv_Model Sim_Model Ad_Model AdLens_Model AdEpl_Model.
Import ListNotations.
Local Open Scope R_scope.
Local Open Scope ad_scope.

(** an array of traced entries *)
Record timage := { t_rows : nat; t_cols : nat; t_at : nat -> nat -> expr }.

(** backend.sum *)
Fixpoint t_fsum (n : nat) (f : nat -> expr) : expr := match n with O => Cst 0 | S k => t_fsum k f + f k end.
Fixpoint t_ccsum (n : nat) (f : nat -> cexpr) : cexpr := match n with O => (Cst 0, Cst 0) | S k => t_cadd (t_ccsum k f) (f k) end.
(** backend.fft.rfft2, backend.fft.irfft2 (see Dft_Model) *)
Definition t_cis (t : R) : cexpr := (Cst (cos t), Cst (sin t)).
Definition t_dft (N : nat) (x : nat -> cexpr) (k : nat) : cexpr := t_ccsum N (fun a => t_cmul (x a) (t_cis (- (2 * PI * INR (k * a) / INR N))%R)).
Definition t_idft (N : nat) (X : nat -> cexpr) (p : nat) : cexpr :=
  t_cmul (Cst (/ INR N)%R, Cst 0) (t_ccsum N (fun k => t_cmul (X k) (t_cis (2 * PI * INR (k * p) / INR N)%R))).
Definition t_zero_pad (h w : nat) (x : nat -> nat -> expr) (i j : nat) : expr := if (Nat.ltb i h && Nat.ltb j w)%bool then x i j else Cst 0.
Definition t_rfft2 (h w : nat) (x : nat -> nat -> expr) (s0 s1 : nat) (k l : nat) : cexpr :=
  t_dft s0 (fun a => t_dft s1 (fun b => (t_zero_pad h w x a b, Cst 0)) l) k.
Definition t_hermitian (s0 s1 : nat) (Y : nat -> nat -> cexpr) (k l : nat) : cexpr :=
  if Nat.leb l (Nat.div s1 2) then Y k l else t_conj (Y (Nat.modulo (s0 - k) s0) (s1 - l)%nat).
Definition t_irfft2 (Y : nat -> nat -> cexpr) (s0 s1 : nat) (p q : nat) : expr :=
  fst (t_idft s0 (fun k => t_idft s1 (t_hermitian s0 s1 Y k) q) p).
(** backend.conv2d with padding="same" (see PixConv_Model) *)
Definition t_at_Z (H W : nat) (im : nat -> nat -> expr) (i j : Z) : expr :=
  if ((0 <=? i) && (i <? Z.of_nat H) && (0 <=? j) && (j <? Z.of_nat W))%Z%bool then im (Z.to_nat i) (Z.to_nat j) else Cst 0.
Definition t_conv2d_same (H W : nat) (im : nat -> nat -> expr) (h w : nat) (weight : nat -> nat -> expr) (p q : nat) : expr :=
  t_fsum h (fun a => t_fsum w (fun b => t_at_Z H W im (Z.of_nat p + Z.of_nat a - Z.of_nat (Nat.div (h - 1) 2)) (Z.of_nat q + Z.of_nat b - Z.of_nat (Nat.div (w - 1) 2)) * weight a b)).
(** backend.avg_pool2d *)
Definition t_avg_pool2d (x : timage) (k : nat) : result timage :=
  let h := Nat.div (t_rows x) k in let w := Nat.div (t_cols x) k in
  if (Nat.eqb h 0 || Nat.eqb w 0)%bool then Raise RuntimeError
  else Ok {| t_rows := h; t_cols := w; t_at := fun i j => t_fsum k (fun a => t_fsum k (fun b => t_at x (i * k + a)%nat (j * k + b)%nat)) / Cst (INR (k * k)) |}.

Definition t_light := expr -> expr -> expr.
Section Call.
Variables (t_raytrace : expr -> expr -> expr * expr) (S : sim).
(** lens_source.py:370 *)
Definition t_points (x0 y0 : expr) : list (expr * expr) :=
  let b := bld S in flat (snd (n_pix b)) (fst (n_pix b)) (depth b) (fun i j k => (Cst (grid_x b i j k) + x0, Cst (grid_y b i j k) + y0)).
(** lens_source.py:382 *)
Definition t_integrate (mu_fine : list expr) : nat -> nat -> expr :=
  let b := bld S in fun i j => t_fsum (depth b) (fun k => nth ((i * fst (n_pix b) + j) * depth b + k) mu_fine (Cst 0) * Cst (weights b k)).
(** lens_source.py:373-400 *)
Definition t_scene (source lens_light : option t_light) (x0 y0 : expr) (source_on lens_on lensed : bool) (chunk : option nat) : result (nat -> nat -> expr) :=
  let pts := t_points x0 y0 in
  bind (match source with
        | Some f => if source_on then
            if lensed then
              bind (vmap chunk (fun p => t_raytrace (fst p) (snd p)) pts) (fun b =>
              bind (vmap chunk (fun p => f (fst p) (snd p)) b) (fun mu_fine => Ok (t_integrate mu_fine)))
            else bind (vmap chunk (fun p => f (fst p) (snd p)) pts) (fun mu_fine => Ok (t_integrate mu_fine))
          else Ok (fun _ _ => Cst 0)
        | None => Ok (fun _ _ => Cst 0) end) (fun mu =>
  match lens_light with
  | Some g => if lens_on then bind (vmap chunk (fun p => g (fst p) (snd p)) pts) (fun mu_fine => Ok (fun i j => mu i j + t_integrate mu_fine i j)) else Ok mu
  | None => Ok mu end).
(** lens_source.py:367, 402-420 *)
Definition t_psf_sum (kr kc : nat) (psf : nat -> nat -> expr) : expr := t_fsum kr (fun u => t_fsum kc (psf u)).
Definition t_convolve (kr kc : nat) (psf : nat -> nat -> expr) (psf_convolve : bool) (mu : nat -> nat -> expr) : timage :=
  let b := bld S in let h := snd (n_pix b) in let w := fst (n_pix b) in
  let plain := {| t_rows := h; t_cols := w; t_at := mu |} in
  let psf_n i j := psf i j / t_psf_sum kr kc psf in
  if (psf_convolve && negb (Nat.eqb kr 1 && Nat.eqb kc 1))%bool then
    if String.eqb (psf_mode (cfg S)) "fft" then
      let '(s0, s1) := fft_s b in
      let conv p q := t_irfft2 (fun k l => t_cmul (t_rfft2 h w mu s0 s1 k l) (t_rfft2 kr kc psf_n s0 s1 k l)) s0 s1 p q in
      {| t_rows := s0; t_cols := s1; t_at := fun i j => conv (rolled s0 (- Z.of_nat (fst (psf_pad b))) i) (rolled s1 (- Z.of_nat (snd (psf_pad b))) j) |}
    else if String.eqb (psf_mode (cfg S)) "conv2d" then
      {| t_rows := h; t_cols := w; t_at := t_conv2d_same h w mu kr kc (fun i j => psf (kr - 1 - i)%nat (kc - 1 - j)%nat / t_psf_sum kr kc psf) |}
    else plain
  else plain.
(** lens_source.py:422-432 *)
Definition t_native (mu : timage) : result timage :=
  let b := bld S in let c := cfg S in
  let r0 := snd (psf_pad b) in let r1 := (pixels_y c * upsample_factor c + snd (psf_pad b))%nat in
  let c0 := fst (psf_pad b) in let c1 := (pixels_x c * upsample_factor c + fst (psf_pad b))%nat in
  t_avg_pool2d {| t_rows := slice_len (t_rows mu) r0 r1; t_cols := slice_len (t_cols mu) c0 c1; t_at := fun i j => t_at mu (slice_start (t_rows mu) r0 + i)%nat (slice_start (t_cols mu) c0 + j)%nat |} (upsample_factor c).
(** lens_source.py:329-432 *)
Definition t_call (source lens_light : option t_light) (kr kc : nat) (psf : nat -> nat -> expr) (x0 y0 : expr) (source_on lens_on lensed psf_convolve : bool) (chunk : option nat) : result timage :=
  bind (t_scene source lens_light x0 y0 source_on lens_on lensed chunk) (fun mu => t_native (t_convolve kr kc psf psf_convolve mu)).
End Call.

(** lenses/base.py:827-863 *)
Definition t_raytrace (alpha : expr -> expr -> expr * expr) (x y : expr) : expr * expr := let '(ax, ay) := alpha x y in (x - ax, y - ay).
(** light/func/sersic.py:5-57 *)
Definition t_k_sersic (n : expr) : expr :=
  let x := Cst 1 / n in
  Cst 2 * n - Cst (1 / 3) + x * (Cst (4 / 405) + x * (Cst (46 / 25515) + x * (Cst (131 / 1148175) - x * Cst (2194697 / 30690717750)))).
Definition t_k_lenstronomy (n : expr) : expr := Cst (19992 / 10000) * n - Cst (3271 / 10000).
(** light/sersic.py:195-251; the softening is a plain number *)
Definition t_sersic_brightness (lenstronomy_k : bool) (s : R) (x0 y0 q phi n Re Ie x y : expr) : expr :=
  let k := if lenstronomy_k then t_k_lenstronomy n else t_k_sersic n in t_brightness_sersic x0 y0 q phi n Re Ie x y k (Cst s).
(** a thin isothermal ellipsoid (lenses/sie.py) and a Sersic profile whose parameters are arguments, and a PSF whose pixels are *)
Definition t_sie_lens (s : R) : expr -> expr -> expr * expr := t_raytrace (t_deflection_sie (Var 2) (Var 3) (Var 4) (Var 5) (Var 6) (Cst s)).
Definition t_sersic_light (lenstronomy_k : bool) (s : R) (m : nat) : t_light :=
  t_sersic_brightness lenstronomy_k s (Var m) (Var (m + 1)) (Var (m + 2)) (Var (m + 3)) (Var (m + 4)) (Var (m + 5)) (Var (m + 6)).
Definition t_free_psf (kc : nat) (u v : nat) : expr := Var (21 + u * kc + v).
