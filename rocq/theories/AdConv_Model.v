(** * PixelatedConvergence as automatic differentiation sees it (lenses/pixelated_convergence.py and its func module)

    The object (grid, kernels, padding, mode) is made once and is constant; the position, the centre, the scale and the entries of the
    convergence map are traced.  The transforms are written out as the sums they are (see AdSim_Model). *)
From Coq Require Import Reals ZArith Arith List Bool String.
From Coquelicot Require Import Complex.
From Verif Require Import Py Dft_Model PixConv_Model Ad_Model AdLens_Model AdEpl_Model AdPix_Model AdSim_Model.
Import ListNotations.
Local Open Scope R_scope.
Local Open Scope ad_scope.

(** func/pixelated_convergence.py:81-111; padding copies entries *)
Definition t_fft2_padded (x : nat -> nat -> expr) (n : nat) (padding : string) : result (nat -> nat -> cexpr) :=
  let '(s0, s1) := fft_size n in
  if String.eqb padding "zero" then Ok (t_rfft2 n n x s0 s1)
  else if (String.eqb padding "reflect" || String.eqb padding "circular")%bool then
    let idx := if String.eqb padding "reflect" then pad_reflect n else pad_circular n in
    if Nat.leb n 1 then Raise IndexError
    else Ok (t_rfft2 (2 * n - 1) (2 * n - 1) (fun i j => x (idx i) (idx j)) s0 s1)
  else if String.eqb padding "tile" then Ok (t_rfft2 (2 * n) (2 * n) (fun i j => x (Nat.modulo i n) (Nat.modulo j n)) s0 s1)
  else Raise ValueError.
(** func 114-130 *)
Definition t_unpad_fft (x : nat -> nat -> expr) (n : nat) : nat -> nat -> expr :=
  let '(s0, s1) := fft_size n in fun i j => x (rolled s0 (Z.div (- Z.of_nat s0) 2) i) (rolled s1 (Z.div (- Z.of_nat s1) 2) j).
(** func 211-235 and 321-338; in conv2d mode the constant kernel is the image and the flipped map the weight *)
Definition t_convolved (conv : nat -> nat -> expr) (k : kernel) (pixelscale : R) (n : nat) (padding mode : string) : result (nat * (nat -> nat -> expr)) :=
  let '(s0, s1) := fft_size n in
  let c := (pixelscale ^ 2 / PI)%R in
  if String.eqb mode "fft" then
    bind (t_fft2_padded conv n padding) (fun tilde =>
    Ok (n, t_unpad_fft (fun p q => t_irfft2 (fun k1 l1 => t_cmul (tilde k1 l1) (Cst (fst (k_tilde k k1 l1)), Cst (snd (k_tilde k k1 l1)))) s0 s1 p q * Cst c) n))
  else if String.eqb mode "conv2d" then
    Ok ((2 * n)%nat, fun p q => t_conv2d_same (2 * n) (2 * n) (fun i j => Cst (k_raw k i j)) n n (fun i j => conv (n - 1 - i)%nat (n - 1 - j)%nat) p q * Cst c)
  else Raise ValueError.
(** func 237-245 and 339-344 *)
Definition t_sample (x0 y0 : expr) (fov : R) (m : nat * (nat -> nat -> expr)) (x y : expr) : result expr :=
  let scale := Cst (fov / 2)%R in t_interp2d (2, 1, 1)%nat (fst m) (fst m) (snd m) ((x - x0) / scale) ((y - y0) / scale) "zeros".
(** lenses/pixelated_convergence.py:264-315, func 133-246 *)
Definition t_pc_deflection (L : pixconv) (x0 y0 : expr) (convergence_map : nat -> nat -> expr) (scale x y : expr) : result (expr * expr) :=
  let conv i j := convergence_map i j * scale in
  let fov := (INR (pc_n L) * pc_pixelscale L)%R in
  bind (t_convolved conv (pc_ax L) (pc_pixelscale L) (pc_n L) (pc_padding L) (pc_mode L)) (fun mx =>
  bind (t_convolved conv (pc_ay L) (pc_pixelscale L) (pc_n L) (pc_padding L) (pc_mode L)) (fun my =>
  bind (t_sample x0 y0 fov mx x y) (fun ax => bind (t_sample x0 y0 fov my x y) (fun ay => Ok (ax, ay))))).
(** lenses 317-363, func 249-344 *)
Definition t_pc_potential (L : pixconv) (x0 y0 : expr) (convergence_map : nat -> nat -> expr) (scale x y : expr) : result expr :=
  let conv i j := convergence_map i j * scale in
  bind (t_convolved conv (pc_pot L) (pc_pixelscale L) (pc_n L) (pc_padding L) (pc_mode L)) (fun m =>
  t_sample x0 y0 (INR (pc_n L) * pc_pixelscale L)%R m x y).
(** lenses 365-404 *)
Definition t_pc_convergence (L : pixconv) (x0 y0 : expr) (convergence_map : nat -> nat -> expr) (scale x y : expr) : result expr :=
  let fov := Cst (INR (pc_n L) * pc_pixelscale L)%R in
  t_interp2d (2, 1, 1)%nat (pc_n L) (pc_n L) (fun i j => convergence_map i j * scale) ((x - x0) / fov * Cst 2) ((y - y0) / fov * Cst 2) "zeros".
