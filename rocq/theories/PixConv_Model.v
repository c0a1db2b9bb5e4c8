(** * PixelatedConvergence (model of src/caustics/lenses/func/pixelated_convergence.py and lenses/pixelated_convergence.py)

    One query point.  Arrays are index functions; the convergence map is n by n (the class asserts that it is square), n >= 1.
    The precision change of line 225 is the identity. *)
From Coq Require Import Reals ZArith Arith List Bool String.
From Coquelicot Require Import Complex.
From Verif Require Import Py Fsum Geo_Model Interp2_Model Dft_Model.
Import ListNotations.
Local Open Scope R_scope.

(** func 7-43 *)
Definition build_kernels_pixelated_convergence (pixelscale : R) (n_pix : nat) : (nat -> nat -> R) * (nat -> nat -> R) * (nat -> nat -> R) :=
  let '(_, x_mg, y_mg) := meshgrid pixelscale (2 * n_pix) None in
  let d2 i j := x_mg i j ^ 2 + y_mg i j ^ 2 in
  (* safe_log is only None (NaN) for negative arguments, which a square root never is *)
  let potential_kernel i j := match safe_log (sqrt (d2 i j)) with Some v => v | None => 0 end in
  let ax_kernel i j := safe_divide (x_mg i j) (d2 i j) in
  let ay_kernel i j := safe_divide (y_mg i j) (d2 i j) in
  (ax_kernel, ay_kernel, potential_kernel).

(** func 46-72: the window has shape (h, w) *)
Definition build_window_pixelated_convergence (window : R) (h w : nat) (i j : nat) : R :=
  let x := linspace_m1_1 w j in let y := linspace_m1_1 h i in
  let r := sqrt (x ^ 2 + y ^ 2) in clampR ((1 - r) / window) 0 1.

(** scipy.fft.next_fast_len(target): the smallest length >= target whose prime factors are 2, 3, 5, 7, 11 *)
Fixpoint strip (fuel p k : nat) : nat :=
  match fuel with O => k | S f => if Nat.eqb (Nat.modulo k p) 0 then strip f p (Nat.div k p) else k end.
Definition smooth (k : nat) : bool := Nat.eqb (strip k 11 (strip k 7 (strip k 5 (strip k 3 (strip k 2 k))))) 1.
Definition next_fast_len (target : nat) : nat := match find smooth (seq target target) with Some k => k | None => target end.
(** func 75-78 *)
Definition fft_size (n_pix : nat) : nat * nat := let pad := (2 * n_pix)%nat in let pad := next_fast_len pad in (pad, pad).

(** func 81-111.  backend.pad(x[None, None], (0, n-1, 0, n-1), mode) appends n-1 rows and columns: row n+k is row n-2-k (reflect)
    or row k (circular).  squeeze() of a 1 by 1 array leaves no dimension, which rfft2 refuses. *)
Definition pad_reflect (n i : nat) : nat := if Nat.ltb i n then i else (2 * (n - 1) - i)%nat.
Definition pad_circular (n i : nat) : nat := if Nat.ltb i n then i else (i - n)%nat.
Definition fft2_padded (x : nat -> nat -> R) (n : nat) (padding : string) : result (nat -> nat -> C) :=
  let '(s0, s1) := fft_size n in
  if String.eqb padding "zero" then Ok (rfft2 n n x s0 s1)
  else if (String.eqb padding "reflect" || String.eqb padding "circular")%bool then
    let idx := if String.eqb padding "reflect" then pad_reflect n else pad_circular n in
    if Nat.leb n 1 then Raise IndexError
    else Ok (rfft2 (2 * n - 1) (2 * n - 1) (fun i j => x (idx i) (idx j)) s0 s1)
  else if String.eqb padding "tile" then Ok (rfft2 (2 * n) (2 * n) (fun i j => x (Nat.modulo i n) (Nat.modulo j n)) s0 s1)
  else Raise ValueError.

(** backend.roll(x, shift) on an axis of length s: entry i of the result is entry (i - shift) mod s *)
Definition rolled (s : nat) (shift : Z) (i : nat) : nat := Z.to_nat (Z.modulo (Z.of_nat i - shift) (Z.of_nat s)).
(** func 114-130; -s // 2 is the floor of -s/2; the crop to n by n is in the shape *)
Definition unpad_fft (x : nat -> nat -> R) (n : nat) : nat -> nat -> R :=
  let '(s0, s1) := fft_size n in fun i j => x (rolled s0 (Z.div (- Z.of_nat s0) 2) i) (rolled s1 (Z.div (- Z.of_nat s1) 2) j).

(** backend.conv2d(image, weight, padding="same") for one channel: cross-correlation, the image (H, W) continued by zeros, (h-1)/2 of
    the h-1 extra rows before the first row *)
Definition at_Z (H W : nat) (im : nat -> nat -> R) (i j : Z) : R :=
  if ((0 <=? i) && (i <? Z.of_nat H) && (0 <=? j) && (j <? Z.of_nat W))%Z%bool then im (Z.to_nat i) (Z.to_nat j) else 0.
Definition conv2d_same (H W : nat) (im : nat -> nat -> R) (h w : nat) (weight : nat -> nat -> R) (p q : nat) : R :=
  fsum h (fun a => fsum w (fun b => at_Z H W im (Z.of_nat p + Z.of_nat a - Z.of_nat (Nat.div (h - 1) 2)) (Z.of_nat q + Z.of_nat b - Z.of_nat (Nat.div (w - 1) 2)) * weight a b)).
(** backend.flip over both axes of an n by n array *)
Definition flip2 (n : nat) (x : nat -> nat -> R) (i j : nat) : R := x (n - 1 - i)%nat (n - 1 - j)%nat.

(** a kernel as the object stores it: a spectrum in fft mode, a plain 2n by 2n array in conv2d mode (lenses 183-189, 243-258) *)
Record kernel := { k_tilde : nat -> nat -> C; k_raw : nat -> nat -> R }.

(** func 211-235 and 321-338: the map (side, entries) that is interpolated *)
Definition convolved (conv : nat -> nat -> R) (k : kernel) (pixelscale : R) (n : nat) (padding mode : string) : result (nat * (nat -> nat -> R)) :=
  let '(s0, s1) := fft_size n in
  let c := pixelscale ^ 2 / PI in
  if String.eqb mode "fft" then
    bind (fft2_padded conv n padding) (fun tilde =>
    Ok (n, unpad_fft (fun p q => irfft2 (fun k1 l1 => Cmult (tilde k1 l1) (k_tilde k k1 l1)) s0 s1 p q * c) n))
  else if String.eqb mode "conv2d" then
    Ok ((2 * n)%nat, fun p q => conv2d_same (2 * n) (2 * n) (k_raw k) n n (flip2 n conv) p q * c)
  else Raise ValueError.
(** func 237-245 and 339-344; interp2d has the default method and padding *)
Definition sample (x0 y0 fov : R) (m : nat * (nat -> nat -> R)) (x y : R) : result R :=
  let scale := fov / 2 in interp2d (2, 1, 1)%nat (fst m) (fst m) (snd m) ((x - x0) / scale) ((y - y0) / scale) "linear" "zeros".
(** func 133-246 *)
Definition reduced_deflection_angle_pixelated_convergence (x0 y0 : R) (conv : nat -> nat -> R) (x y : R) (ax_kernel ay_kernel : kernel)
    (pixelscale fov : R) (n_pix : nat) (padding mode : string) : result (R * R) :=
  bind (convolved conv ax_kernel pixelscale n_pix padding mode) (fun mx =>
  bind (convolved conv ay_kernel pixelscale n_pix padding mode) (fun my =>
  bind (sample x0 y0 fov mx x y) (fun ax => bind (sample x0 y0 fov my x y) (fun ay => Ok (ax, ay))))).
(** func 249-344 *)
Definition potential_pixelated_convergence (x0 y0 : R) (conv : nat -> nat -> R) (x y : R) (potential_kernel : kernel)
    (pixelscale fov : R) (n_pix : nat) (padding mode : string) : result R :=
  bind (convolved conv potential_kernel pixelscale n_pix padding mode) (fun m => sample x0 y0 fov m x y).

(** the object: lenses 156-189 (the parameters are arguments of the methods) *)
Record pixconv := { pc_n : nat; pc_pixelscale : R; pc_padding : string; pc_mode : string; pc_ax : kernel; pc_ay : kernel; pc_pot : kernel }.
(** lenses 232-262: the spectrum of a kernel; in conv2d mode it is the kernel itself *)
Definition with_tilde (n : nat) (k : nat -> nat -> R) : kernel :=
  let '(s0, s1) := fft_size n in {| k_tilde := rfft2 (2 * n) (2 * n) k s0 s1; k_raw := k |}.
Definition known_mode (mode : string) : bool := (String.eqb mode "fft" || String.eqb mode "conv2d")%bool.
Definition set_convolution_mode (L : pixconv) (mode : string) : result pixconv :=
  if known_mode mode then
    Ok {| pc_n := pc_n L; pc_pixelscale := pc_pixelscale L; pc_padding := pc_padding L; pc_mode := mode; pc_ax := pc_ax L; pc_ay := pc_ay L; pc_pot := pc_pot L |}
  else Raise ValueError.
(** lenses 147-189; [ndim] and [shape] are those of the convergence map *)
Definition new_pixconv (pixelscale : R) (ndim : nat) (shape : nat * nat) (padding mode : string) (window_kernel : R) : result pixconv :=
  if negb (Nat.eqb ndim 2) then Raise ValueError
  else if negb (Nat.eqb (fst shape) (snd shape)) then Raise AssertionError
  else
    let n := fst shape in
    let '(ax, ay, pot) := build_kernels_pixelated_convergence pixelscale n in
    let windowed := (negb (String.eqb padding "zero") && String.eqb mode "fft" && (if Rlt_dec 0 window_kernel then true else false))%bool in
    let win k := if windowed then fun i j => k i j * build_window_pixelated_convergence window_kernel (2 * n) (2 * n) i j else k in
    if known_mode mode then
      Ok {| pc_n := n; pc_pixelscale := pixelscale; pc_padding := padding; pc_mode := mode;
            pc_ax := with_tilde n (win ax); pc_ay := with_tilde n (win ay); pc_pot := with_tilde n pot |}
    else Raise ValueError.
(** lenses 264-315 *)
Definition pc_reduced_deflection_angle (L : pixconv) (x0 y0 : R) (convergence_map : nat -> nat -> R) (scale x y : R) : result (R * R) :=
  reduced_deflection_angle_pixelated_convergence x0 y0 (fun i j => convergence_map i j * scale) x y (pc_ax L) (pc_ay L) (pc_pixelscale L)
    (INR (pc_n L) * pc_pixelscale L) (pc_n L) (pc_padding L) (pc_mode L).
(** lenses 317-363 *)
Definition pc_potential (L : pixconv) (x0 y0 : R) (convergence_map : nat -> nat -> R) (scale x y : R) : result R :=
  potential_pixelated_convergence x0 y0 (fun i j => convergence_map i j * scale) x y (pc_pot L) (pc_pixelscale L)
    (INR (pc_n L) * pc_pixelscale L) (pc_n L) (pc_padding L) (pc_mode L).
(** lenses 365-404 *)
Definition pc_convergence (L : pixconv) (x0 y0 : R) (convergence_map : nat -> nat -> R) (scale x y : R) : result R :=
  let fov := INR (pc_n L) * pc_pixelscale L in
  interp2d (2, 1, 1)%nat (pc_n L) (pc_n L) (fun i j => convergence_map i j * scale) ((x - x0) / fov * 2) ((y - y0) / fov * 2) "linear" "zeros".
