(** * LensSource (model of src/caustics/sims/lens_source.py)

    A brightness is a function of position, a lens is its ray-tracing function.  Device and precision handling are left out. *)
From Coq Require Import Reals ZArith Arith List Bool String.
From Coquelicot Require Import Complex.
From Verif Require Import Py Fsum Geo_Model Quad_Model Dft_Model PixConv_Model.
Import ListNotations.
Local Open Scope R_scope.

(** an array of shape (rows, cols) *)
Record image := { rows : nat; cols : nat; at_ : nat -> nat -> R }.

(** lens_source.py:154-177 *)
Record settings := { pixelscale : R; pixels_x : nat; pixels_y : nat; upsample_factor : nat; quad_level : option nat; psf_shape : nat * nat; psf_mode : string }.
(** what _build_grid computes; the grid has [depth] samples per pixel *)
Record built := { psf_pad : nat * nat; n_pix : nat * nat; depth : nat; grid_x : nat -> nat -> nat -> R; grid_y : nat -> nat -> nat -> R; weights : nat -> R; fft_s : nat * nat }.
Record sim := { cfg : settings; bld : built }.

Section Sim.
(** scipy.special.roots_legendre *)
Variable leg : nat -> (nat -> R) * (nat -> R).

(** lens_source.py:262-295 *)
Definition build_grid (c : settings) : built :=
  let psf_pad := (Nat.div (snd (psf_shape c)) 2, Nat.div (fst (psf_shape c)) 2) in
  let n_pix := (pixels_x c * upsample_factor c + fst psf_pad * 2, pixels_y c * upsample_factor c + snd psf_pad * 2)%nat in
  let up_scale := pixelscale c / INR (upsample_factor c) in
  let '(_, X, Y) := meshgrid up_scale (fst n_pix) (Some (snd n_pix)) in
  let s := (next_fast_len (fst n_pix), next_fast_len (snd n_pix)) in
  let plain := {| psf_pad := psf_pad; n_pix := n_pix; depth := 1; grid_x := fun i j _ => X i j; grid_y := fun i j _ => Y i j; weights := fun _ => 1; fft_s := s |} in
  match quad_level c with
  | None => plain
  | Some l => if Nat.ltb 1 l then
      {| psf_pad := psf_pad; n_pix := n_pix; depth := l * l; grid_x := fun i j => grid_X l (fst (leg l)) up_scale (X i j);
         grid_y := fun i j => grid_Y l (fst (leg l)) up_scale (Y i j); weights := table_W l (snd (leg l)); fft_s := s |}
    else plain
  end.
(** lens_source.py:114-180; pixels_y defaults to pixels_x *)
Definition new_sim (ps : R) (px : nat) (py : option nat) (up : nat) (quad : option nat) (mode : string) (shape : nat * nat) : sim :=
  let c := {| pixelscale := ps; pixels_x := px; pixels_y := match py with None => px | Some n => n end; upsample_factor := up; quad_level := quad; psf_shape := shape; psf_mode := mode |} in
  {| cfg := c; bld := build_grid c |}.
(** lens_source.py:193-260: the setters *)
Inductive setting := SetUpsample (n : nat) | SetX (n : nat) | SetY (n : nat) | SetQuad (q : option nat) | SetScale (p : R) | SetPsfShape (s : nat * nat) | SetMode (m : string).
Definition rebuilt (c : settings) : sim := {| cfg := c; bld := build_grid c |}.
Definition set (S : sim) (v : setting) : result sim :=
  let c := cfg S in
  match v with
  | SetUpsample n => if Nat.ltb 0 n then Ok (rebuilt {| pixelscale := pixelscale c; pixels_x := pixels_x c; pixels_y := pixels_y c; upsample_factor := n; quad_level := quad_level c; psf_shape := psf_shape c; psf_mode := psf_mode c |}) else Raise AssertionError
  | SetX n => Ok (rebuilt {| pixelscale := pixelscale c; pixels_x := n; pixels_y := pixels_y c; upsample_factor := upsample_factor c; quad_level := quad_level c; psf_shape := psf_shape c; psf_mode := psf_mode c |})
  | SetY n => Ok (rebuilt {| pixelscale := pixelscale c; pixels_x := pixels_x c; pixels_y := n; upsample_factor := upsample_factor c; quad_level := quad_level c; psf_shape := psf_shape c; psf_mode := psf_mode c |})
  | SetQuad q => if match q with None => true | Some n => Nat.ltb 0 n end then Ok (rebuilt {| pixelscale := pixelscale c; pixels_x := pixels_x c; pixels_y := pixels_y c; upsample_factor := upsample_factor c; quad_level := q; psf_shape := psf_shape c; psf_mode := psf_mode c |}) else Raise AssertionError
  | SetScale p => Ok (rebuilt {| pixelscale := p; pixels_x := pixels_x c; pixels_y := pixels_y c; upsample_factor := upsample_factor c; quad_level := quad_level c; psf_shape := psf_shape c; psf_mode := psf_mode c |})
  | SetPsfShape s => Ok (rebuilt {| pixelscale := pixelscale c; pixels_x := pixels_x c; pixels_y := pixels_y c; upsample_factor := upsample_factor c; quad_level := quad_level c; psf_shape := s; psf_mode := psf_mode c |})
  | SetMode m => if (String.eqb m "fft" || String.eqb m "conv2d")%bool then Ok (rebuilt {| pixelscale := pixelscale c; pixels_x := pixels_x c; pixels_y := pixels_y c; upsample_factor := upsample_factor c; quad_level := quad_level c; psf_shape := psf_shape c; psf_mode := m |}) else Raise AssertionError
  end.
End Sim.

(** backend.flatten and reshape of an array of shape (h, w, q) in row-major order *)
Definition flat {A} (h w q : nat) (G : nat -> nat -> nat -> A) : list A := map (fun k => G (k / (w * q))%nat ((k / q) mod w)%nat (k mod q)%nat) (seq 0 (h * w * q)).
Definition unflat (w q : nat) (l : list R) (i j k : nat) : R := nth ((i * w + j) * q + k) l 0.
(** backend.vmap(f, chunk_size=chunk): apply f to the entries, chunk by chunk *)
Fixpoint chunks {A} (fuel c : nat) (l : list A) : list (list A) :=
  match fuel with O => [] | S f => match l with [] => [] | _ => firstn c l :: chunks f c (skipn c l) end end.
Definition vmap {A B} (chunk : option nat) (f : A -> B) (l : list A) : result (list B) :=
  match chunk with
  | None => Ok (map f l)
  | Some c => if Nat.eqb c 0 then Raise ValueError else Ok (List.concat (map (map f) (chunks (List.length l) c l)))
  end.

Definition light := R -> R -> R.
(** x[a : b] on an axis of length n: start and length *)
Definition slice_start (n a : nat) : nat := Nat.min a n.
Definition slice_len (n a b : nat) : nat := (Nat.min b n - Nat.min a n)%nat.
(** backend.avg_pool2d(x, k) *)
Definition avg_pool2d (x : image) (k : nat) : result image :=
  let h := Nat.div (rows x) k in let w := Nat.div (cols x) k in
  if (Nat.eqb h 0 || Nat.eqb w 0)%bool then Raise RuntimeError
  else Ok {| rows := h; cols := w; at_ := fun i j => fsum k (fun a => fsum k (fun b => at_ x (i * k + a)%nat (j * k + b)%nat)) / INR (k * k) |}.
(** backend.flip over both axes *)
Definition flip_hw (h w : nat) (x : nat -> nat -> R) (i j : nat) : R := x (h - 1 - i)%nat (w - 1 - j)%nat.

Section Call.
Variables (raytrace : R -> R -> R * R) (S : sim).
(** lens_source.py:370 and the flattened grid *)
Definition points (x0 y0 : R) : list (R * R) :=
  let b := bld S in flat (snd (n_pix b)) (fst (n_pix b)) (depth b) (fun i j k => (grid_x b i j k + x0, grid_y b i j k + y0)).
(** lens_source.py:382 *)
Definition integrate (mu_fine : list R) : nat -> nat -> R :=
  let b := bld S in let F := unflat (fst (n_pix b)) (depth b) mu_fine in fun i j => fsum (depth b) (fun k => F i j k * weights b k).
(** lens_source.py:373-393 and 396-400 *)
Definition scene (source lens_light : option light) (x0 y0 : R) (source_on lens_on lensed : bool) (chunk : option nat) : result (nat -> nat -> R) :=
  let pts := points x0 y0 in
  bind (match source with
        | Some f => if source_on then
            if lensed then
              bind (vmap chunk (fun p => raytrace (fst p) (snd p)) pts) (fun b =>
              bind (vmap chunk (fun p => f (fst p) (snd p)) b) (fun mu_fine => Ok (integrate mu_fine)))
            else bind (vmap chunk (fun p => f (fst p) (snd p)) pts) (fun mu_fine => Ok (integrate mu_fine))
          else Ok (fun _ _ => 0)
        | None => Ok (fun _ _ => 0) end) (fun mu =>
  match lens_light with
  | Some g => if lens_on then bind (vmap chunk (fun p => g (fst p) (snd p)) pts) (fun mu_fine => Ok (fun i j => mu i j + integrate mu_fine i j)) else Ok mu
  | None => Ok mu end).
(** lens_source.py:367, 402-420; the PSF has shape (kr, kc) and non-zero sum *)
Definition psf_sum (kr kc : nat) (psf : nat -> nat -> R) : R := fsum kr (fun u => fsum kc (psf u)).
Definition convolve (kr kc : nat) (psf : nat -> nat -> R) (psf_convolve : bool) (mu : nat -> nat -> R) : image :=
  let b := bld S in let h := snd (n_pix b) in let w := fst (n_pix b) in
  let plain := {| rows := h; cols := w; at_ := mu |} in
  let psf_n i j := psf i j / psf_sum kr kc psf in
  if (psf_convolve && negb (Nat.eqb kr 1 && Nat.eqb kc 1))%bool then
    if String.eqb (psf_mode (cfg S)) "fft" then
      let '(s0, s1) := fft_s b in
      let conv p q := irfft2 (fun k l => Cmult (rfft2 h w mu s0 s1 k l) (rfft2 kr kc psf_n s0 s1 k l)) s0 s1 p q in
      (* roll by (-psf_pad[0], -psf_pad[1]), then [:s0, :s1] *)
      {| rows := s0; cols := s1; at_ := fun i j => conv (rolled s0 (- Z.of_nat (fst (psf_pad b))) i) (rolled s1 (- Z.of_nat (snd (psf_pad b))) j) |}
    else if String.eqb (psf_mode (cfg S)) "conv2d" then
      {| rows := h; cols := w; at_ := conv2d_same h w mu kr kc (fun i j => flip_hw kr kc psf i j / psf_sum kr kc psf) |}
    else plain
  else plain.
(** lens_source.py:422-432 *)
Definition native (mu : image) : result image :=
  let b := bld S in let c := cfg S in
  let r0 := snd (psf_pad b) in let r1 := (pixels_y c * upsample_factor c + snd (psf_pad b))%nat in
  let c0 := fst (psf_pad b) in let c1 := (pixels_x c * upsample_factor c + fst (psf_pad b))%nat in
  avg_pool2d {| rows := slice_len (rows mu) r0 r1; cols := slice_len (cols mu) c0 c1; at_ := fun i j => at_ mu (slice_start (rows mu) r0 + i)%nat (slice_start (cols mu) c0 + j)%nat |} (upsample_factor c).
(** lens_source.py:329-432 *)
Definition call (source lens_light : option light) (kr kc : nat) (psf : nat -> nat -> R) (x0 y0 : R) (source_on lens_on lensed psf_convolve : bool) (chunk : option nat) : result image :=
  bind (scene source lens_light x0 y0 source_on lens_on lensed chunk) (fun mu => native (convolve kr kc psf psf_convolve mu)).
End Call.
