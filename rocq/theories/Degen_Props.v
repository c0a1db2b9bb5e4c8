(** * C146: the mass-sheet degeneracy in simulated images *)
From Coq Require Import Reals Lra List String.
From Verif Require Import Py LensBase_Model Light_Model PixMap_Model Sim_Model Micro_Model Sheet_Props Degen_Spec Degen_Proofs.
Import ListNotations.
Local Open Scope R_scope.

(** A LensSource whose lens has all its mass multiplied by 1 - kappa and a MassSheet of convergence kappa added, and whose source is shrunk by 1 - kappa towards the centre of the sheet, returns the
    same image pixel by pixel, or the same exception: for every setting of the simulator, PSF, lens light, field position and chunk size. *)
Theorem C146_image : forall kappa X0 Y0 t t' f f', scaled_lens (1 - kappa) t t' -> shrunk (1 - kappa) X0 Y0 f f' -> forall S ll kr kc psf x0 y0 so lo conv chunk,
  call (raytrace (reduced_deflection_angle (with_sheet kappa X0 Y0 t t'))) S (Some f') ll kr kc psf x0 y0 so lo true conv chunk =
  call (raytrace (reduced_deflection_angle t)) S (Some f) ll kr kc psf x0 y0 so lo true conv chunk.
Proof. exact sheet_image. Qed.
Print Assumptions C146_image.
(** Microlens returns the same flux and the same error for the same random draws. *)
Theorem C146_flux : forall kappa X0 Y0 t t' f f', scaled_lens (1 - kappa) t t' -> shrunk (1 - kappa) X0 Y0 f f' -> forall rx ry fov method N_mcmc N_grid,
  microlens (raytrace (reduced_deflection_angle (with_sheet kappa X0 Y0 t t'))) f' rx ry fov method N_mcmc N_grid = microlens (raytrace (reduced_deflection_angle t)) f rx ry fov method N_mcmc N_grid.
Proof. exact sheet_flux. Qed.
Print Assumptions C146_flux.
(** The shrunk source: a Sersic profile with its centre moved and Re (and softening) multiplied by |l|; *)
Theorem C146_sersic : forall l X0 Y0 lk s x0 y0 q phi n Re Ie, l <> 0 -> Re <> 0 ->
  shrunk l X0 Y0 (sersic_brightness lk s x0 y0 q phi n Re Ie) (sersic_brightness lk (Rabs l * s) (X0 + l * (x0 - X0)) (Y0 + l * (y0 - Y0)) q phi n (Rabs l * Re) Ie).
Proof. exact sersic_shrunk. Qed.
Print Assumptions C146_sersic.
(** a Pixelated source with its pixelscale multiplied by l; *)
Theorem C146_pixelated : forall l X0 Y0 ndim h w im x0 y0 ps scale pad, 0 < l ->
  shrunk l X0 Y0 (px_brightness ndim h w im x0 y0 ps scale pad) (px_brightness ndim h w im (X0 + l * (x0 - X0)) (Y0 + l * (y0 - Y0)) (l * ps) scale pad).
Proof. exact pixelated_shrunk. Qed.
Print Assumptions C146_pixelated.
(** a PixelatedTime source likewise, at every time; *)
Theorem C146_pixelated_time : forall l X0 Y0 ndim d h w cube x0 y0 ps t_end scale time, 0 < l ->
  shrunk l X0 Y0 (fun x y => pt_brightness ndim d h w cube x0 y0 ps t_end scale x y time) (fun x y => pt_brightness ndim d h w cube (X0 + l * (x0 - X0)) (Y0 + l * (y0 - Y0)) (l * ps) t_end scale x y time).
Proof. exact cube_shrunk. Qed.
Print Assumptions C146_pixelated_time.
(** a star without limb darkening, of radius at most one before and after (see C62); *)
Theorem C146_star : forall l X0 Y0 x0 y0 theta_s Ie, l <> 0 -> theta_s <= 1 -> Rabs l * theta_s <= 1 ->
  shrunk l X0 Y0 (fun x y => brightness_star x0 y0 theta_s Ie x y 0) (fun x y => brightness_star (X0 + l * (x0 - X0)) (Y0 + l * (y0 - Y0)) (Rabs l * theta_s) Ie x y 0).
Proof. exact star_shrunk. Qed.
Print Assumptions C146_star.
(** and a LightStack of shrunk sources. *)
Theorem C146_stack : forall K l X0 Y0 (ms ms' : list (source K)) kw, Forall2 (fun m m' => shrunk l X0 Y0 (m kw) (m' kw)) ms ms' -> shrunk l X0 Y0 (light_stack ms kw) (light_stack ms' kw).
Proof. exact @stack_shrunk. Qed.
Print Assumptions C146_stack.

(** The hypotheses can be met: a linear lens and its scaled version, kappa = 1/2, and a source of brightness x y. *)
Example C146_hyps : let t := ThinLens 0 (fun x y => (x / 3, y / 5)) (fun x y => x ^ 2 / 6 + y ^ 2 / 10) (fun _ _ => 4 / 15) in
  let t' := ThinLens 0 (fun x y => (x / 6, y / 10)) (fun x y => x ^ 2 / 12 + y ^ 2 / 20) (fun _ _ => 2 / 15) in
  scaled_lens (1 - 1 / 2) t t' /\ shrunk (1 - 1 / 2) 1 2 (fun x y => x * y) (fun x y => (1 + 2 * (x - 1)) * (2 + 2 * (y - 2))).
Proof. split; [intros x y; cbn; repeat split; [f_equal|..]; field|intros u v; field]. Qed.
