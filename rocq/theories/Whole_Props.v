(** * C124: a whole scene can be moved, turned or mirrored *)
From Coq Require Import Reals Lra Lia List Arith String Sorting.Sorted.
From Verif Require Import Py Calc2 Fsum Lens_Spec Geo_Model Const_Model Cosmo_Model LensBase_Model LensBasic_Model LensBasic_Proofs Multiplane_Model Sim_Model PsfEffect_Spec Rigid_Spec Rigid_Proofs Mirror_Spec Whole_Spec Whole_Proofs Whole2_Proofs Whole3_Proofs.
Import ListNotations.
Local Open Scope R_scope.

(** lenses carried along in the sense of C94, or mirrored as in C106, are moved lenses here *)
Theorem C124_carried : forall t a b z f f' psi psi' k k',
  (forall x y, carried_vector t a b f f' x y) -> (forall x y, carried t a b psi psi' x y) -> (forall x y, carried t a b k k' x y) ->
  moved_lens (turned t) a b (ThinLens z f psi k) (ThinLens z f' psi' k').
Proof. exact carried_is_moved. Qed.
Print Assumptions C124_carried.
Theorem C124_mirrored : forall z f f' psi psi' k k',
  (forall x y, mirrored_vector f f' x y) -> (forall x y, mirrored psi psi' x y) -> (forall x y, mirrored k k' x y) ->
  moved_lens flipped_y 0 0 (ThinLens z f psi k) (ThinLens z f' psi' k').
Proof. exact mirrored_is_moved. Qed.
Print Assumptions C124_mirrored.
(** one lens: rays, delays, physical deflection and surface density *)
Theorem C124_thin : forall cd M a b L L' z_s, keeps_lengths M -> moved_lens M a b L L' ->
  moved_ray M a b (raytrace (reduced_deflection_angle L)) (raytrace (reduced_deflection_angle L')) /\
  forall x y sh ge, let p := carry M a b (x, y) in time_delay cd L' z_s (fst p) (snd p) sh ge = time_delay cd L z_s x y sh ge /\
  physical_deflection_angle cd L' z_s (fst p) (snd p) = apply M (physical_deflection_angle cd L z_s x y) /\ surface_density cd L' z_s (fst p) (snd p) = surface_density cd L z_s x y.
Proof. exact thin_moved. Qed.
Print Assumptions C124_thin.
(** lenses on one plane: the SinglePlane is itself a moved lens *)
Theorem C124_single_plane : forall M a b z l l', Forall2 (moved_lens M a b) l l' -> moved_lens M a b (singleplane z l) (singleplane z l').
Proof. exact sp_moved. Qed.
Print Assumptions C124_single_plane.
(** lenses on several planes, turned or mirrored about the origin: in any order, errors included *)
Theorem C124_multiplane_turned : forall cd tcd M l l' z_s x y, keeps_lengths M -> Forall2 (moved_lens M 0 0) l l' -> let p := carry M 0 0 (x, y) in
  alike (fun r r' => r' = carry M 0 0 r) (multiplane_raytrace cd tcd l z_s x y) (multiplane_raytrace cd tcd l' z_s (fst p) (snd p)) /\
  alike (fun r r' => r' = apply M r) (multiplane_effective_deflection cd tcd l z_s x y) (multiplane_effective_deflection cd tcd l' z_s (fst p) (snd p)) /\
  forall sh ge, multiplane_time_delay cd tcd l' z_s (fst p) (snd p) sh ge = multiplane_time_delay cd tcd l z_s x y sh ge.
Proof. exact multiplane_turned. Qed.
Print Assumptions C124_multiplane_turned.
(** and shifted as well: listed by redshift, at non-zero distances *)
Theorem C124_multiplane_moved : forall cd tcd M a b l l' z_s x y, keeps_lengths M -> Forall2 (moved_lens M a b) l l' ->
  StronglySorted Rle (map z_l l) -> (forall L, In L l -> tcd (z_l L) <> 0) -> tcd z_s <> 0 -> let p := carry M a b (x, y) in
  alike (fun r r' => r' = carry M a b r) (multiplane_raytrace cd tcd l z_s x y) (multiplane_raytrace cd tcd l' z_s (fst p) (snd p)) /\
  alike (fun r r' => r' = apply M r) (multiplane_effective_deflection cd tcd l z_s x y) (multiplane_effective_deflection cd tcd l' z_s (fst p) (snd p)) /\
  forall sh ge, multiplane_time_delay cd tcd l' z_s (fst p) (snd p) sh ge = multiplane_time_delay cd tcd l z_s x y sh ge.
Proof. exact multiplane_moved. Qed.
Print Assumptions C124_multiplane_moved.
(** the Jacobian is turned with the lens; magnification, half divergence and length of the shear stay the same *)
Theorem C124_derivatives : forall M a b L L' x y, keeps_lengths M -> moved_lens M a b L L' -> convergence_is_half_divergence (reduced_deflection_angle L) (convergence L) x y ->
  let p := carry M a b (x, y) in let J := jacfwd (reduced_deflection_angle L) x y in let J' := jacfwd (reduced_deflection_angle L') (fst p) (snd p) in
  J' = turn_matrix M J /\ magnification (reduced_deflection_angle L') (fst p) (snd p) = magnification (reduced_deflection_angle L) x y /\
  effective_convergence_div J' = effective_convergence_div J /\
  let g := shear_of_jacobian (mat2_sub eye2 J) in let g' := shear_of_jacobian (mat2_sub eye2 J') in fst g' ^ 2 + snd g' ^ 2 = fst g ^ 2 + snd g ^ 2.
Proof. exact lens_derivatives. Qed.
Print Assumptions C124_derivatives.
(** magnification of any ray-tracing function, one of a Multiplane included *)
Theorem C124_magnification : forall M a b ray ray' x y bxx bxy byx byy, keeps_lengths M -> moved_ray M a b ray ray' ->
  D2 (fun u v => fst (ray u v)) x y bxx bxy -> D2 (fun u v => snd (ray u v)) x y byx byy -> let p := carry M a b (x, y) in
  pixel_magnification ray' (fst p) (snd p) = pixel_magnification ray x y.
Proof. exact turn_magnification. Qed.
Print Assumptions C124_magnification.
(** LensSource: lens, lights and image centre shifted by the same amount, for every state of the simulator, every PSF, mode and chunk size *)
Theorem C124_image_shift : forall a b ray ray' src src' ll ll', moved_ray unturned a b ray ray' -> moved_light unturned a b src src' -> moved_light unturned a b ll ll' ->
  forall S kr kc psf x0 y0 so lo le conv chunk,
  call ray' S src' ll' kr kc psf (x0 + a) (y0 + b) so lo le conv chunk = call ray S src ll kr kc psf x0 y0 so lo le conv chunk.
Proof. exact call_shift. Qed.
Print Assumptions C124_image_shift.
(** mirrored up and down, with the mirrored PSF: the rows in reverse order *)
Theorem C124_image_flip_y : forall leg ps px py up lv mode kr kc psf ray ray' src src' ll ll' x0 y0 so lo le conv chunk,
  (1 <= px)%nat -> (1 <= py)%nat -> (1 <= up)%nat -> (1 <= kr)%nat -> (1 <= kc)%nat -> chunk <> Some 0%nat ->
  (conv = true -> total kr kc psf <> 0 /\ mode_agrees mode px py kr kc) -> even_rule leg lv -> (conv = true -> Nat.odd kr = true) ->
  moved_ray flipped_y 0 0 ray ray' -> moved_light flipped_y 0 0 src src' -> moved_light flipped_y 0 0 ll ll' ->
  exists im im', call ray (new_sim leg ps px (Some py) up lv mode (kr, kc)) src ll kr kc psf x0 y0 so lo le conv chunk = Ok im /\
  call ray' (new_sim leg ps px (Some py) up lv mode (kr, kc)) src' ll' kr kc (fun u v => psf (kr - 1 - u)%nat v) x0 (- y0) so lo le conv chunk = Ok im' /\
  rows im = py /\ cols im = px /\ rows im' = py /\ cols im' = px /\ forall i j, (i < py)%nat -> (j < px)%nat -> at_ im' i j = at_ im (py - 1 - i)%nat j.
Proof. exact image_flip_y. Qed.
Print Assumptions C124_image_flip_y.
(** mirrored left and right: the columns in reverse order *)
Theorem C124_image_flip_x : forall leg ps px py up lv mode kr kc psf ray ray' src src' ll ll' x0 y0 so lo le conv chunk,
  (1 <= px)%nat -> (1 <= py)%nat -> (1 <= up)%nat -> (1 <= kr)%nat -> (1 <= kc)%nat -> chunk <> Some 0%nat ->
  (conv = true -> total kr kc psf <> 0 /\ mode_agrees mode px py kr kc) -> even_rule leg lv -> (conv = true -> Nat.odd kc = true) ->
  moved_ray flipped_x 0 0 ray ray' -> moved_light flipped_x 0 0 src src' -> moved_light flipped_x 0 0 ll ll' ->
  exists im im', call ray (new_sim leg ps px (Some py) up lv mode (kr, kc)) src ll kr kc psf x0 y0 so lo le conv chunk = Ok im /\
  call ray' (new_sim leg ps px (Some py) up lv mode (kr, kc)) src' ll' kr kc (fun u v => psf u (kc - 1 - v)%nat) (- x0) y0 so lo le conv chunk = Ok im' /\
  rows im = py /\ cols im = px /\ rows im' = py /\ cols im' = px /\ forall i j, (i < py)%nat -> (j < px)%nat -> at_ im' i j = at_ im i (px - 1 - j)%nat.
Proof. exact image_flip_x. Qed.
Print Assumptions C124_image_flip_x.
(** the two axes of the sky exchanged (with a reflection: a quarter turn): the transposed image *)
Theorem C124_image_swap : forall leg ps px py up lv mode kr kc psf ray ray' src src' ll ll' x0 y0 so lo le conv chunk,
  (1 <= px)%nat -> (1 <= py)%nat -> (1 <= up)%nat -> (1 <= kr)%nat -> (1 <= kc)%nat -> chunk <> Some 0%nat ->
  (conv = true -> total kr kc psf <> 0 /\ mode_agrees mode px py kr kc) ->
  moved_ray swapped 0 0 ray ray' -> moved_light swapped 0 0 src src' -> moved_light swapped 0 0 ll ll' ->
  exists im im', call ray (new_sim leg ps px (Some py) up lv mode (kr, kc)) src ll kr kc psf x0 y0 so lo le conv chunk = Ok im /\
  call ray' (new_sim leg ps py (Some px) up lv mode (kc, kr)) src' ll' kc kr (fun v u => psf u v) y0 x0 so lo le conv chunk = Ok im' /\
  rows im = py /\ cols im = px /\ rows im' = px /\ cols im' = py /\ forall i j, (i < py)%nat -> (j < px)%nat -> at_ im' j i = at_ im i j.
Proof. exact image_swap. Qed.
Print Assumptions C124_image_swap.

(** an SIE in front of an SIS, turned by 1 and shifted by (2, 3), in a cosmology whose distances are the redshifts; the motions keep lengths;
    a lens that halves angles, a source x y^2 and their images; the two-point rule; a PSF of 3 x 3 pixels *)
Definition an_sie (x0 y0 phi : R) : thin_lens := ThinLens 1 (reduced_deflection_angle_sie x0 y0 (1 / 2) phi 1 0) (potential_sie x0 y0 (1 / 2) phi 1 0) (convergence_sie x0 y0 (1 / 2) phi 1 0).
Definition an_sis (x0 y0 : R) : thin_lens := ThinLens 2 (reduced_deflection_angle_sis x0 y0 1 0) (potential_sis x0 y0 1 0) (convergence_sis x0 y0 1 0).
Example C124_hyps :
  let l := [an_sie 1 0 5; an_sis 0 1] in
  let l' := [an_sie (fst (motion 1 2 3 1 0)) (snd (motion 1 2 3 1 0)) (5 + 1); an_sis (fst (motion 1 2 3 0 1)) (snd (motion 1 2 3 0 1))] in
  Forall2 (moved_lens (turned 1) 2 3) l l' /\ StronglySorted Rle (map z_l l) /\ (forall L, In L l -> (fun z : R => z) (z_l L) <> 0) /\
  (forall t, keeps_lengths (turned t)) /\ (keeps_lengths unturned /\ keeps_lengths flipped_y /\ keeps_lengths flipped_x /\ keeps_lengths swapped) /\
  (let ray := fun x y => (x / 2, y / 2) in moved_ray flipped_y 0 0 ray ray /\ moved_ray flipped_x 0 0 ray ray /\ moved_ray swapped 0 0 ray ray /\
   moved_ray unturned 2 3 ray (fun x y => ((x - 2) / 2 + 2, (y - 3) / 2 + 3))) /\
  (let f := Some (fun x y : R => x * y ^ 2) in moved_light flipped_y 0 0 f f /\ moved_light flipped_x 0 0 f (Some (fun x y => - x * y ^ 2)) /\ moved_light swapped 0 0 f (Some (fun x y => y * x ^ 2)) /\
   moved_light unturned 2 3 f (Some (fun x y => (x - 2) * (y - 3) ^ 2))) /\
  even_rule (fun _ => (fun i => match i with O => - / sqrt 3 | _ => / sqrt 3 end, fun _ => 1)) (Some 2%nat) /\
  total 3 3 (fun u v => 1 + INR (u * v)) <> 0 /\ mode_agrees "fft" 5 5 3 3 /\ Nat.odd 3 = true.
Proof.
  cbv zeta. split.
  { constructor; [|constructor; [|constructor]].
    - apply carried_is_moved; intros x y; apply (sie_moves 1 2 3 1 0 (1 / 2) 5 1 0 x y).
    - apply carried_is_moved; intros x y; apply (sis_moves 1 2 3 0 1 1 0 x y). }
  split. { cbn. repeat constructor; lra. }
  split. { intros L [<-|[<-|[]]]; cbn; lra. }
  split; [exact turned_keeps|]. split; [exact named_keep|].
  split. { unfold moved_ray, carry, apply, flipped_y, flipped_x, swapped, unturned. cbn. split; [|split; [|split]]; intros x y; f_equal; field. }
  split. { unfold moved_light, carry, apply, flipped_y, flipped_x, swapped, unturned. cbn. split; [|split; [|split]]; intros x y; ring. }
  split. { intros k Hk. destruct k as [|[|k]]; [| |lia]; cbn; split; ring. }
  split. { unfold total. cbn. lra. }
  split; [right; repeat split|reflexivity].
Qed.
Example C124_derivatives_hyps : moved_lens (turned 1) 2 3 (an_sis 0 1) (an_sis (fst (motion 1 2 3 0 1)) (snd (motion 1 2 3 0 1))) /\
  convergence_is_half_divergence (reduced_deflection_angle (an_sis 0 1)) (convergence (an_sis 0 1)) 3 5.
Proof.
  split.
  - apply carried_is_moved; intros x y; apply (sis_moves 1 2 3 0 1 1 0 x y).
  - apply sis_consistent. left. lra.
Qed.
