(** * C107: pixels of a simulated image against the mean brightness over the pixel *)
From Coq Require Import Reals Arith Lia Lra String.
From Coquelicot Require Import Coquelicot.
From Verif Require Import Py Fsum Quad_Model Quad_Spec Quad_Proofs PixConv_Model PixConv_Spec Sim_Model Sim_Spec PixMean_Spec PixMean2_Proofs.
Local Open Scope R_scope.

(** a scene that is a polynomial of degree below twice the number of quadrature points: every pixel is the exact mean over the pixel, for every upsampling,
    chunk size and mode, and the pixels add up to the flux of the field *)
Theorem C107_exact : forall leg ps px py kr kc psf ray src ll x0 y0 so lo le,
  (1 <= px)%nat -> (1 <= py)%nat -> (1 <= kr)%nat -> (1 <= kc)%nat -> 0 < ps -> forall up lv mode chunk c, (1 <= up)%nat -> chunk <> Some 0%nat ->
  rules_ok leg lv -> (forall x y, scene_brightness ray src ll so lo le x y = poly2 (2 * points lv) c x y) ->
  exists im, call ray (new_sim leg ps px (Some py) up lv mode (kr, kc)) src ll kr kc psf x0 y0 so lo le false chunk = Ok im /\ rows im = py /\ cols im = px /\
  (forall i j, (i < py)%nat -> (j < px)%nat ->
    at_ im i j = pixel_mean (scene_brightness ray src ll so lo le) ps (pixel_centre x0 ps px j) (pixel_centre y0 ps py i)) /\
  fsum py (fun i => fsum px (fun j => at_ im i j)) * ps ^ 2 =
    box (scene_brightness ray src ll so lo le) (x0 - INR px * ps / 2) (x0 + INR px * ps / 2) (y0 - INR py * ps / 2) (y0 + INR py * ps / 2).
Proof. exact image_exact. Qed.
Print Assumptions C107_exact.
(** any scene continuous on the pixel: the pixel tends to the mean as the upsampling grows, at a pace that does not depend on the quadrature, mode or chunk size *)
Theorem C107_converges : forall leg ps px py kr kc psf ray src ll x0 y0 so lo le,
  (1 <= px)%nat -> (1 <= py)%nat -> (1 <= kr)%nat -> (1 <= kc)%nat -> 0 < ps -> forall i j, (i < py)%nat -> (j < px)%nat ->
  continuous_on_square (scene_brightness ray src ll so lo le) ps (pixel_centre x0 ps px j) (pixel_centre y0 ps py i) ->
  forall eps, 0 < eps -> exists N, forall up lv mode chunk, (N <= up)%nat -> (1 <= up)%nat -> chunk <> Some 0%nat -> rule_inside leg lv ->
  exists im, call ray (new_sim leg ps px (Some py) up lv mode (kr, kc)) src ll kr kc psf x0 y0 so lo le false chunk = Ok im /\ rows im = py /\ cols im = px /\
  Rabs (at_ im i j - pixel_mean (scene_brightness ray src ll so lo le) ps (pixel_centre x0 ps px j) (pixel_centre y0 ps py i)) <= eps.
Proof. exact image_converges. Qed.
Print Assumptions C107_converges.
(** with a bound on the slope of the scene: an error bound for each upsampling *)
Theorem C107_slope : forall leg ps px py kr kc psf ray src ll x0 y0 so lo le,
  (1 <= px)%nat -> (1 <= py)%nat -> (1 <= kr)%nat -> (1 <= kc)%nat -> 0 < ps -> forall L up lv mode chunk,
  0 <= L -> slope_at_most L (scene_brightness ray src ll so lo le) -> (1 <= up)%nat -> chunk <> Some 0%nat -> rule_inside leg lv ->
  exists im, call ray (new_sim leg ps px (Some py) up lv mode (kr, kc)) src ll kr kc psf x0 y0 so lo le false chunk = Ok im /\ rows im = py /\ cols im = px /\
  forall i j, (i < py)%nat -> (j < px)%nat ->
  Rabs (at_ im i j - pixel_mean (scene_brightness ray src ll so lo le) ps (pixel_centre x0 ps px j) (pixel_centre y0 ps py i)) <= 2 * L * ps / INR up.
Proof. exact image_slope. Qed.
Print Assumptions C107_slope.
(** the two-point rule; a source x^2 y behind a lens that halves angles, with lens light 3 + x; a sloping scene; a Gaussian scene *)
Definition two_points : nat -> (nat -> R) * (nat -> R) := fun _ => (fun i => match i with O => - / sqrt 3 | _ => / sqrt 3 end, fun _ => 1).
Example C107_hyps :
  rules_ok two_points (Some 2%nat) /\ rule_inside two_points (Some 2%nat) /\
  (forall x y, scene_brightness (fun x y => (x / 2, y / 2)) (Some (fun x y => x * x * y)) (Some (fun x y => 3 + x)) true true true x y =
    poly2 (2 * points (Some 2%nat)) (fun k l => match k, l with O, O => 3 | 1%nat, O => 1 | 2%nat, 1%nat => / 8 | _, _ => 0 end) x y) /\
  slope_at_most 2 (scene_brightness (fun x y => (x / 2, y / 2)) (Some (fun x y => x - 4 * y)) None true true true) /\
  (forall p x y, continuous_on_square (scene_brightness (fun x y => (x, y)) (Some (fun x y => exp (- (x * x + y * y)))) None true true true) p x y).
Proof.
  assert (T : 0 < sqrt 3) by (apply sqrt_lt_R0; lra). assert (T1 : 1 < sqrt 3) by (rewrite <- sqrt_1; apply sqrt_lt_1; lra).
  assert (I3 : 0 < / sqrt 3 < 1). { split; [apply Rinv_0_lt_compat; exact T|]. rewrite <- Rinv_1. apply Rinv_lt_contravar; lra. }
  split; [intros _; exact rule2|]. split.
  { intros _. cbn [two_points fst snd]. split; [|cbn; lra]. intros [|i] _; lra. }
  split; [intros x y; unfold scene_brightness, poly2; cbn; field|]. split.
  - intros x y u v. unfold scene_brightness. cbn [fst snd]. replace (u / 2 - 4 * (v / 2) + 0 - (x / 2 - 4 * (y / 2) + 0)) with ((u - x) / 2 - 2 * (v - y)) by field.
    unfold Rabs. repeat (match goal with |- context [Rcase_abs ?q] => destruct (Rcase_abs q) end); lra.
  - intros p x y u v _ _. unfold scene_brightness. cbn [fst snd].
    apply (continuity_2d_pt_ext (fun x y => exp (- (x * x + y * y)))); [intros; ring|].
    apply (continuity_1d_2d_pt_comp exp (fun x y => - (x * x + y * y))); [apply derivable_continuous_pt, derivable_pt_exp|].
    apply continuity_2d_pt_opp, continuity_2d_pt_plus; apply continuity_2d_pt_mult; first [apply continuity_2d_pt_id1 | apply continuity_2d_pt_id2].
Qed.
