(** * C137: light and mass of pixel maps *)
From Coq Require Import Reals Lra Lia String.
From Coquelicot Require Import Coquelicot.
From Verif Require Import Py Fsum Interp2_Spec PixMap_Model PixMap_Spec PixConv_Model PixConv_Spec Approx_Spec Flux_Spec Flux_Proofs.
Local Open Scope R_scope.

(** an image of any size without negative pixels whose brightness is negative at the edge of its field *)
Theorem C137_negative_refuted : forall h w x0 y0 pixelscale padding, 0 < pixelscale -> (2 <= h)%nat -> (2 <= w)%nat -> is_padding2 padding ->
  exists image x y, no_negative h w image /\ in_field x0 pixelscale w x /\ in_field y0 pixelscale h y /\
  exists v, px_brightness 2 h w image x0 y0 pixelscale 1 padding x y = Ok v /\ v < 0.
Proof.
  intros h w x0 y0 ps p P Hh Hw V. exists stripe, (field_lo x0 ps w), (field_lo y0 ps h). split; [apply stripe_nonneg|]. split; [apply lo_field, P|]. split; [apply lo_field, P|].
  exists (- (1 / 2)). split; [apply px_negative; try assumption; apply lo_field, P|lra].
Qed.
Print Assumptions C137_negative_refuted.
(** the same for the convergence of a lens *)
Theorem C137_negative_mass_refuted : forall pixelscale n padding mode window L x0 y0, 0 < pixelscale -> (2 <= n)%nat ->
  new_pixconv pixelscale 2 (n, n) padding mode window = Ok L ->
  exists convergence_map x y, no_negative n n convergence_map /\ in_field x0 pixelscale n x /\ in_field y0 pixelscale n y /\
  exists v, pc_convergence L x0 y0 convergence_map 1 x y = Ok v /\ v < 0.
Proof.
  intros ps n padding mode wk L x0 y0 P Hn N. exists stripe, (field_lo x0 ps n), (field_lo y0 ps n). split; [apply stripe_nonneg|]. split; [apply lo_field, P|]. split; [apply lo_field, P|].
  exists (- (1 / 2)). split; [apply (pc_negative ps n padding mode wk); try assumption; apply lo_field, P|lra].
Qed.
Print Assumptions C137_negative_mass_refuted.
(** an image whose light over the field is an eighth less than its pixels hold *)
Theorem C137_total_refuted : forall h w x0 y0 pixelscale padding, 0 < pixelscale -> (2 <= h)%nat -> (4 <= w)%nat -> is_padding2 padding ->
  exists image F, no_negative h w image /\ (forall x y, px_brightness 2 h w image x0 y0 pixelscale 1 padding x y = Ok (F x y)) /\
  0 < pixel_sum h w image /\
  forall T, integrates F (field_lo x0 pixelscale w) (field_hi x0 pixelscale w) (field_lo y0 pixelscale h) (field_hi y0 pixelscale h) T <->
    T = 7 / 8 * (pixelscale ^ 2 * pixel_sum h w image).
Proof.
  intros h w x0 y0 ps p P Hh Hw V. destruct (px_total h w stripe x0 y0 ps 1 p P Hh ltac:(lia) V) as (F & EF & I). destruct (stripe_rim h w Hh Hw) as [A B].
  exists stripe, F. split; [apply stripe_nonneg|]. split; [exact EF|]. rewrite B. split; [apply lt_0_INR; lia|].
  rewrite A in I. intros T. split.
  - intros J. rewrite (integrates_unique F F _ _ _ _ _ _ (field_order x0 ps w P) (field_order y0 ps h P) J I (fun x y => eq_refl)). ring.
  - intros ->. replace (7 / 8 * (ps ^ 2 * INR h)) with (1 * ps ^ 2 * (7 / 8 * INR h)) by ring. exact I.
Qed.
Print Assumptions C137_total_refuted.
(** the light over the field: the pixels next to the border are counted as in [rim_weight] *)
Theorem C137_total_partial : forall h w image x0 y0 pixelscale scale padding, 0 < pixelscale -> (2 <= h)%nat -> (2 <= w)%nat -> is_padding2 padding ->
  exists F, (forall x y, px_brightness 2 h w image x0 y0 pixelscale scale padding x y = Ok (F x y)) /\
  integrates F (field_lo x0 pixelscale w) (field_hi x0 pixelscale w) (field_lo y0 pixelscale h) (field_hi y0 pixelscale h)
    (scale * pixelscale ^ 2 * rim_sum2 h w image).
Proof. exact px_total. Qed.
Print Assumptions C137_total_partial.
Theorem C137_total_mass_partial : forall pixelscale n padding mode window L x0 y0 convergence_map scale, 0 < pixelscale -> (2 <= n)%nat ->
  new_pixconv pixelscale 2 (n, n) padding mode window = Ok L ->
  exists F, (forall x y, pc_convergence L x0 y0 convergence_map scale x y = Ok (F x y)) /\
  integrates F (field_lo x0 pixelscale n) (field_hi x0 pixelscale n) (field_lo y0 pixelscale n) (field_hi y0 pixelscale n)
    (scale * pixelscale ^ 2 * rim_sum2 n n convergence_map).
Proof. exact pc_total. Qed.
Print Assumptions C137_total_mass_partial.
Theorem C137_weights : forall n g, (4 <= n)%nat -> rim_sum n g = fsum n (fun i => rim_weight n i * g i).
Proof. exact rim_weights. Qed.
Print Assumptions C137_weights.
(** with two empty rows and columns on every side nothing is lost *)
Theorem C137_dark_rim_partial : forall h w image x0 y0 pixelscale scale, 0 < pixelscale -> (2 <= h)%nat -> (2 <= w)%nat -> dark_rim h w image ->
  exists F, (forall x y, px_brightness 2 h w image x0 y0 pixelscale scale "zeros" x y = Ok (F x y)) /\
  (forall x y, ~ (in_field x0 pixelscale w x /\ in_field y0 pixelscale h y) -> F x y = 0) /\
  integrates F (field_lo x0 pixelscale w) (field_hi x0 pixelscale w) (field_lo y0 pixelscale h) (field_hi y0 pixelscale h)
    (scale * pixelscale ^ 2 * pixel_sum h w image) /\
  (0 <= scale -> no_negative h w image -> forall x y, 0 <= F x y).
Proof. exact px_dark. Qed.
Print Assumptions C137_dark_rim_partial.
Theorem C137_dark_rim_mass_partial : forall pixelscale n padding mode window L x0 y0 convergence_map scale, 0 < pixelscale -> (2 <= n)%nat ->
  new_pixconv pixelscale 2 (n, n) padding mode window = Ok L -> dark_rim n n convergence_map ->
  exists F, (forall x y, pc_convergence L x0 y0 convergence_map scale x y = Ok (F x y)) /\
  (forall x y, ~ (in_field x0 pixelscale n x /\ in_field y0 pixelscale n y) -> F x y = 0) /\
  integrates F (field_lo x0 pixelscale n) (field_hi x0 pixelscale n) (field_lo y0 pixelscale n) (field_hi y0 pixelscale n)
    (scale * pixelscale ^ 2 * pixel_sum n n convergence_map) /\
  (0 <= scale -> no_negative n n convergence_map -> forall x y, 0 <= F x y).
Proof. exact pc_dark. Qed.
Print Assumptions C137_dark_rim_mass_partial.
(** between the outermost pixel centres no image turns negative *)
Theorem C137_inside_partial : forall h w image x0 y0 pixelscale scale x y, 0 < pixelscale -> (2 <= h)%nat -> (2 <= w)%nat -> 0 <= scale -> no_negative h w image ->
  in_inner x0 pixelscale w x -> in_inner y0 pixelscale h y -> exists v, px_brightness 2 h w image x0 y0 pixelscale scale "zeros" x y = Ok v /\ 0 <= v.
Proof. intros. apply px_nonneg; try assumption. tauto. Qed.
Print Assumptions C137_inside_partial.
Theorem C137_inside_mass_partial : forall pixelscale n padding mode window L x0 y0 convergence_map scale x y, 0 < pixelscale -> (2 <= n)%nat ->
  new_pixconv pixelscale 2 (n, n) padding mode window = Ok L -> 0 <= scale -> no_negative n n convergence_map ->
  in_inner x0 pixelscale n x -> in_inner y0 pixelscale n y -> exists v, pc_convergence L x0 y0 convergence_map scale x y = Ok v /\ 0 <= v.
Proof. intros ps n padding mode wk L. intros. apply (pc_nonneg ps n padding mode wk); try assumption. tauto. Qed.
Print Assumptions C137_inside_mass_partial.
(** a single bright pixel in the middle of five by five *)
Example C137_hyps : let im i j := if (Nat.eqb i 2 && Nat.eqb j 2)%bool then 3 else 0 in
  dark_rim 5 5 im /\ no_negative 5 5 im /\ pixel_sum 5 5 im = 3 /\ in_inner 0 1 5 2 /\ exists L, new_pixconv 1 2 (5, 5)%nat "zero" "fft" (1 / 8) = Ok L.
Proof.
  intros im. split; [|split; [|split; [|split]]].
  - intros i j H. unfold im. destruct (Nat.eqb_spec i 2) as [->|]; [|reflexivity]. destruct (Nat.eqb_spec j 2) as [->|]; [|reflexivity]. unfold near_rim in H. lia.
  - intros i j _ _. unfold im. destruct (_ && _)%bool; lra.
  - unfold pixel_sum, im. cbn. ring.
  - unfold in_inner, inner_lo, inner_hi, pixel_centre. cbn. lra.
  - eexists. reflexivity.
Qed.
