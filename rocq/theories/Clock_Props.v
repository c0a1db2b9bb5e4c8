(** * C154: the Hubble constant from the delay between two images *)
From Coq Require Import Reals Lra.
From Verif Require Import Cosmo_Model LensBase_Model LensBasic_Model Sheet_Props Delay_Spec Invert_Spec Invert_Proofs Clock_Spec Clock_Proofs.
Local Open Scope R_scope.

(** Whatever the lens, h0 times the delay is the same for every h0 (FlatLambdaCDM, Om0 and redshifts kept), so a delay that is not zero is reproduced by a single h0. *)
Theorem C154_unique : forall helper Om0 lens z_s P1 P2 h h', 0 < h -> 0 < h' -> seen_from helper Om0 (z_l lens) z_s -> lag (universe helper Om0 h) lens z_s P1 P2 <> 0 ->
  h' * lag (universe helper Om0 h') lens z_s P1 P2 = h * lag (universe helper Om0 h) lens z_s P1 P2 /\ (lag (universe helper Om0 h') lens z_s P1 P2 = lag (universe helper Om0 h) lens z_s P1 P2 <-> h' = h).
Proof. exact h0_unique. Qed.
Print Assumptions C154_unique.
(** Who leaves out a mass sheet kappa < 1 fits the same images and delays with exactly the h0 that is too large by 1 / (1 - kappa). *)
Theorem C154_sheet : forall helper Om0 kappa x0 y0 t t' z_s P1 P2 h h', 0 < h -> 0 < h' -> kappa < 1 -> scaled_lens (1 - kappa) t t' -> seen_from helper Om0 (z_l t) z_s ->
  raytrace (reduced_deflection_angle t) (fst P1) (snd P1) = raytrace (reduced_deflection_angle t) (fst P2) (snd P2) -> lag (universe helper Om0 h) t z_s P1 P2 <> 0 ->
  (lag (universe helper Om0 h') t z_s P1 P2 = lag (universe helper Om0 h) (with_sheet kappa x0 y0 t t') z_s P1 P2 <-> h' = h / (1 - kappa)).
Proof. exact h0_sheet. Qed.
Print Assumptions C154_sheet.
(** Behind an SIS, h0 follows from what is seen: separation, fluxes and delay of the two images. *)
Theorem C154_sis : forall helper Om0 h z zs x0 y0 Rein k S P1 P2 F1 F2, 0 < h -> 0 < Rein -> 0 < k -> seen_from helper Om0 z zs -> seen_pair (reduced_deflection_angle_sis x0 y0 Rein 0) x0 y0 k S P1 P2 F1 F2 ->
  let t := lag (universe helper Om0 h) (sis_lens z x0 y0 Rein) zs P1 P2 in t <> 0 -> h = delay_unit (universe helper Om0 1) z zs * separation P1 P2 ^ 2 * ((F1 - F2) / (F1 + F2)) / 2 / t.
Proof. exact h0_sis. Qed.
Print Assumptions C154_sis.
(** Behind a Point lens as well. *)
Theorem C154_point : forall helper Om0 h z zs x0 y0 Rein k S P1 P2 F1 F2, 0 < h -> 0 < Rein -> 0 < k -> seen_from helper Om0 z zs -> seen_pair (reduced_deflection_angle_point x0 y0 Rein 0) x0 y0 k S P1 P2 F1 F2 ->
  let f1 := sqrt F1 in let f2 := sqrt F2 in let t := lag (universe helper Om0 h) (point_lens z x0 y0 Rein) zs P1 P2 in t <> 0 ->
  h = delay_unit (universe helper Om0 1) z zs * separation P1 P2 ^ 2 * ((f1 - f2) / (f1 + f2) / 2 + f1 * f2 / (f1 + f2) ^ 2 * ln (f1 / f2)) / t.
Proof. exact h0_point. Qed.
Print Assumptions C154_point.
(** The distances are there for every lens in front of the source, if the table of the cosmology grows. *)
Theorem C154_seen : forall helper Om0 zl zs, 0 < Om0 < 1 -> (forall a b, 0 < a -> a < b -> helper a < helper b) -> 0 < zl < zs -> seen_from helper Om0 zl zs /\ forall h, 0 < h -> 0 < delay_unit (universe helper Om0 h) zl zs.
Proof. exact seen_flat. Qed.
Print Assumptions C154_seen.

(** The hypotheses can be met: a growing table, Om0 = 1/2, an SIS at redshift 1/2 with Rein = 4 before a source at redshift 1, with the images (5, 0) and (-3, 0), whose delay is not zero; a sheet of 1/4. *)
Example C154_hyps : seen_from (fun x => x) (1 / 2) (1 / 2) 1 /\ (exists S F1 F2, seen_pair (reduced_deflection_angle_sis 0 0 4 0) 0 0 1 S (5, 0) (-3, 0) F1 F2) /\ lag (universe (fun x => x) (1 / 2) 1) (sis_lens (1 / 2) 0 0 4) 1 (5, 0) (-3, 0) <> 0 /\
  scaled_lens (1 - / 4) (sis_lens (1 / 2) 0 0 4) (sis_lens (1 / 2) 0 0 3) /\ exists P1 P2 F1 F2, seen_pair (reduced_deflection_angle_point 1 2 2 0) 1 2 3 (4, 6) P1 P2 F1 F2.
Proof.
  destruct (seen_flat (fun x => x) (1 / 2) (1 / 2) 1 ltac:(lra) (fun a b _ H => H) ltac:(lra)) as [A B]. assert (T := sis_pair_exists 0 0 4 1 1 0 1 ltac:(lra) ltac:(lra) ltac:(lra)).
  replace (0 + (1 + 4) * 1) with 5 in T by lra. replace (0 + (1 - 4) * 1) with (-3) in T by lra. replace (0 + (1 + 4) * 0) with 0 in T by lra. replace (0 + (1 - 4) * 0) with 0 in T by lra.
  split; [exact A|]. split; [eexists _, _, _; exact T|]. split.
  { rewrite (sis_lag _ _ _ _ _ 4 1 _ _ _ _ _ ltac:(lra) ltac:(lra) T), sep_sq. cbn [fst snd]. assert (U := B 1 ltac:(lra)). set (u := delay_unit _ _ _) in *. clearbody u. lra. }
  split; [|apply point_pair_exists; [lra|intros E; injection E; lra]].
  intros x y. cbn [sis_lens reduced_deflection_angle potential convergence]. unfold reduced_deflection_angle_sis, potential_sis, convergence_sis, Geo_Model.translate_rotate.
  cbn [fst snd]. unfold Rdiv. generalize (sqrt ((x - 0) ^ 2 + (y - 0) ^ 2) + 0). intros r. generalize (/ r). intros i. repeat split; [f_equal|..]; field.
Qed.
