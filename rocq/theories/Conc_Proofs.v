(** * Proofs for C145: arrival times behind concentric lenses *)
From Coq Require Import Reals Lra Psatz List.
From Verif Require Import Const_Model Cosmo_Model LensBasic_Model Geo_Model Lens_Lib LensBase_Model LensBase_Proofs LensBasic_Proofs First_Spec RealFun Delay_Spec Delay_Proofs Conc_Spec.
Import ListNotations.
Local Open Scope R_scope.

Definition piece_k (p : piece) := match p with Sheet _ _ k => k | _ => 0 end.
Definition piece_g1 (p : piece) := match p with Shear _ _ g _ => g | _ => 0 end.
Definition piece_g2 (p : piece) := match p with Shear _ _ _ g => g | _ => 0 end.
Definition piece_m (p : piece) := match p with PointMass _ _ R0 => R0 ^ 2 | _ => 0 end.
Definition spare (k g1 g2 m X Y : R) : R := (k * (X ^ 2 + Y ^ 2) + g1 * (X ^ 2 - Y ^ 2) + 2 * g2 * (X * Y)) / 2 + m - m * ln (sqrt (X ^ 2 + Y ^ 2)).
Lemma piece_pot z x0 y0 x y p : centred_at x0 y0 p -> off_centre x y p -> let a := reduced_deflection_angle (lens_of z p) x y in
  potential (lens_of z p) x y = (x - x0) * fst a + (y - y0) * snd a - spare (piece_k p) (piece_g1 p) (piece_g2 p) (piece_m p) (x - x0) (y - y0).
Proof.
  unfold spare. destruct p; cbn [centred_at off_centre lens_of reduced_deflection_angle potential piece_k piece_g1 piece_g2 piece_m]; intros C O.
  - destruct C as [-> ->]. unfold reduced_deflection_angle_mass_sheet, potential_mass_sheet, translate_rotate. cbn [fst snd]. field.
  - destruct C as [-> ->]. unfold reduced_deflection_angle_external_shear, potential_external_shear, translate_rotate. cbn [fst snd]. field.
  - destruct C as [-> ->]. rewrite (sis_pot x0 y0 Rein x y O). field.
  - destruct C as (-> & -> & ->). rewrite sie_pot. field.
  - destruct C as [-> ->]. assert (N := norm_pos (x - x0) (y - y0) ltac:(destruct O; [left|right]; lra)). unfold reduced_deflection_angle_point, potential_point, translate_rotate. cbv zeta. cbn [fst snd]. rewrite Rplus_0_r.
    assert (Q : sqrt ((x - x0) ^ 2 + (y - y0) ^ 2) ^ 2 = (x - x0) ^ 2 + (y - y0) ^ 2). { apply pow2_sqrt. assert (A := pow2_ge_0 (x - x0)). assert (B := pow2_ge_0 (y - y0)). lra. }
    rewrite Q. assert (P : 0 < (x - x0) ^ 2 + (y - y0) ^ 2) by (rewrite <- Q; apply pow_lt, N). field. lra.
Qed.
Lemma scene_pot z x0 y0 x y l : concentric x0 y0 l -> clear l x y -> let L := singleplane z (map (lens_of z) l) in let a := reduced_deflection_angle L x y in
  potential L x y = (x - x0) * fst a + (y - y0) * snd a - spare (sheets l) (shear_1 l) (shear_2 l) (star_mass l) (x - x0) (y - y0).
Proof.
  intros C O L a. unfold a, L. cbn [singleplane potential reduced_deflection_angle]. destruct (singleplane_sums (map (lens_of z) l) x y) as (E1 & _ & E2). rewrite E1, E2. cbn [fst snd]. clear E1 E2 a L.
  induction l as [|p l IH]; [unfold spare; cbn; field|]. cbn [map rsum fold_right]. unfold rsum in *. cbn [fold_right].
  rewrite IH by (intros r Hr; first [apply C; right; exact Hr|apply O; right; exact Hr]). rewrite (piece_pot z x0 y0 x y p (C p (or_introl eq_refl)) (O p (or_introl eq_refl))).
  unfold spare, sheets, shear_1, shear_2, star_mass, add_up. cbn [map fold_right]. fold (piece_k p) (piece_g1 p) (piece_g2 p) (piece_m p). field.
Qed.
Lemma scene_delay cd z zs x0 y0 l bx by_ x y : concentric x0 y0 l -> let L := singleplane z (map (lens_of z) l) in image L l bx by_ x y ->
  time_delay cd L zs x y true true = delay_unit cd z zs * (((bx - x0) ^ 2 + (by_ - y0) ^ 2) / 2 + star_mass l - lead (sheets l) (shear_1 l) (shear_2 l) (star_mass l) x0 y0 x y).
Proof.
  intros C L [O I]. assert (P := scene_pot z x0 y0 x y l C O). cbv zeta in P. fold L in P.
  unfold time_delay. cbn [z_l]. unfold raytrace in I. destruct (reduced_deflection_angle L x y) as [ax ay] eqn:E. cbn [fst snd] in P, I. injection I as I1 I2. rewrite P.
  assert (U : arcsec2_to_days cd zs z = delay_unit cd z zs) by (unfold arcsec2_to_days, time_delay_arcsec2_to_days, delay_unit, time_delay_distance, Rdiv; ring).
  change (z_l L) with z. rewrite U. f_equal. unfold spare, lead. subst bx by_. field.
Qed.
Lemma delays cd z zs x0 y0 l bx by_ x y x' y' : concentric x0 y0 l -> let L := singleplane z (map (lens_of z) l) in image L l bx by_ x y -> image L l bx by_ x' y' ->
  let lead := lead (sheets l) (shear_1 l) (shear_2 l) (star_mass l) x0 y0 in
  time_delay cd L zs x' y' true true - time_delay cd L zs x y true true = delay_unit cd z zs * (lead x y - lead x' y').
Proof. intros C L I I' ld. assert (A := scene_delay cd z zs x0 y0 l bx by_ x y C I). assert (B := scene_delay cd z zs x0 y0 l bx by_ x' y' C I'). cbv zeta in A, B. fold L in A, B. rewrite A, B. unfold ld. ring. Qed.
Lemma star_mass_nonneg l : 0 <= star_mass l.
Proof.
  unfold star_mass, add_up. induction l as [|p l IH]; cbn [map fold_right]; [lra|]. enough (0 <= match p with PointMass _ _ R0 => R0 ^ 2 | _ => 0 end) by lra. destruct p; try lra. apply pow2_ge_0.
Qed.
Lemma star_far m r s : 0 <= m -> 0 < r -> r < s -> m * ln r <= m * ln s.
Proof. intros M P Q. apply Rmult_le_compat_l; [exact M|]. left. apply ln_increasing; assumption. Qed.
Lemma farther_first cd z zs x0 y0 l bx by_ x y x' y' : concentric x0 y0 l -> shear_1 l = 0 -> shear_2 l = 0 -> sheets l < 1 -> 0 < delay_unit cd z zs ->
  let L := singleplane z (map (lens_of z) l) in image L l bx by_ x y -> image L l bx by_ x' y' -> x <> x0 \/ y <> y0 ->
  (x - x0) ^ 2 + (y - y0) ^ 2 < (x' - x0) ^ 2 + (y' - y0) ^ 2 -> time_delay cd L zs x' y' true true < time_delay cd L zs x y true true.
Proof.
  intros C G1 G2 K U L I I' O W. assert (D := delays cd z zs x0 y0 l bx by_ x y x' y' C I I'). cbv zeta in D. fold L in D.
  enough (lead (sheets l) (shear_1 l) (shear_2 l) (star_mass l) x0 y0 x y < lead (sheets l) (shear_1 l) (shear_2 l) (star_mass l) x0 y0 x' y').
  { assert (Q : 0 < delay_unit cd z zs * (lead (sheets l) (shear_1 l) (shear_2 l) (star_mass l) x0 y0 x' y' - lead (sheets l) (shear_1 l) (shear_2 l) (star_mass l) x0 y0 x y)) by (apply Rmult_lt_0_compat; lra). lra. }
  unfold lead. rewrite G1, G2. assert (N := norm_pos (x - x0) (y - y0) ltac:(destruct O; [left|right]; lra)).
  assert (A := pow2_ge_0 (x - x0)). assert (B := pow2_ge_0 (y - y0)). assert (S1 : sqrt ((x - x0) ^ 2 + (y - y0) ^ 2) < sqrt ((x' - x0) ^ 2 + (y' - y0) ^ 2)) by (apply sqrt_lt_1_alt; lra).
  assert (M := star_far (star_mass l) _ _ (star_mass_nonneg l) N S1). assert ((1 - sheets l) * ((x - x0) ^ 2 + (y - y0) ^ 2) < (1 - sheets l) * ((x' - x0) ^ 2 + (y' - y0) ^ 2)) by (apply Rmult_lt_compat_l; lra). lra.
Qed.
Lemma same_delays cd z zs x0 y0 l l2 bx by_ bx2 by2 x y x' y' : concentric x0 y0 l -> concentric x0 y0 l2 -> sheets l = sheets l2 -> shear_1 l = shear_1 l2 -> shear_2 l = shear_2 l2 -> star_mass l = star_mass l2 ->
  let L := singleplane z (map (lens_of z) l) in let L2 := singleplane z (map (lens_of z) l2) in
  image L l bx by_ x y -> image L l bx by_ x' y' -> image L2 l2 bx2 by2 x y -> image L2 l2 bx2 by2 x' y' ->
  time_delay cd L zs x' y' true true - time_delay cd L zs x y true true = time_delay cd L2 zs x' y' true true - time_delay cd L2 zs x y true true.
Proof.
  intros C C2 E1 E2 E3 E4 L L2 I I' J J'. assert (A := delays cd z zs x0 y0 l bx by_ x y x' y' C I I'). assert (B := delays cd z zs x0 y0 l2 bx2 by2 x y x' y' C2 J J'). cbv zeta in A, B. fold L in A. fold L2 in B. rewrite A, B, E1, E2, E3, E4. reflexivity.
Qed.
Lemma sis_two_images : let l := [Isothermal 0 0 2] in image (singleplane 0 (map (lens_of 0) l)) l 1 0 3 0 /\ image (singleplane 0 (map (lens_of 0) l)) l 1 0 (-1) 0.
Proof.
  assert (S3 : sqrt ((3 - 0) ^ 2 + (0 - 0) ^ 2) = 3) by (replace ((3 - 0) ^ 2 + (0 - 0) ^ 2) with (Rsqr 3) by (unfold Rsqr; ring); apply sqrt_Rsqr; lra).
  assert (S1 : sqrt ((-1 - 0) ^ 2 + (0 - 0) ^ 2) = 1) by (replace ((-1 - 0) ^ 2 + (0 - 0) ^ 2) with (Rsqr 1) by (unfold Rsqr; ring); apply sqrt_Rsqr; lra).
  intros l. split; (split; [intros p [<-|[]]; left; lra|]); unfold raytrace, l; cbn [map lens_of singleplane reduced_deflection_angle singleplane_deflection fold_left]; unfold reduced_deflection_angle_sis, translate_rotate; cbv zeta; cbn [fst snd]; [rewrite S3|rewrite S1]; f_equal; field.
Qed.
