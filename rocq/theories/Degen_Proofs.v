(** * Proofs for C146: the mass-sheet degeneracy in simulated images *)
From Coq Require Import Reals Lra List Arith Bool String.
From Verif Require Import Py Geo_Model Fsum Quad_Model LensBase_Model LensBasic_Model Halo_Model Light_Model Interp2_Model PixMap_Model Sim_Model Micro_Model Whole2_Proofs Sheet_Proofs Sheet_Props Degen_Spec.
Import ListNotations.
Local Open Scope R_scope.

Lemma scene_through ray ray' S f f' ll x0 y0 so lo chunk g : (forall x y, ray' x y = g (ray x y)) -> (forall p, f' (fst (g p)) (snd (g p)) = f (fst p) (snd p)) ->
  scene ray' S (Some f') ll x0 y0 so lo true chunk = scene ray S (Some f) ll x0 y0 so lo true chunk.
Proof.
  intros HR HF. unfold scene. set (pts := points S x0 y0). f_equal. destruct so; [|reflexivity].
  assert (E := vmap_map chunk (fun p => ray (fst p) (snd p)) (fun p => ray' (fst p) (snd p)) (fun p : R * R => p) g pts ltac:(intros v; apply HR)). rewrite map_id in E. rewrite E.
  destruct (vmap chunk (fun p => ray (fst p) (snd p)) pts) as [r|e]; [|reflexivity]. cbn [bind]. rewrite (vmap_rel chunk (fun p => f (fst p) (snd p)) (fun p => f' (fst p) (snd p)) g r HF). reflexivity.
Qed.
Lemma sheet_image kappa X0 Y0 t t' f f' : scaled_lens (1 - kappa) t t' -> shrunk (1 - kappa) X0 Y0 f f' -> forall S ll kr kc psf x0 y0 so lo conv chunk,
  call (raytrace (reduced_deflection_angle (with_sheet kappa X0 Y0 t t'))) S (Some f') ll kr kc psf x0 y0 so lo true conv chunk =
  call (raytrace (reduced_deflection_angle t)) S (Some f) ll kr kc psf x0 y0 so lo true conv chunk.
Proof.
  intros H F S ll kr kc psf x0 y0 so lo conv chunk. unfold call. f_equal. apply scene_through with (g := fun p => ((1 - kappa) * fst p + kappa * X0, (1 - kappa) * snd p + kappa * Y0)).
  - intros x y. exact (sheet_rt kappa X0 Y0 t t' H x y).
  - intros [u v]. cbn [fst snd]. rewrite <- (F u v). f_equal; ring.
Qed.
Lemma mean_ext n m x x' : (forall i j, x i j = x' i j) -> mean n m x = mean n m x'.
Proof. intros H. unfold mean. destruct (Nat.eqb (n * m) 0); [reflexivity|]. do 2 f_equal. apply fsum_ext. intros i _. apply fsum_ext. intros j _. apply H. Qed.
Lemma std_ext n m x x' : (forall i j, x i j = x' i j) -> std n m x = std n m x'.
Proof. intros H. unfold std. rewrite (mean_ext n m x x' H). destruct (mean n m x'); [|reflexivity]. f_equal. apply mean_ext. intros i j. rewrite H. reflexivity. Qed.
Lemma sheet_flux kappa X0 Y0 t t' f f' : scaled_lens (1 - kappa) t t' -> shrunk (1 - kappa) X0 Y0 f f' -> forall rx ry fov method N_mcmc N_grid,
  microlens (raytrace (reduced_deflection_angle (with_sheet kappa X0 Y0 t t'))) f' rx ry fov method N_mcmc N_grid = microlens (raytrace (reduced_deflection_angle t)) f rx ry fov method N_mcmc N_grid.
Proof.
  intros H F rx ry fov method Nm Ng. destruct fov as [[[f0 f1] f2] f3]. unfold microlens.
  assert (E : forall x y, (let '(bx, by_) := raytrace (reduced_deflection_angle (with_sheet kappa X0 Y0 t t')) x y in f' bx by_) = (let '(bx, by_) := raytrace (reduced_deflection_angle t) x y in f bx by_)).
  { intros x y. assert (W := sheet_rt kappa X0 Y0 t t' H x y). unfold with_sheet. rewrite W. destruct (raytrace (reduced_deflection_angle t) x y) as [u v]. cbn [fst snd]. rewrite <- (F u v). f_equal; ring. }
  destruct (String.eqb method "mcmc"); [|destruct (String.eqb method "grid"); [|reflexivity]].
  all: f_equal; f_equal; [f_equal; apply mean_ext; intros; apply E|f_equal; apply std_ext; intros; apply E].
Qed.
Lemma sersic_shrunk l X0 Y0 lk s x0 y0 q phi n Re Ie : l <> 0 -> Re <> 0 ->
  shrunk l X0 Y0 (sersic_brightness lk s x0 y0 q phi n Re Ie) (sersic_brightness lk (Rabs l * s) (X0 + l * (x0 - X0)) (Y0 + l * (y0 - Y0)) q phi n (Rabs l * Re) Ie).
Proof.
  intros L HRe u v. unfold sersic_brightness. set (k := if lk then _ else _). unfold brightness_sersic, translate_rotate, to_elliptical. cbv zeta.
  set (ex := (u - x0) * cos phi + (v - y0) * sin phi). set (ey := ((v - y0) * cos phi - (u - x0) * sin phi) / q).
  assert (P : Rabs l <> 0) by (apply Rabs_no_R0, L).
  assert (E : (sqrt (((X0 + l * (u - X0) - (X0 + l * (x0 - X0))) * cos phi + (Y0 + l * (v - Y0) - (Y0 + l * (y0 - Y0))) * sin phi) ^ 2 +
     (((Y0 + l * (v - Y0) - (Y0 + l * (y0 - Y0))) * cos phi - (X0 + l * (u - X0) - (X0 + l * (x0 - X0))) * sin phi) / q) ^ 2) + Rabs l * s) / (Rabs l * Re) = (sqrt (ex ^ 2 + ey ^ 2) + s) / Re).
  { replace (((X0 + l * (u - X0) - (X0 + l * (x0 - X0))) * cos phi + (Y0 + l * (v - Y0) - (Y0 + l * (y0 - Y0))) * sin phi) ^ 2 + (((Y0 + l * (v - Y0) - (Y0 + l * (y0 - Y0))) * cos phi - (X0 + l * (u - X0) - (X0 + l * (x0 - X0))) * sin phi) / q) ^ 2)
      with (Rsqr l * (ex ^ 2 + ey ^ 2)) by (unfold ex, ey, Rsqr, Rdiv; ring).
    rewrite sqrt_mult_alt by apply Rle_0_sqr. rewrite sqrt_Rsqr_abs. field. split; assumption. }
  rewrite E. reflexivity.
Qed.
Lemma cancel l d p w : l <> 0 -> l * d / (l * p * w) * 2 = d / (p * w) * 2.
Proof. intros L. unfold Rdiv. rewrite !Rinv_mult. transitivity ((l * / l) * (d * (/ p * / w) * 2)); [ring|]. rewrite Rinv_r by exact L. ring. Qed.
Lemma pixelated_shrunk l X0 Y0 ndim h w im x0 y0 ps scale pad : 0 < l ->
  shrunk l X0 Y0 (px_brightness ndim h w im x0 y0 ps scale pad) (px_brightness ndim h w im (X0 + l * (x0 - X0)) (Y0 + l * (y0 - Y0)) (l * ps) scale pad).
Proof.
  intros L u v. unfold px_brightness. cbv zeta. replace (X0 + l * (u - X0) - (X0 + l * (x0 - X0))) with (l * (u - x0)) by ring. replace (Y0 + l * (v - Y0) - (Y0 + l * (y0 - Y0))) with (l * (v - y0)) by ring.
  rewrite !cancel by lra. reflexivity.
Qed.
Lemma cube_shrunk l X0 Y0 ndim d h w cube x0 y0 ps t_end scale time : 0 < l ->
  shrunk l X0 Y0 (fun x y => pt_brightness ndim d h w cube x0 y0 ps t_end scale x y time) (fun x y => pt_brightness ndim d h w cube (X0 + l * (x0 - X0)) (Y0 + l * (y0 - Y0)) (l * ps) t_end scale x y time).
Proof.
  intros L u v. unfold pt_brightness. cbv zeta. replace (X0 + l * (u - X0) - (X0 + l * (x0 - X0))) with (l * (u - x0)) by ring. replace (Y0 + l * (v - Y0) - (Y0 + l * (y0 - Y0))) with (l * (v - y0)) by ring.
  rewrite !cancel by lra. reflexivity.
Qed.
Lemma star_at x0 y0 theta_s Ie x y : theta_s <= 1 -> brightness_star x0 y0 theta_s Ie x y 0 = Some (if Rle_dec (sqrt ((x - x0) ^ 2 + (y - y0) ^ 2)) theta_s then Ie else 0).
Proof.
  intros T. unfold brightness_star, translate_rotate, half_pow. assert (A := pow2_ge_0 (x - x0)). assert (B := pow2_ge_0 (y - y0)). destruct (Rlt_dec ((x - x0) ^ 2 + (y - y0) ^ 2) 0) as [C|_]; [lra|].
  assert (P := sqrt_pos ((x - x0) ^ 2 + (y - y0) ^ 2)). set (b := sqrt _) in *. destruct (Rle_dec b theta_s) as [D|D]; [|reflexivity].
  destruct (Rlt_dec (1 - b ^ 2) 0) as [C|_]; [|f_equal; ring]. exfalso. assert (0 <= b * (1 - b)) by (apply Rmult_le_pos; lra). nra.
Qed.
Lemma star_shrunk l X0 Y0 x0 y0 theta_s Ie : l <> 0 -> theta_s <= 1 -> Rabs l * theta_s <= 1 ->
  shrunk l X0 Y0 (fun x y => brightness_star x0 y0 theta_s Ie x y 0) (fun x y => brightness_star (X0 + l * (x0 - X0)) (Y0 + l * (y0 - Y0)) (Rabs l * theta_s) Ie x y 0).
Proof.
  intros L T1 T2 u v. rewrite !star_at by assumption. f_equal.
  replace ((X0 + l * (u - X0) - (X0 + l * (x0 - X0))) ^ 2 + (Y0 + l * (v - Y0) - (Y0 + l * (y0 - Y0))) ^ 2) with (Rsqr l * ((u - x0) ^ 2 + (v - y0) ^ 2)) by (unfold Rsqr; ring).
  rewrite sqrt_mult_alt by apply Rle_0_sqr. rewrite sqrt_Rsqr_abs. set (b := sqrt _). assert (P := Rabs_pos_lt l L).
  destruct (Rle_dec (Rabs l * b) (Rabs l * theta_s)) as [A|A], (Rle_dec b theta_s) as [B|B]; try reflexivity; exfalso; [apply B, (Rmult_le_reg_l (Rabs l)); assumption|apply A, Rmult_le_compat_l; lra].
Qed.
Lemma stack_shrunk {K} l X0 Y0 (ms ms' : list (source K)) kw : Forall2 (fun m m' => shrunk l X0 Y0 (m kw) (m' kw)) ms ms' -> shrunk l X0 Y0 (light_stack ms kw) (light_stack ms' kw).
Proof.
  intros H u v. unfold light_stack. generalize 0. induction H as [|m m' ms ms' E F IH]; intros z; [reflexivity|]. cbn [for_loop]. rewrite (E u v). destruct (m kw u v) as [b|e]; cbn [bind]; [apply IH|reflexivity].
Qed.
