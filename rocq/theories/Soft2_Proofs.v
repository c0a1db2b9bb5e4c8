(** * The effect of a softening length: elliptical lenses and halos (for C115) *)
From Coq Require Import Reals Lra Psatz.
From Coquelicot Require Import Coquelicot.
From Verif Require Import Const_Model RealFun Derive1 Calc2 Cosmo_Model Geo_Model LensBase_Model LensBasic_Model Lens_Spec Lens_Lib EncMass_Proofs Mirror_Proofs Nfw_Model Nfw3_Proofs Tnfw_Model Tnfw_Proofs Tnfw2_Proofs Tnfw3_Proofs Tnfw4_Proofs Epl_Model Falls_Spec Soft_Spec Soft_Proofs.
Local Open Scope R_scope.

Lemma apart_derotate u v u' v' p : apart (derotate u v (Some p)) (derotate u' v' (Some p)) = apart (u, v) (u', v').
Proof.
  unfold apart, distance, derotate; cbn [fst snd]. f_equal. generalize (sin2_cos2 p). rewrite !Rsqr_pow2. intros E.
  transitivity (((u' - u) ^ 2 + (v' - v) ^ 2) * (sin p ^ 2 + cos p ^ 2)); [ring|rewrite E; ring].
Qed.
Lemma sie_soft_general x0 y0 q phi Rein s x y : 0 < q <= 1 -> 0 < Rein -> 0 <= s -> x <> x0 \/ y <> y0 ->
  let q' := if Req_EM_T q 1 then q - 1 / 10 ^ 6 else q in
  apart (reduced_deflection_angle_sie x0 y0 q phi Rein s x y) (reduced_deflection_angle_sie x0 y0 q phi Rein 0 x y) <= Rein * sqrt q' * (1 + q') / q' ^ 2 * s / distance x0 y0 x y.
Proof.
  intros Hq HR Hs H q'. assert (Hq' : 0 < q' < 1) by (unfold q'; destruct (Req_EM_T q 1); lra). assert (N := tr_nonzero x y x0 y0 phi H). assert (E := rot_norm x y x0 y0 phi).
  unfold reduced_deflection_angle_sie. fold q'. destruct (translate_rotate x y x0 y0 (Some phi)) as [X Y]. cbn [fst snd] in N. unfold distance. rewrite <- E.
  rewrite apart_derotate. eapply Rle_trans; [|exact (sie_close q' s X Y Hq' Hs N Rein HR)].
  apply apart_le; [exact (ax_close q' s X Y Hq' Hs N Rein HR)|exact (ay_close q' s X Y Hq' Hs N Rein HR)].
Qed.
Lemma sie_soft x0 y0 q phi Rein s x y : 0 < q < 1 -> 0 < Rein -> 0 <= s -> x <> x0 \/ y <> y0 -> let r := distance x0 y0 x y in
  apart (reduced_deflection_angle_sie x0 y0 q phi Rein s x y) (reduced_deflection_angle_sie x0 y0 q phi Rein 0 x y) <= Rein * sqrt q * (1 + q) / q ^ 2 * s / r /\
  Rabs (convergence_sie x0 y0 q phi Rein s x y - convergence_sie x0 y0 q phi Rein 0 x y) <= Rein * sqrt q * s ^ 2 / (4 * q * r ^ 3).
Proof.
  intros Hq HR Hs H r. split.
  - assert (B := sie_soft_general x0 y0 q phi Rein s x y ltac:(lra) HR Hs H). cbv zeta in B. destruct (Req_EM_T q 1); [lra|exact B].
  - assert (N := tr_nonzero x y x0 y0 phi H). assert (E := rot_norm x y x0 y0 phi). unfold convergence_sie. destruct (translate_rotate x y x0 y0 (Some phi)) as [X Y]. cbn [fst snd] in N. unfold r, distance. rewrite <- E.
    rewrite (Rmult_comm Rein (sqrt q)). exact (kappa_close q s X Y Hq N Rein HR).
Qed.
Lemma sie_soft_round x0 y0 phi Rein s x y : 0 < Rein -> 0 <= s -> x <> x0 \/ y <> y0 ->
  apart (reduced_deflection_angle_sie x0 y0 1 phi Rein s x y) (reduced_deflection_angle_sie x0 y0 1 phi Rein 0 x y) <= 3 * Rein * s / distance x0 y0 x y.
Proof.
  intros HR Hs H. assert (P := dist_pos _ _ _ _ H). eapply Rle_trans; [apply (sie_soft_general x0 y0 1 phi Rein s x y ltac:(lra) HR Hs H)|].
  destruct (Req_EM_T 1 1) as [_|]; [|lra]. set (q := 1 - 1 / 10 ^ 6). assert (Hq : 999 / 1000 < q < 1) by (unfold q; lra).
  assert (S : sqrt q <= 1) by (rewrite <- sqrt_1; apply sqrt_le_1_alt; lra). assert (S0 := sqrt_pos q).
  apply Rmult_le_compat_r; [left; apply Rinv_0_lt_compat; lra|]. apply Rmult_le_compat_r; [lra|]. apply Rmult_le_reg_r with (q ^ 2); [nra|].
  replace (Rein * sqrt q * (1 + q) / q ^ 2 * q ^ 2) with (Rein * (sqrt q * (1 + q))) by (field; lra). replace (3 * Rein * q ^ 2) with (Rein * (3 * q ^ 2)) by ring. apply Rmult_le_compat_l; nra.
Qed.

(** ** Limits *)
Lemma fades_cont f : continuous f 0 -> fades f.
Proof.
  intros C eps He. assert (B := C (ball (f 0) (mkposreal eps He)) ltac:(exists (mkposreal eps He); intros; assumption)). destruct B as [d Hd].
  exists d. split; [apply cond_pos|]. intros s Hs. apply (Hd s). change (Rabs (s - 0) < d). rewrite Rminus_0_r, Rabs_pos_eq; lra.
Qed.
Lemma fades_derive f l : is_derive f 0 l -> fades f.
Proof. intros D. apply fades_cont. apply (ex_derive_continuous (K := R_AbsRing) (V := R_NormedModule)). exists l. exact D. Qed.
Lemma fades_ext f g : (forall s, 0 <= s -> f s = g s) -> fades f -> fades g.
Proof. intros E F eps He. destruct (F eps He) as [d [Hd K]]. exists d. split; [exact Hd|]. intros s Hs. rewrite <- !E by lra. apply K, Hs. Qed.
Lemma fades_ext_near f g d0 : 0 < d0 -> (forall s, 0 <= s < d0 -> f s = g s) -> fades f -> fades g.
Proof.
  intros H0 E F eps He. destruct (F eps He) as [d [Hd K]]. exists (Rmin d d0). split; [apply Rmin_glb_lt; assumption|]. intros s Hs.
  assert (s < d) by (eapply Rlt_le_trans; [apply Hs|apply Rmin_l]). assert (s < d0) by (eapply Rlt_le_trans; [apply Hs|apply Rmin_r]). rewrite <- !E by lra. apply K. lra.
Qed.
Lemma fades_plus f g : fades f -> fades g -> fades (fun s => f s + g s).
Proof.
  intros F G eps He. destruct (F (eps / 2) ltac:(lra)) as [d [Hd K]]. destruct (G (eps / 2) ltac:(lra)) as [e [Hd' K']]. exists (Rmin d e). split; [apply Rmin_glb_lt; assumption|]. intros s Hs.
  specialize (K s ltac:(split; [lra|eapply Rlt_le_trans; [apply Hs|apply Rmin_l]])). specialize (K' s ltac:(split; [lra|eapply Rlt_le_trans; [apply Hs|apply Rmin_r]])).
  replace (f s + g s - (f 0 + g 0)) with ((f s - f 0) + (g s - g 0)) by ring. eapply Rle_lt_trans; [apply Rabs_triang|]. lra.
Qed.
Lemma fades_scal c f : fades f -> fades (fun s => c * f s).
Proof.
  intros F eps He. assert (C := Rabs_pos c). destruct (F (eps / (Rabs c + 1)) ltac:(apply Rdiv_lt_0_compat; lra)) as [d [Hd K]]. exists d. split; [exact Hd|]. intros s Hs. specialize (K s Hs).
  rewrite <- Rmult_minus_distr_l, Rabs_mult. assert (A := Rabs_pos (f s - f 0)). apply Rle_lt_trans with ((Rabs c + 1) * Rabs (f s - f 0)); [nra|].
  apply Rmult_lt_reg_l with (/ (Rabs c + 1)); [apply Rinv_0_lt_compat; lra|]. rewrite <- Rmult_assoc, Rinv_l by lra. unfold Rdiv in K. lra.
Qed.
Lemma fades_bound f k : (forall s, 0 <= s -> Rabs (f s - f 0) <= k * s) -> fades f.
Proof.
  intros B eps He. assert (0 <= k). { generalize (B 1 ltac:(lra)), (Rabs_pos (f 1 - f 0)). lra. } exists (eps / (k + 1)). split; [apply Rdiv_lt_0_compat; lra|]. intros s Hs.
  eapply Rle_lt_trans; [apply B; lra|]. apply Rle_lt_trans with ((k + 1) * s); [nra|]. replace eps with ((k + 1) * (eps / (k + 1))) by (field; lra). apply Rmult_lt_compat_l; lra.
Qed.

(** along the ray outwards *)
Section Ray.
Variables x0 y0 x y : R.
Hypothesis Hxy : x <> x0 \/ y <> y0.
Notation r := (distance x0 y0 x y).
Notation px s := (fst (further_out x0 y0 s x y)).
Notation py s := (snd (further_out x0 y0 s x y)).
Lemma out_diff s : px s - x0 = (r + s) / r * (x - x0) /\ py s - y0 = (r + s) / r * (y - y0).
Proof. unfold further_out; cbn [fst snd]. split; ring. Qed.
Lemma out_dist s : 0 <= s -> sqrt ((px s - x0) ^ 2 + (py s - y0) ^ 2) = r + s.
Proof.
  intros Hs. assert (P := dist_pos _ _ _ _ Hxy). destruct (out_diff s) as [-> ->]. replace (((r + s) / r * (x - x0)) ^ 2 + ((r + s) / r * (y - y0)) ^ 2) with (((r + s) / r) ^ 2 * r ^ 2) by (rewrite dist_sq; ring).
  replace (((r + s) / r) ^ 2 * r ^ 2) with ((r + s) ^ 2) by (field; lra). apply sqrt_pow2. lra.
Qed.
Lemma out_0 : further_out x0 y0 0 x y = (x, y).
Proof. assert (P := dist_pos _ _ _ _ Hxy). unfold further_out. rewrite Rplus_0_r. f_equal; field; lra. Qed.
Lemma fades_out f fx fy : D2 f x y fx fy -> fades (fun s => f (px s) (py s)).
Proof.
  intros D. assert (P := dist_pos _ _ _ _ Hxy).
  assert (A : is_derive (fun s => px s) 0 ((x - x0) / r)) by (unfold further_out; cbn [fst]; auto_derive; [trivial|field; lra]).
  assert (B : is_derive (fun s => py s) 0 ((y - y0) / r)) by (unfold further_out; cbn [snd]; auto_derive; [trivial|field; lra]).
  eapply fades_derive. apply (D2_curve f (fun s => px s) (fun s => py s)); [|exact A|exact B]. cbv beta. rewrite out_0. exact D.
Qed.
Lemma out_near s : 0 <= s -> Rabs (px s - x) <= s /\ Rabs (py s - y) <= s.
Proof.
  intros Hs. assert (P := dist_pos _ _ _ _ Hxy).
  assert (U : forall u, u ^ 2 <= r ^ 2 -> Rabs (s * (u / r)) <= s).
  { intros u Hu. rewrite Rabs_mult, (Rabs_pos_eq s) by lra. assert (Rabs (u / r) <= 1); [|generalize (Rabs_pos (u / r)); nra].
    unfold Rdiv. rewrite Rabs_mult, (Rabs_pos_eq (/ r)) by (left; apply Rinv_0_lt_compat; lra). apply Rmult_le_reg_r with r; [lra|]. rewrite Rmult_assoc, Rinv_l, Rmult_1_r, Rmult_1_l by lra.
    apply Rsqr_incr_0_var; [|lra]. rewrite !Rsqr_pow2, pow2_abs. exact Hu. }
  split.
  - replace (px s - x) with (s * ((x - x0) / r)) by (unfold further_out; cbn [fst]; field; lra). apply U. rewrite dist_sq. generalize (pow2_ge_0 (y - y0)). lra.
  - replace (py s - y) with (s * ((y - y0) / r)) by (unfold further_out; cbn [snd]; field; lra). apply U. rewrite dist_sq. generalize (pow2_ge_0 (x - x0)). lra.
Qed.
Lemma fades_out_c f : continuity_2d_pt f x y -> fades (fun s => f (px s) (py s)).
Proof.
  intros C eps He. destruct (C (mkposreal eps He)) as [d Hd]. exists d. split; [apply cond_pos|]. intros s Hs. rewrite out_0. cbn [fst snd]. destruct (out_near s ltac:(lra)). apply Hd; lra.
Qed.
End Ray.

Lemma sie_potential_fades x0 y0 q phi Rein x y : 0 < q <= 1 -> 0 < Rein -> x <> x0 \/ y <> y0 -> fades (fun s => potential_sie x0 y0 q phi Rein s x y).
Proof.
  intros Hq HR H. set (q' := if Req_EM_T q 1 then q - 1 / 10 ^ 6 else q). assert (Hq' : 0 < q' < 1) by (unfold q'; destruct (Req_EM_T q 1); lra).
  assert (N := tr_nonzero x y x0 y0 phi H). destruct (translate_rotate x y x0 y0 (Some phi)) as [X Y] eqn:E. cbn [fst snd] in N.
  set (ax := fun s => Rein * sqrt q' / ff q' * atan (ff q' * X / (psi q' X Y s + s))). set (ay := fun s => Rein * sqrt q' / ff q' * atanh (ff q' * Y / (psi q' X Y s + q' ^ 2 * s))).
  set (m := 1 / 10 ^ 6). assert (Hm : 0 < m) by (unfold m; lra).
  set (l := fun s => - (Rein * sqrt q * s) * ln (sqrt ((sqrt (q ^ 2 * (X ^ 2 + s ^ 2) + Y ^ 2) + m) ^ 2 + (1 - q ^ 2) * X ^ 2)) + Rein * sqrt q * s * ln ((1 + q) * m)).
  apply fades_ext_near with (fun s => (X * ax s + Y * ay s) + l s) m; [exact Hm| |].
  - intros s Hs. unfold potential_sie, reduced_deflection_angle_sie. fold q'. rewrite E. change (sqrt (1 - q' ^ 2)) with (ff q'). change (sqrt (q' ^ 2 * (X ^ 2 + s ^ 2) + Y ^ 2)) with (psi q' X Y s).
    cbv zeta. fold (ax s). fold (ay s). assert (D := LensBasic_Proofs.derotate_inverse (ax s) (ay s) phi). destruct (derotate (ax s) (ay s) (Some phi)) as [u v]. rewrite D. cbn [fst snd].
    rewrite (Rmax_right s) by (unfold m in Hs; lra). fold m. unfold l. ring.
  - apply fades_plus; [apply fades_plus; apply fades_scal|].
    + apply (fades_bound ax (Rein * sqrt q' * (1 + q') / psi q' X Y 0 ^ 2 * Rabs X)). intros s Hs. eapply Rle_trans; [exact (ax_close q' s X Y Hq' Hs N Rein HR)|]. right. field. apply Rgt_not_eq, psi_pos; assumption.
    + apply (fades_bound ay (Rein * sqrt q' * (1 + q') / psi q' X Y 0 ^ 2 * (Rabs Y / q'))). intros s Hs. eapply Rle_trans; [exact (ay_close q' s X Y Hq' Hs N Rein HR)|]. right. field. split; [lra|apply Rgt_not_eq, psi_pos; assumption].
    + assert (A := pow2_ge_0 X). assert (B := pow2_ge_0 Y). assert (C := norm2_pos X Y N). assert (Q : 0 < q ^ 2 <= 1) by nra. assert (P : 0 < q ^ 2 * (X ^ 2 + 0 ^ 2) + Y ^ 2) by nra.
      assert (S := sqrt_lt_R0 _ P). assert (T : 0 < (sqrt (q ^ 2 * (X ^ 2 + 0 ^ 2) + Y ^ 2) + m) ^ 2 + (1 - q ^ 2) * X ^ 2) by nra. assert (U := sqrt_lt_R0 _ T).
      apply fades_cont. apply (ex_derive_continuous (K := R_AbsRing) (V := R_NormedModule)). unfold l. auto_derive. rewrite !(fun u : R => eq_refl : u * (u * 1) = u ^ 2). change (0 * (0 * 1)) with (0 ^ 2). repeat split; assumption.
Qed.
Lemma epl_fades x0 y0 q phi Rein t x y : 0 < q -> 0 < Rein -> x <> x0 \/ y <> y0 -> fades (fun s => convergence_epl x0 y0 q phi Rein t s x y).
Proof.
  intros Hq HR H. assert (N := tr_nonzero x y x0 y0 phi H). destruct (translate_rotate x y x0 y0 (Some phi)) as [X Y] eqn:E. cbn [fst snd] in N.
  assert (A := pow2_ge_0 X). assert (B := pow2_ge_0 Y). assert (C := norm2_pos X Y N). assert (Q : 0 < q ^ 2) by nra.
  assert (P : forall s, 0 < q ^ 2 * X ^ 2 + Y ^ 2 + s ^ 2). { intros s. destruct (Req_dec X 0) as [->|NX]; [assert (0 < Y ^ 2) by nra; nra|]. assert (0 < X ^ 2) by nra. assert (0 < q ^ 2 * X ^ 2) by nra. nra. }
  assert (Z : forall s, 0 < Rein * sqrt q / sqrt (q ^ 2 * X ^ 2 + Y ^ 2 + s ^ 2)). { intros s. apply Rdiv_lt_0_compat; [apply Rmult_lt_0_compat; [exact HR|apply sqrt_lt_R0, Hq]|apply sqrt_lt_R0, P]. }
  apply fades_ext with (fun s => (2 - t) / 2 * exp (t * ln (Rein * sqrt q / sqrt (q ^ 2 * X ^ 2 + Y ^ 2 + s ^ 2)))).
  - intros s _. unfold convergence_epl. rewrite E. unfold power. destruct (Req_EM_T _ 0) as [W|W]; [specialize (Z s); lra|]. reflexivity.
  - apply fades_scal. apply fades_cont. apply (ex_derive_continuous (K := R_AbsRing) (V := R_NormedModule)). specialize (P 0). specialize (Z 0). assert (S := sqrt_lt_R0 _ P). auto_derive. rewrite !(fun u : R => eq_refl : u * (u * 1) = u ^ 2). change (0 * (0 * 1)) with (0 ^ 2). repeat split; solve [assumption | apply Rgt_not_eq; exact S].
Qed.

(** ** Halos *)
Lemma sproj_diff tau g : 0 < tau -> 0 < g -> 1 / 100 < Rabs (g - 1) -> ex_derive (sproj tau) g.
Proof.
  intros Ht Hg W. destruct (sq_ne g Hg W) as [N1 N2]. assert (H := hyp_pos tau Ht g).
  apply ex_derive_ext_loc with (fun g => tau ^ 2 / (tau ^ 2 + 1) ^ 2 * ((tau ^ 2 + 1) * (1 - F_tnfw g) / (g ^ 2 - 1) + 2 * F_tnfw g + - PI / hyp tau g + (tau ^ 2 - 1) * L_tnfw g tau / (tau * hyp tau g))).
  - exists (mkposreal (Rabs (g - 1)) ltac:(lra)). intros u Hu. change (Rabs (u - g) < Rabs (g - 1)) in Hu. unfold sproj. destruct (Req_EM_T u 1) as [->|]; [|reflexivity]. rewrite Rabs_minus_sym in Hu. lra.
  - eexists. apply dv_scal. assert (DF := F_derive g Hg W). assert (DH := d_hyp tau Ht g). assert (DL := L_derive tau Ht g Hg).
    apply dv_plus; [apply dv_plus; [apply dv_plus|]|].
    + apply dv_div; [apply dv_scal, dv_minus; [apply dv_const|exact DF]|apply dv_minus; [apply dv_sq, dv_id|apply dv_const]|exact N1].
    + apply dv_scal. exact DF.
    + apply dv_div; [apply dv_const|exact DH|lra].
    + apply dv_div; [apply dv_scal; exact DL|apply dv_scal; exact DH|apply Rgt_not_eq, Rmult_lt_0_compat; lra].
Qed.
Section Halos.
Variables (dc cd : R -> R) (z_s z_l x0 y0 mass x y : R).
Hypothesis Hxy : x <> x0 \/ y <> y0.
Notation r := (distance x0 y0 x y).
Notation p s := (further_out x0 y0 s x y).
Lemma nfw_shift c s : 0 <= s ->
  nfw_potential dc cd z_s z_l x0 y0 mass c s x y = nfw_potential dc cd z_s z_l x0 y0 mass c 0 (fst (p s)) (snd (p s)) /\
  nfw_convergence dc cd z_s z_l x0 y0 mass c s x y = nfw_convergence dc cd z_s z_l x0 y0 mass c 0 (fst (p s)) (snd (p s)) /\
  let a := nfw_reduced_deflection_angle dc cd z_s z_l x0 y0 mass c 0 (fst (p s)) (snd (p s)) in
  nfw_reduced_deflection_angle dc cd z_s z_l x0 y0 mass c s x y = (r / (r + s) * fst a, r / (r + s) * snd a).
Proof.
  intros Hs. assert (P := dist_pos _ _ _ _ Hxy). assert (D := out_dist _ _ _ _ Hxy s Hs). destruct (out_diff x0 y0 x y s) as [DX DY]. split; [|split].
  - unfold nfw_potential, potential_nfw, translate_rotate. cbv zeta. rewrite D, Rplus_0_r. reflexivity.
  - unfold nfw_convergence, convergence_nfw, translate_rotate. cbv zeta. rewrite D, Rplus_0_r. reflexivity.
  - unfold nfw_reduced_deflection_angle, nfw_physical_deflection_angle, physical_deflection_angle_nfw, translate_rotate, reduced_from_physical_deflection_angle. cbv zeta. cbn [fst snd]. rewrite D, Rplus_0_r, DX, DY.
    change (sqrt ((x - x0) ^ 2 + (y - y0) ^ 2)) with r. set (h := 16 * PI * _ * _ * _ * _ * _ / _). set (w := angular_diameter_distance_z1z2 dc z_l z_s / angular_diameter_distance dc z_s). clearbody h w. f_equal; field; lra.
Qed.
Lemma tnfw_shift tot Rs tau s : 0 <= s ->
  tnfw_potential dc cd tot z_s z_l x0 y0 mass Rs tau s x y = tnfw_potential dc cd tot z_s z_l x0 y0 mass Rs tau 0 (fst (p s)) (snd (p s)) /\
  tnfw_convergence dc cd tot z_s z_l x0 y0 mass Rs tau s x y = tnfw_convergence dc cd tot z_s z_l x0 y0 mass Rs tau 0 (fst (p s)) (snd (p s)) /\
  tnfw_reduced_deflection_angle dc cd tot z_s z_l x0 y0 mass Rs tau s x y = tnfw_reduced_deflection_angle dc cd tot z_s z_l x0 y0 mass Rs tau 0 (fst (p s)) (snd (p s)).
Proof.
  intros Hs. assert (P := dist_pos _ _ _ _ Hxy). assert (D := out_dist _ _ _ _ Hxy s Hs). destruct (out_diff x0 y0 x y s) as [DX DY]. split; [|split].
  - unfold tnfw_potential, potential_tnfw, translate_rotate. cbv zeta. rewrite D, Rplus_0_r. reflexivity.
  - unfold tnfw_convergence, convergence_tnfw, translate_rotate. cbv zeta. rewrite D, Rplus_0_r. reflexivity.
  - assert (HH : x - x0 <> 0 \/ y - y0 <> 0) by (destruct Hxy; [left|right]; lra). assert (K : (r + s) / r <> 0) by (apply Rgt_not_eq, Rdiv_lt_0_compat; lra).
    assert (HH' : fst (p s) - x0 <> 0 \/ snd (p s) - y0 <> 0) by (rewrite DX, DY; destruct HH; [left|right]; apply Rmult_integral_contrapositive_currified; assumption).
    unfold tnfw_reduced_deflection_angle, tnfw_physical_deflection_angle, physical_deflection_angle_tnfw, translate_rotate. cbv zeta. rewrite !atan2_cos, !atan2_sin by assumption. rewrite D, Rplus_0_r, DX, DY.
    change (sqrt ((x - x0) ^ 2 + (y - y0) ^ 2)) with r. replace ((r + s) / r * (x - x0) / (r + s)) with ((x - x0) / r) by (field; lra). replace ((r + s) / r * (y - y0) / (r + s)) with ((y - y0) / r) by (field; lra). reflexivity.
Qed.
Hypothesis Hl : 0 < angular_diameter_distance dc z_l.
Hypothesis Hzs : 0 < angular_diameter_distance dc z_s.
Hypothesis Hls : 0 < angular_diameter_distance_z1z2 dc z_l z_s.
Lemma nfw_fades c : 0 < cd z_l -> 0 < mass -> 0 < c ->
  1 / 1000000 < Rabs (angular_diameter_distance dc z_l * r * arcsec_to_rad / nfw_get_scale_radius cd z_l mass c - 1) ->
  fades (fun s => nfw_potential dc cd z_s z_l x0 y0 mass c s x y) /\
  fades (fun s => fst (nfw_reduced_deflection_angle dc cd z_s z_l x0 y0 mass c s x y)) /\ fades (fun s => snd (nfw_reduced_deflection_angle dc cd z_s z_l x0 y0 mass c s x y)) /\
  exists k delta, 0 < delta /\ (forall s, 0 <= s < delta -> nfw_convergence dc cd z_s z_l x0 y0 mass c s x y = Some (k s)) /\ fades k.
Proof.
  intros Hc Hm HC W. assert (P := dist_pos _ _ _ _ Hxy). destruct (nfw_consistent_all dc cd z_s z_l x0 y0 mass c Hc Hm HC Hl Hzs Hls x y Hxy W) as [k0 [_ [DP [axx [axy [ayx [ayy [DX [DY _]]]]]]]]].
  assert (SH := nfw_shift c).
  assert (Q : forall F fx fy, D2 F x y fx fy -> fades (fun s => r / (r + s) * F (fst (p s)) (snd (p s)))).
  { intros F fx fy D. assert (A : is_derive (fun s => fst (p s)) 0 ((x - x0) / r)) by (unfold further_out; cbn [fst]; auto_derive; [trivial|field; lra]).
    assert (B : is_derive (fun s => snd (p s)) 0 ((y - y0) / r)) by (unfold further_out; cbn [snd]; auto_derive; [trivial|field; lra]).
    assert (U : is_derive (fun s => r / (r + s)) 0 (- / r)) by (auto_derive; [lra|field; lra]).
    assert (V : is_derive (fun s => F (fst (p s)) (snd (p s))) 0 (fx * ((x - x0) / r) + fy * ((y - y0) / r))) by (apply (D2_curve F (fun s => fst (p s)) (fun s => snd (p s))); [|exact A|exact B]; cbv beta; rewrite out_0 by exact Hxy; exact D).
    exact (fades_derive _ _ (dv_mult (fun s => r / (r + s)) (fun s => F (fst (p s)) (snd (p s))) 0 _ _ U V)). }
  split; [|split; [|split]].
  - eapply fades_ext; [|exact (fades_out x0 y0 x y Hxy _ _ _ DP)]. intros s Hs. symmetry. apply (SH s Hs).
  - eapply fades_ext; [|exact (Q _ _ _ DX)]. intros s Hs. destruct (SH s Hs) as [_ [_ E]]. rewrite E. reflexivity.
  - eapply fades_ext; [|exact (Q _ _ _ DY)]. intros s Hs. destruct (SH s Hs) as [_ [_ E]]. rewrite E. reflexivity.
  - destruct (nfw_continuous dc cd z_s z_l x0 y0 mass c HC Hl x y Hxy W) as [kappa [[d L] C]]. exists (fun s => kappa (fst (p s)) (snd (p s))), d. split; [apply cond_pos|]. split; [|exact (fades_out_c x0 y0 x y Hxy kappa C)].
    intros s Hs. destruct (SH s ltac:(lra)) as [_ [E _]]. rewrite E. destruct (out_near x0 y0 x y Hxy s ltac:(lra)). apply L; lra.
Qed.
Lemma tnfw_fades tot Rs tau : 0 < Rs -> 0 < tau -> 1 / 100 < Rabs (r / Rs - 1) ->
  fades (fun s => tnfw_potential dc cd tot z_s z_l x0 y0 mass Rs tau s x y) /\
  fades (fun s => fst (tnfw_reduced_deflection_angle dc cd tot z_s z_l x0 y0 mass Rs tau s x y)) /\ fades (fun s => snd (tnfw_reduced_deflection_angle dc cd tot z_s z_l x0 y0 mass Rs tau s x y)) /\
  fades (fun s => tnfw_convergence dc cd tot z_s z_l x0 y0 mass Rs tau s x y).
Proof.
  intros HRs Ht W. assert (P := dist_pos _ _ _ _ Hxy). destruct (class_consistent dc cd tot z_s z_l x0 y0 mass Rs tau HRs Ht Hl Hzs Hls x y Hxy W) as [DP [axx [axy [ayx [ayy [DX [DY _]]]]]]].
  assert (SH := tnfw_shift tot Rs tau). split; [|split; [|split]].
  - eapply fades_ext; [|exact (fades_out x0 y0 x y Hxy _ _ _ DP)]. intros s Hs. symmetry. apply (SH s Hs).
  - eapply fades_ext; [|exact (fades_out x0 y0 x y Hxy _ _ _ DX)]. intros s Hs. destruct (SH s Hs) as [_ [_ E]]. rewrite E. reflexivity.
  - eapply fades_ext; [|exact (fades_out x0 y0 x y Hxy _ _ _ DY)]. intros s Hs. destruct (SH s Hs) as [_ [_ E]]. rewrite E. reflexivity.
  - set (M0 := tnfw_M0 dc cd tot z_l mass Rs tau). set (g := r / Rs). assert (G : 0 < g) by (apply Rdiv_lt_0_compat; lra). destruct (sq_ne g G W) as [N1 N2].
    assert (D0 : is_derive (fun s : R => (r + s) / Rs) 0 (/ Rs)) by (auto_derive; [lra|field; lra]). destruct (sproj_diff tau g Ht G W) as [l Dl].
    apply fades_ext with (fun s => M0 / (2 * PI * (Rs * angular_diameter_distance dc z_l * arcsec_to_rad) ^ 2) / critical_surface_density dc z_l z_s * sproj tau ((r + s) / Rs)).
    + intros s Hs. unfold tnfw_convergence. rewrite kappa_eq. fold M0. unfold distance, Rdiv. ring.
    + apply fades_scal. eapply fades_derive. apply (dv_comp (sproj tau) (fun s => (r + s) / Rs) 0 l (/ Rs)); [cbv beta; rewrite Rplus_0_r; exact Dl|exact D0].
Qed.
End Halos.
