(** * The centre of a softened lens *)
From Coq Require Import Reals Lra.
From Coquelicot Require Import Coquelicot.
From Verif Require Import RealFun Derive1 Geo_Model Const_Model LensBasic_Model Jaffe_Model Nfw_Model Nfw_Proofs Nfw2_Proofs Tnfw_Model Tnfw_Proofs Tnfw2_Proofs Tnfw3_Proofs
  Ad_Model Ad_Spec Ad_Proofs AdLens_Model AdLens_Spec AdLens_Proofs AdLens2_Proofs.
Local Open Scope R_scope.
Local Notation "a @ n" := (a n%nat) (at level 9, only parsing).
Local Notation V n := (Var n%nat).

Section Bad.
Variable a : nat -> R.
Variable seed : nat -> option R.
Definition bad (e : expr) : Prop := snd (jvp a seed e) = Some NaN.
Lemma nan_r f x : lift2 f x NaN = NaN.
Proof. destruct x; reflexivity. Qed.
Lemma bad_add_l p q : bad p -> bad (Add p q).
Proof. unfold bad; intros H. cbn [jvp snd]. rewrite H. destruct (snd (jvp a seed q)); reflexivity. Qed.
Lemma bad_mul_l p q : bad p -> bad (Mul p q).
Proof. unfold bad; intros H. cbn [jvp snd]. rewrite H. destruct (snd (jvp a seed q)); reflexivity. Qed.
Lemma bad_mul_r p q : bad q -> bad (Mul p q).
Proof. unfold bad; intros H. cbn [jvp snd]. rewrite H. destruct (snd (jvp a seed p)); cbn [tan2]; unfold nmul, nadd; rewrite !nan_r; reflexivity. Qed.
Lemma bad_div_r p q : bad q -> bad (Div p q).
Proof.
  unfold bad; intros H. cbn [jvp snd]. rewrite H. destruct (snd (jvp a seed p)); cbn [tan2]; [|reflexivity].
  change (nneg (nmul NaN (ndiv (fst (jvp a seed p)) (fst (jvp a seed q))))) with NaN. unfold nadd; rewrite nan_r; reflexivity.
Qed.
Lemma bad_pow p n : bad p -> bad (Pow p (S n)).
Proof. unfold bad; intros H. cbn [jvp snd]. rewrite H. reflexivity. Qed.
(** the square root of zero has no tangent, not even when its argument has the tangent zero *)
Lemma bad_sqrt p : fst (jvp a seed p) = Fin 0 -> snd (jvp a seed p) = Some (Fin 0) -> bad (Sqrt p).
Proof.
  intros HV HT. unfold bad. cbn [jvp snd]. rewrite HV, HT. cbn [tan1]. rewrite nsqrt_fin by lra. rewrite sqrt_0. unfold nmul, ndiv, lift2.
  destruct (Req_EM_T (2 * 0) 0); [|lra]. destruct (Req_EM_T 0 0); [reflexivity|lra].
Qed.
End Bad.

Lemma value_seed_gen : forall e a s1 s2, fst (jvp a s1 e) = fst (jvp a s2 e).
Proof.
  fix IH 1. intros [n|r|p q|p q|p q|p q|p|p|p|p|p|p|p|p|p|p|p q|p n|p q|b p|b p|c p q|p|f p q] a s1 s2; cbn [jvp fst snd]; try reflexivity.
  all: try (rewrite (IH p a s1 s2), (IH q a s1 s2); reflexivity).
  all: try (rewrite (IH p a s1 s2); reflexivity).
  - unfold clamped. rewrite (IH p a s1 s2). destruct (fst (jvp a s2 p)) as [r| |] eqn:E; [|reflexivity..]. destruct (Rle_dec b r); [rewrite (IH p a s1 s2); reflexivity|reflexivity].
  - unfold clamped. rewrite (IH p a s1 s2). destruct (fst (jvp a s2 p)) as [r| |] eqn:E; [|reflexivity..]. destruct (Rle_dec r b); [rewrite (IH p a s1 s2); reflexivity|reflexivity].
  - assert (T : test a s1 c = test a s2 c) by (destruct c as [u v|u v]; cbn [test]; rewrite (IH u a s1 s2), (IH v a s1 s2); reflexivity).
    rewrite T. unfold select. destruct (test a s2 c) as [[|]|]; cbn [fst]; [apply IH|apply IH|reflexivity].
  - rewrite (IH p a s1 s2), (IH q a s1 s2). destruct (fst (jvp a s2 p)), (fst (jvp a s2 q)); try reflexivity. apply IH.
Qed.

Section Centre.
Variable a : nat -> R.
Hypothesis C0 : a@0 = a@2.
Hypothesis C1 : a@1 = a@3.
Let r2 := Add (Pow (Sub (V 0) (V 2)) 2) (Pow (Sub (V 1) (V 3)) 2).
Lemma r2_at k : k = 0%nat \/ k = 1%nat -> fst (jvp a (unit_seed k) r2) = Fin 0 /\ snd (jvp a (unit_seed k) r2) = Some (Fin 0).
Proof.
  intros [-> | ->]; (split; [cbn [r2 jvp fst snd]; unfold nsub, nadd, npow, lift1, lift2; apply Fin_eq; rewrite C0, C1; ring|]);
    cbn [r2 jvp fst snd unit_seed Nat.eqb tan1 tan2]; unfold nsub, nadd, nmul, npow, lift1, lift2; f_equal; apply Fin_eq; rewrite ?C0, ?C1; ring.
Qed.
Lemma radius_bad s k : k = 0%nat \/ k = 1%nat -> bad a (unit_seed k) (Add (Sqrt r2) s).
Proof. intros H. apply bad_add_l, bad_sqrt; apply r2_at, H. Qed.
Lemma all_bad t : (forall k, k = 0%nat \/ k = 1%nat -> bad a (unit_seed k) (fst t) /\ bad a (unit_seed k) (snd t)) -> all_nan (ad_jacfwd t a).
Proof.
  intros H. destruct (H 0%nat (or_introl eq_refl)) as [A B], (H 1%nat (or_intror eq_refl)) as [C D]. unfold all_nan, ad_jacfwd. cbv zeta. unfold bad in *. rewrite A, B, C, D. reflexivity.
Qed.
Lemma sis_nan : all_nan (ad_jacfwd (t_deflection_sis (V 2) (V 3) (V 4) (V 5) (V 0) (V 1)) a).
Proof. apply all_bad. intros k Hk. pose proof (radius_bad (V 5) k Hk) as B. split; apply bad_div_r, B. Qed.
Lemma point_nan : all_nan (ad_jacfwd (t_deflection_point (V 2) (V 3) (V 4) (V 5) (V 0) (V 1)) a).
Proof.
  apply all_bad. intros k Hk. pose proof (radius_bad (V 5) k Hk) as B. split; apply bad_div_r.
  all: apply bad_pow, B.
Qed.
Lemma jaffe_nan : all_nan (ad_jacfwd (t_deflection_pseudo_jaffe (V 2) (V 3) (V 4) (V 5) (V 6) (V 0) (V 1) (V 7) (V 8) (V 9)) a).
Proof. apply all_bad. intros k Hk. pose proof (radius_bad (V 9) k Hk) as B. split; apply bad_div_r, B. Qed.
Lemma nfw_nan : all_nan (ad_jacfwd (t_deflection_nfw (V 2) (V 3) (V 4) (V 5) (V 6) (V 7) (V 0) (V 1) (V 8) (V 9)) a).
Proof. apply all_bad. intros k Hk. pose proof (radius_bad (V 9) k Hk) as B. split; apply bad_div_r, B. Qed.
Lemma tnfw_nan : all_nan (ad_jacfwd (t_deflection_tnfw (V 2) (V 3) (V 4) (V 5) (V 0) (V 1) (V 6) (V 7) (V 8)) a).
Proof.
  apply all_bad. intros k Hk. pose proof (radius_bad (V 8) k Hk) as B. split; apply bad_mul_l, bad_mul_r, bad_div_r, bad_mul_l, bad_mul_l, B.
Qed.
(** PseudoJaffe does not pass its softening on: the deflection itself is 0/0 *)
Lemma jaffe_value_nan seed : 0 < a@5 -> 0 < a@6 -> a@5 <> a@6 -> 0 < a@7 -> 0 < a@8 ->
  fst (jvp a seed (fst (t_deflection_pseudo_jaffe (V 2) (V 3) (V 4) (V 5) (V 6) (V 0) (V 1) (V 7) (V 8) (Cst 0)))) = NaN /\
  fst (jvp a seed (snd (t_deflection_pseudo_jaffe (V 2) (V 3) (V 4) (V 5) (V 6) (V 0) (V 1) (V 7) (V 8) (Cst 0)))) = NaN.
Proof.
  intros P5 P6 N P7 P8. pose (none := fun _ : nat => @None R). rewrite !(fun e => value_seed_gen e a seed none).
  assert (O := fun n => ok_var a none n).
  assert (OR2 : ok a none r2) by (unfold r2; oks).
  assert (E2 : ev a r2 = 0) by (cbn [r2 ev]; rewrite C0, C1; ring).
  assert (OS : ok a none (Sqrt r2)) by (apply ok_sqrt; [exact OR2|left; split; [reflexivity|lra]]).
  assert (OR : ok a none (Add (Sqrt r2) (Cst 0))) by oks.
  assert (ER : ev a (Add (Sqrt r2) (Cst 0)) = 0) by (cbn [ev]; rewrite E2, sqrt_0; ring).
  pose proof (jaffe_k_ok a none (V 4) (V 5) (V 6) (V 7) (V 8) (O _) (O _) (O _) (O _) (O _) P5 P6 (Rgt_not_eq _ _ P7) (Rgt_not_eq _ _ P8)) as OK.
  unfold t_deflection_pseudo_jaffe. cbn [t_translate_rotate]. fold r2. set (r := Add (Sqrt r2) (Cst 0)) in *. clearbody r. cbn [fst snd].
  match goal with |- context [Div (Mul ?al (Sub (V 0) (V 2))) r] => assert (OA : ok a none al); [|set (alpha := al) in *] end.
  { assert (S1 : 0 < sqrt (1 + (0 / a@5) ^ 2)) by (apply sqrt_lt_R0; pose proof (sq_ge0 (0 / a@5)); lra).
    assert (S2 : 0 < sqrt (1 + (0 / a@6) ^ 2)) by (apply sqrt_lt_R0; pose proof (sq_ge0 (0 / a@6)); lra).
    pose proof (sq_ge0 (0 / a@5)); pose proof (sq_ge0 (0 / a@6)).
    oks; rewrite ?ER; try lra. apply Rmult_integral_contrapositive_currified; lra. }
  clearbody alpha.
  assert (Z : forall u v, a u = a v -> fst (jvp a none (Div (Mul alpha (Sub (Var u) (Var v))) r)) = NaN).
  { intros u v E. cbn [jvp fst snd]. rewrite (ok_value _ _ _ OA), (ok_value _ _ _ OR), ER, E. unfold nsub, nmul, ndiv, lift2.
    destruct (Req_EM_T 0 0); [|lra]. destruct (Req_EM_T (ev a alpha * (a v - a v)) 0) as [K|K]; [reflexivity|destruct K; ring]. }
  split; apply Z; assumption.
Qed.
End Centre.

Lemma kx_derive (k : R -> R) : continuity_pt k 0 -> is_derive (fun h => k h * h) 0 (k 0).
Proof.
  intros C. apply is_derive_Reals. intros eps He. destruct (C eps He) as (d & Hd & K). exists (mkposreal d Hd). intros h Hh Hd'. cbn in Hd'.
  replace ((k (0 + h) * (0 + h) - k 0 * 0) / h - k 0) with (k h - k 0) by (rewrite Rplus_0_l; field; exact Hh).
  apply (K h). split; [split; [exact Logic.I|auto]|]. cbn. unfold R_dist. rewrite Rminus_0_r. exact Hd'.
Qed.

Lemma radial_isotropic (k : R -> R) (F : R -> R -> R * R) x0 y0 : continuity_pt k 0 ->
  (forall x y, F x y = (k (sqrt ((x - x0) ^ 2 + (y - y0) ^ 2)) * (x - x0), k (sqrt ((x - x0) ^ 2 + (y - y0) ^ 2)) * (y - y0))) ->
  isotropic_at F x0 y0 (k 0).
Proof.
  intros C E.
  assert (Rx : forall h, sqrt (h ^ 2 + 0 ^ 2) = Rabs h) by (intros h; replace (h ^ 2 + 0 ^ 2) with (Rsqr h) by (unfold Rsqr; ring); apply sqrt_Rsqr_abs).
  assert (Ry : forall h, sqrt (0 ^ 2 + h ^ 2) = Rabs h) by (intros h; replace (0 ^ 2 + h ^ 2) with (Rsqr h) by (unfold Rsqr; ring); apply sqrt_Rsqr_abs).
  assert (CA : continuity_pt (fun h => k (Rabs h)) 0).
  { apply (continuity_pt_comp Rabs k); [apply Rcontinuity_abs|rewrite Rabs_R0; exact C]. }
  pose proof (kx_derive _ CA) as D. cbv beta in D. rewrite Rabs_R0 in D.
  assert (X1 : forall u h : R, u + h - u = h) by (intros; ring). assert (X2 : forall u : R, u - u = 0) by (intros; ring).
  unfold isotropic_at. split; [|split; [|split]]; apply shift_derive.
  - apply (is_derive_ext (fun h => k (Rabs h) * h)); [intros h; rewrite E; cbn [fst]; rewrite X1, X2, Rx; reflexivity|exact D].
  - apply (is_derive_ext (fun _ => 0)); [intros h; rewrite E; cbn [fst]; rewrite X2, Rmult_0_r; reflexivity|apply dv_const].
  - apply (is_derive_ext (fun _ => 0)); [intros h; rewrite E; cbn [snd]; rewrite X2, Rmult_0_r; reflexivity|apply dv_const].
  - apply (is_derive_ext (fun h => k (Rabs h) * h)); [intros h; rewrite E; cbn [snd]; rewrite X1, X2, Ry; reflexivity|exact D].
Qed.
Lemma sis_centre x0 y0 Rein s : 0 < s -> isotropic_at (reduced_deflection_angle_sis x0 y0 Rein s) x0 y0 (Rein / s).
Proof.
  intros H. replace (Rein / s) with ((fun r => Rein / (r + s)) 0) by (cbv beta; rewrite Rplus_0_l; reflexivity).
  apply (radial_isotropic (fun r => Rein / (r + s))).
  - reg. lra.
  - intros x y. unfold reduced_deflection_angle_sis. cbn [translate_rotate]. apply pair_equal_spec. unfold Rdiv. split; ring.
Qed.
Lemma point_centre x0 y0 Rein s : 0 < s -> isotropic_at (reduced_deflection_angle_point x0 y0 Rein s) x0 y0 (Rein ^ 2 / s ^ 2).
Proof.
  intros H. replace (Rein ^ 2 / s ^ 2) with ((fun r => Rein ^ 2 / (r + s) ^ 2) 0) by (cbv beta; rewrite Rplus_0_l; reflexivity).
  apply (radial_isotropic (fun r => Rein ^ 2 / (r + s) ^ 2)).
  - reg. apply pow_nonzero. lra.
  - intros x y. unfold reduced_deflection_angle_point. cbn [translate_rotate]. apply pair_equal_spec. unfold Rdiv. split; ring.
Qed.
Lemma nfw_centre x0 y0 mass c rho d_l DELTA s : 0 < c -> 0 < d_l -> 0 < s ->
  eps_nfw < Rabs (d_l * s * arcsec_to_rad / scale_radius_nfw rho mass c DELTA - 1) ->
  let rs := scale_radius_nfw rho mass c DELTA in let xi := d_l * s * arcsec_to_rad in
  isotropic_at (fun x y => physical_deflection_angle_nfw x0 y0 mass c rho d_l x y DELTA s) x0 y0
    (16 * PI * G_over_c2 * scale_density_nfw rho c DELTA * rs ^ 3 * h_nfw (xi / rs) * rad_to_arcsec / xi / s).
Proof.
  intros Hc Hd Hs HE rs0 xi0.
  pose (k := fun r : R => let rs := scale_radius_nfw rho mass c DELTA in let xi := d_l * (r + s) * arcsec_to_rad in
    16 * PI * G_over_c2 * scale_density_nfw rho c DELTA * rs ^ 3 * h_nfw (xi / rs) * rad_to_arcsec / xi / (r + s)).
  assert (K0 : 16 * PI * G_over_c2 * scale_density_nfw rho c DELTA * rs0 ^ 3 * h_nfw (xi0 / rs0) * rad_to_arcsec / xi0 / s = k 0)
    by (unfold k; cbv zeta; rewrite Rplus_0_l; reflexivity).
  rewrite K0. clear K0 rs0 xi0. apply radial_isotropic.
  - pose proof arcsec_to_rad_pos as PA. assert (PR : 0 < scale_radius_nfw rho mass c DELTA) by (unfold scale_radius_nfw; cbv zeta; apply Rdiv_lt_0_compat; [apply exp_pos|exact Hc]).
    set (rs := scale_radius_nfw rho mass c DELTA) in *. set (xi := fun r : R => d_l * (r + s) * arcsec_to_rad).
    assert (X0 : 0 < xi 0) by (unfold xi; rewrite Rplus_0_l; apply Rmult_lt_0_compat; [apply Rmult_lt_0_compat; lra|exact PA]).
    assert (CX : continuity_pt xi 0) by (unfold xi; reg).
    assert (CH : continuity_pt (fun r => h_nfw (xi r / rs)) 0).
    { apply (continuity_pt_comp (fun r => xi r / rs) h_nfw).
      - apply (continuity_pt_div xi (fun _ => rs)); [exact CX|reg|lra].
      - apply continuity_pt_filterlim, (ex_derive_continuous (V := R_NormedModule)). eexists. apply h_derive; [apply Rdiv_lt_0_compat; assumption|].
        unfold xi; rewrite Rplus_0_l. exact HE. }
    change (continuity_pt (fun r => 16 * PI * G_over_c2 * scale_density_nfw rho c DELTA * rs ^ 3 * h_nfw (xi r / rs) * rad_to_arcsec / xi r / (r + s)) 0).
    apply continuity_pt_div; [|reg|lra]. apply continuity_pt_div; [|exact CX|lra].
    apply continuity_pt_mult; [|reg]. apply continuity_pt_mult; [reg|exact CH].
  - intros x y. unfold physical_deflection_angle_nfw, k. cbn [translate_rotate]. cbv zeta. apply pair_equal_spec. unfold Rdiv. split; ring.
Qed.
(** the softened truncated NFW lens deflects the ray through its own centre *)
Lemma tnfw_centre x0 y0 Rs tau M0 d_l s :
  physical_deflection_angle_tnfw x0 y0 Rs tau x0 y0 M0 d_l s =
  (4 * G_over_c2 * rad_to_arcsec * (mass_enclosed_2d_tnfw s Rs tau M0 / (s * d_l * arcsec_to_rad)), 0).
Proof.
  unfold physical_deflection_angle_tnfw. cbn [translate_rotate]. cbv zeta.
  replace (atan2 (y0 - y0) (x0 - x0)) with 0.
  - rewrite cos_0, sin_0. replace ((x0 - x0) ^ 2 + (y0 - y0) ^ 2) with 0 by ring. rewrite sqrt_0, Rplus_0_l. apply pair_equal_spec. split; ring.
  - unfold atan2. replace (x0 - x0) with 0 by ring. replace (y0 - y0) with 0 by ring. destruct (Rlt_dec 0 0); [lra|reflexivity].
Qed.
Lemma tnfw_centre_nonzero x0 y0 Rs tau mass d_l : 0 < Rs -> 0 < tau -> 0 < mass -> 0 < d_l ->
  exists s, 0 < s /\ 0 < fst (physical_deflection_angle_tnfw x0 y0 Rs tau x0 y0 (M0_totmass_tnfw mass tau) d_l s).
Proof.
  intros HR Ht Hm Hd. assert (L := total_mass Rs tau mass HR Ht). apply is_lim_spec in L. destruct (L (mkposreal mass Hm)) as [M HM]. cbn in HM.
  set (s := Rmax M 0 + 1). pose proof (Rmax_l M 0). pose proof (Rmax_r M 0). exists s. split; [unfold s; lra|]. rewrite tnfw_centre. cbn [fst].
  assert (MP : 0 < mass_enclosed_2d_tnfw s Rs tau (M0_totmass_tnfw mass tau)) by (specialize (HM s ltac:(unfold s; lra)); apply Rabs_def2 in HM; lra).
  pose proof arcsec_to_rad_pos. pose proof G_over_c2_pos. pose proof rad_to_arcsec_pos. assert (0 < s) by (unfold s; lra).
  apply Rmult_lt_0_compat; [apply Rmult_lt_0_compat; [lra|assumption]|]. apply Rdiv_lt_0_compat; [exact MP|]. apply Rmult_lt_0_compat; [apply Rmult_lt_0_compat; lra|assumption].
Qed.

(** ** Values at the centre *)
Lemma still_none a e : snd (jvp a (fun _ => None) e) = None.
Proof.
  revert e. fix IH 1. intros [n|r|p q|p q|p q|p q|p|p|p|p|p|p|p|p|p|p|p q|p n|p q|b p|b p|c p q|p|f p q]; cbn [jvp fst snd]; try reflexivity.
  all: try (rewrite (IH p), (IH q); reflexivity).
  all: try (rewrite (IH p); reflexivity).
  - unfold clamped. destruct (fst (jvp a (fun _ => None) p)) as [r| |]; [destruct (Rle_dec b r); [apply IH|]|..]; cbn [snd]; rewrite (IH p); reflexivity.
  - unfold clamped. destruct (fst (jvp a (fun _ => None) p)) as [r| |]; [destruct (Rle_dec r b); [apply IH|]|..]; cbn [snd]; rewrite (IH p); reflexivity.
  - unfold select. rewrite (IH p), (IH q). destruct (test _ _ _) as [[|]|]; reflexivity.
  - destruct (fst (jvp a (fun _ => None) p)), (fst (jvp a (fun _ => None) q)); cbn [snd]; rewrite ?IH; try reflexivity; apply IH.
Qed.
Section Values.
Variable a : nat -> R.
Variable seed : nat -> option R.
Hypothesis C0 : a@0 = a@2.
Hypothesis C1 : a@1 = a@3.
Hypothesis Hs : 0 < a@5.
Let none := fun _ : nat => @None R.
Let r := Add (Sqrt (Add (Pow (Sub (V 0) (V 2)) 2) (Pow (Sub (V 1) (V 3)) 2))) (V 5).
Lemma r_none : ok a none r /\ ev a r = a@5.
Proof.
  assert (E : ev a (Add (Pow (Sub (V 0) (V 2)) 2) (Pow (Sub (V 1) (V 3)) 2)) = 0) by (cbn [ev]; rewrite C0, C1; ring).
  split.
  - apply ok_add; [|apply ok_var]. apply ok_sqrt; [oks|]. left. split; [apply still_none|rewrite E; lra].
  - change (ev a r) with (sqrt (ev a (Add (Pow (Sub (V 0) (V 2)) 2) (Pow (Sub (V 1) (V 3)) 2))) + a@5). rewrite E, sqrt_0. ring.
Qed.
Lemma sis_values : fst (jvp a seed (fst (t_deflection_sis (V 2) (V 3) (V 4) (V 5) (V 0) (V 1)))) = Fin 0 /\
  fst (jvp a seed (snd (t_deflection_sis (V 2) (V 3) (V 4) (V 5) (V 0) (V 1)))) = Fin 0.
Proof.
  destruct r_none as [O E]. rewrite !(fun e => value_seed_gen e a seed none). unfold t_deflection_sis. cbn [t_translate_rotate fst snd]. fold r. clearbody r.
  split; (rewrite ok_value; [cbn [ev]; rewrite ?C0, ?C1; apply Fin_eq; unfold Rdiv; ring|oks; rewrite E; lra]).
Qed.
Lemma point_values : fst (jvp a seed (fst (t_deflection_point (V 2) (V 3) (V 4) (V 5) (V 0) (V 1)))) = Fin 0 /\
  fst (jvp a seed (snd (t_deflection_point (V 2) (V 3) (V 4) (V 5) (V 0) (V 1)))) = Fin 0.
Proof.
  destruct r_none as [O E]. rewrite !(fun e => value_seed_gen e a seed none). unfold t_deflection_point. cbn [t_translate_rotate fst snd]. fold r. clearbody r.
  split; (rewrite ok_value; [cbn [ev]; rewrite ?C0, ?C1; apply Fin_eq; unfold Rdiv; ring|oks; rewrite E; apply pow_nonzero; lra]).
Qed.
End Values.
(** a concrete softened lens *)
Lemma softened_nan_witness : exists a : nat -> R, 0 < a@5 /\ a@0 = a@2 /\ a@1 = a@3 /\
  isotropic_at (reduced_deflection_angle_sis a@2 a@3 a@4 a@5) a@2 a@3 10 /\
  isotropic_at (reduced_deflection_angle_point a@2 a@3 a@4 a@5) a@2 a@3 100 /\
  all_nan (ad_jacfwd (t_deflection_sis (V 2) (V 3) (V 4) (V 5) (V 0) (V 1)) a) /\
  all_nan (ad_jacfwd (t_deflection_point (V 2) (V 3) (V 4) (V 5) (V 0) (V 1)) a).
Proof.
  exists (fun n => match n with 4%nat => 1 | 5%nat => / 10 | _ => 0 end).
  assert (S : 0 < / 10) by lra. pose proof (sis_centre 0 0 1 (/ 10) S) as A. pose proof (point_centre 0 0 1 (/ 10) S) as B.
  replace (1 / / 10) with 10 in A by field. replace (1 ^ 2 / (/ 10) ^ 2) with 100 in B by field.
  refine (conj S (conj eq_refl (conj eq_refl (conj A (conj B (conj _ _)))))); [apply sis_nan|apply point_nan]; reflexivity.
Qed.
