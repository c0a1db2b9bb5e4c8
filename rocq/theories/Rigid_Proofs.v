(** * Proofs for C94 *)
From Coq Require Import Reals Lra Lia Arith ZArith List.
From Coquelicot Require Import Coquelicot.
From Verif Require Import Py RealFun Geo_Model Const_Model Cosmo_Model LensBase_Model LensBasic_Model Epl_Model Multipole_Model Jaffe_Model Nfw_Model Tnfw_Model EncMass_Model Light_Model Rigid_Spec.
Import ListNotations.
Local Open Scope R_scope.

Section M.
Variables t a b : R.
Notation mx x y := (fst (motion t a b x y)).
Notation my x y := (snd (motion t a b x y)).

Lemma tr_none x y x0 y0 : translate_rotate (mx x y) (my x y) (mx x0 y0) (my x0 y0) None = turn t (translate_rotate x y x0 y0 None).
Proof. unfold translate_rotate, motion, turn; cbn [fst snd]. f_equal; ring. Qed.
Lemma tr_some x y x0 y0 p : translate_rotate (mx x y) (my x y) (mx x0 y0) (my x0 y0) (Some (p + t)) = translate_rotate x y x0 y0 (Some p).
Proof.
  unfold translate_rotate, motion, turn; cbn [fst snd]. rewrite cos_plus, sin_plus. assert (T := sin2_cos2 t). unfold Rsqr in T.
  replace (x - x0) with ((sin t * sin t + cos t * cos t) * (x - x0)) at 1 2 by (rewrite T; ring).
  replace (y - y0) with ((sin t * sin t + cos t * cos t) * (y - y0)) at 1 2 by (rewrite T; ring). f_equal; ring.
Qed.
Lemma derot_turn u v p : derotate u v (Some (p + t)) = turn t (derotate u v (Some p)).
Proof. unfold derotate, turn; cbn [fst snd]. rewrite cos_plus, sin_plus. f_equal; ring. Qed.
Lemma derot_back p r phi : derotate (fst (turn t (p, r))) (snd (turn t (p, r))) (Some (- (phi + t))) = derotate p r (Some (- phi)).
Proof.
  unfold derotate, turn; cbn [fst snd]. rewrite !cos_neg, !sin_neg, cos_plus, sin_plus. assert (T := sin2_cos2 t). unfold Rsqr in T. set (c := cos t) in *. set (s := sin t) in *. clearbody c s.
  assert (E : s * s = 1 - c * c) by lra. f_equal; ring [E].
Qed.
Lemma turn_norm v : fst (turn t v) ^ 2 + snd (turn t v) ^ 2 = fst v ^ 2 + snd v ^ 2.
Proof.
  unfold turn; cbn [fst snd]. assert (T := sin2_cos2 t). unfold Rsqr in T.
  replace (fst v ^ 2 + snd v ^ 2) with ((sin t * sin t + cos t * cos t) * (fst v ^ 2 + snd v ^ 2)) by (rewrite T; ring). ring.
Qed.
Lemma turn_zero v : fst (turn t v) = 0 -> snd (turn t v) = 0 -> fst v = 0 /\ snd v = 0.
Proof. intros A B. assert (N := turn_norm v). rewrite A, B in N. assert (P := pow2_ge_0 (fst v)). assert (Q := pow2_ge_0 (snd v)). split; apply Rsqr_0_uniq; unfold Rsqr; simpl in *; lra. Qed.
Lemma turn_scal k v : turn t (k * fst v, k * snd v) = (k * fst (turn t v), k * snd (turn t v)).
Proof. unfold turn; cbn [fst snd]. f_equal; ring. Qed.

(** a circular profile: value from the radius, vector along the radius *)
Lemma circ_vec (k : R -> R) v : (k (fst (turn t v) ^ 2 + snd (turn t v) ^ 2) * fst (turn t v), k (fst (turn t v) ^ 2 + snd (turn t v) ^ 2) * snd (turn t v)) =
  turn t (k (fst v ^ 2 + snd v ^ 2) * fst v, k (fst v ^ 2 + snd v ^ 2) * snd v).
Proof. rewrite turn_scal, turn_norm. reflexivity. Qed.

Ltac start := unfold carried, carried_vector.

Lemma mass_sheet_moves x0 y0 kappa x y :
  carried_vector t a b (reduced_deflection_angle_mass_sheet x0 y0 kappa) (reduced_deflection_angle_mass_sheet (mx x0 y0) (my x0 y0) kappa) x y /\
  carried t a b (potential_mass_sheet x0 y0 kappa) (potential_mass_sheet (mx x0 y0) (my x0 y0) kappa) x y /\
  carried t a b (fun x y => convergence_mass_sheet kappa x) (fun x y => convergence_mass_sheet kappa x) x y.
Proof.
  start. unfold reduced_deflection_angle_mass_sheet, potential_mass_sheet. rewrite tr_none. destruct (translate_rotate x y x0 y0 None) as [u v].
  rewrite (surjective_pairing (turn t (u, v))), turn_norm. cbn [fst snd]. split; [|split; reflexivity]. unfold turn; cbn [fst snd]. f_equal; ring.
Qed.
Lemma shear_moves x0 y0 gamma phi x y :
  let g1 p := gamma_phi_to_gamma1 gamma p in let g2 p := gamma_phi_to_gamma2 gamma p in
  carried_vector t a b (reduced_deflection_angle_external_shear x0 y0 (g1 phi) (g2 phi)) (reduced_deflection_angle_external_shear (mx x0 y0) (my x0 y0) (g1 (phi + t)) (g2 (phi + t))) x y /\
  carried t a b (potential_external_shear x0 y0 (g1 phi) (g2 phi)) (potential_external_shear (mx x0 y0) (my x0 y0) (g1 (phi + t)) (g2 (phi + t))) x y.
Proof.
  start. cbv zeta. unfold reduced_deflection_angle_external_shear, potential_external_shear, gamma_phi_to_gamma1, gamma_phi_to_gamma2. rewrite tr_none. destruct (translate_rotate x y x0 y0 None) as [u v].
  unfold turn; cbn [fst snd]. replace (2 * (phi + t)) with (2 * phi + 2 * t) by ring. rewrite cos_plus, sin_plus, (cos_2a t), (sin_2a t).
  set (C := cos (2 * phi)). set (S := sin (2 * phi)). clearbody C S. assert (T := sin2_cos2 t). unfold Rsqr in T. set (c := cos t) in *. set (s := sin t) in *. clearbody c s.
  split; [f_equal|].
  1-2: match goal with |- _ = ?r => transitivity (r * (s * s + c * c)); [ring|rewrite T; ring] end.
  match goal with |- _ = ?r => transitivity (r * (s * s + c * c) ^ 2); [field|rewrite T; ring] end.
Qed.
Lemma sis_moves x0 y0 Rein s x y :
  carried_vector t a b (reduced_deflection_angle_sis x0 y0 Rein s) (reduced_deflection_angle_sis (mx x0 y0) (my x0 y0) Rein s) x y /\
  carried t a b (potential_sis x0 y0 Rein s) (potential_sis (mx x0 y0) (my x0 y0) Rein s) x y /\
  carried t a b (convergence_sis x0 y0 Rein s) (convergence_sis (mx x0 y0) (my x0 y0) Rein s) x y.
Proof.
  start. unfold reduced_deflection_angle_sis, potential_sis, convergence_sis. rewrite tr_none. destruct (translate_rotate x y x0 y0 None) as [u v].
  rewrite (surjective_pairing (turn t (u, v))), turn_norm. cbn [fst snd]. split; [|split; reflexivity]. unfold turn, Rdiv; cbn [fst snd]. f_equal; ring.
Qed.
Lemma point_moves x0 y0 Rein s x y :
  carried_vector t a b (reduced_deflection_angle_point x0 y0 Rein s) (reduced_deflection_angle_point (mx x0 y0) (my x0 y0) Rein s) x y /\
  carried t a b (potential_point x0 y0 Rein s) (potential_point (mx x0 y0) (my x0 y0) Rein s) x y /\
  carried t a b (convergence_point x0 y0) (convergence_point (mx x0 y0) (my x0 y0)) x y.
Proof.
  start. unfold reduced_deflection_angle_point, potential_point, convergence_point. rewrite tr_none. destruct (translate_rotate x y x0 y0 None) as [u v].
  assert (Z := turn_zero (u, v)). assert (N := turn_norm (u, v)). cbn [fst snd] in Z, N.
  rewrite (surjective_pairing (turn t (u, v))), turn_norm. cbn [fst snd]. split; [|split; [reflexivity|]]; [unfold turn, Rdiv; cbn [fst snd]; f_equal; ring|].
  destruct (Req_EM_T (fst (turn t (u, v))) 0) as [A|A]; [destruct (Req_EM_T (snd (turn t (u, v))) 0) as [B|B]|].
  - destruct (Z A B) as [-> ->]. destruct (Req_EM_T 0 0); [reflexivity|contradiction].
  - destruct (Req_EM_T u 0); [|reflexivity]. destruct (Req_EM_T v 0); [|reflexivity]. subst. exfalso. apply B. unfold turn; cbn [fst snd]; ring.
  - destruct (Req_EM_T u 0); [|reflexivity]. destruct (Req_EM_T v 0); [|reflexivity]. subst. exfalso. apply A. unfold turn; cbn [fst snd]; ring.
Qed.
Lemma sie_moves x0 y0 q phi Rein s x y :
  carried_vector t a b (reduced_deflection_angle_sie x0 y0 q phi Rein s) (reduced_deflection_angle_sie (mx x0 y0) (my x0 y0) q (phi + t) Rein s) x y /\
  carried t a b (potential_sie x0 y0 q phi Rein s) (potential_sie (mx x0 y0) (my x0 y0) q (phi + t) Rein s) x y /\
  carried t a b (convergence_sie x0 y0 q phi Rein s) (convergence_sie (mx x0 y0) (my x0 y0) q (phi + t) Rein s) x y.
Proof.
  start. assert (D : reduced_deflection_angle_sie (mx x0 y0) (my x0 y0) q (phi + t) Rein s (mx x y) (my x y) = turn t (reduced_deflection_angle_sie x0 y0 q phi Rein s x y)).
  { unfold reduced_deflection_angle_sie. rewrite tr_some. destruct (translate_rotate x y x0 y0 (Some phi)) as [u v]. apply derot_turn. }
  split; [exact D|]. unfold potential_sie, convergence_sie. rewrite tr_some, D. split; [|reflexivity].
  destruct (reduced_deflection_angle_sie x0 y0 q phi Rein s x y) as [p r]. rewrite (surjective_pairing (turn t (p, r))).
  replace (derotate (fst (turn t (p, r))) (snd (turn t (p, r))) (Some (- (phi + t)))) with (derotate p r (Some (- phi))); [reflexivity|].
  symmetry. apply derot_back.
Qed.
Lemma epl_moves x0 y0 q phi Rein tt n ck s x y :
  (forall al, reduced_deflection_angle_epl x0 y0 q phi Rein tt n ck x y = Ok al -> reduced_deflection_angle_epl (mx x0 y0) (my x0 y0) q (phi + t) Rein tt n ck (mx x y) (my x y) = Ok (turn t al)) /\
  (forall e, reduced_deflection_angle_epl x0 y0 q phi Rein tt n ck x y = Raise e -> reduced_deflection_angle_epl (mx x0 y0) (my x0 y0) q (phi + t) Rein tt n ck (mx x y) (my x y) = Raise e) /\
  carried t a b (potential_epl x0 y0 q phi Rein tt n ck) (potential_epl (mx x0 y0) (my x0 y0) q (phi + t) Rein tt n ck) x y /\
  carried t a b (convergence_epl x0 y0 q phi Rein tt s) (convergence_epl (mx x0 y0) (my x0 y0) q (phi + t) Rein tt s) x y.
Proof.
  start.
  assert (D : reduced_deflection_angle_epl (mx x0 y0) (my x0 y0) q (phi + t) Rein tt n ck (mx x y) (my x y) = bind (reduced_deflection_angle_epl x0 y0 q phi Rein tt n ck x y) (fun al => Ok (turn t al))).
  { unfold reduced_deflection_angle_epl. rewrite tr_some. destruct (translate_rotate x y x0 y0 (Some phi)) as [u v]. cbv zeta.
    destruct (r_omega (q * u, v) tt q n ck) as [w|e]; [|reflexivity]. cbn [bind]. rewrite derot_turn. reflexivity. }
  split; [intros al E; rewrite D, E; reflexivity|]. split; [intros e E; rewrite D, E; reflexivity|]. split.
  - unfold potential_epl. rewrite D, tr_some. destruct (reduced_deflection_angle_epl x0 y0 q phi Rein tt n ck x y) as [[p r]|e]; [|reflexivity]. cbn [bind]. rewrite derot_back. reflexivity.
  - unfold convergence_epl. rewrite tr_some. reflexivity.
Qed.

Lemma turn_nonzero u v : u <> 0 \/ v <> 0 -> fst (turn t (u, v)) <> 0 \/ snd (turn t (u, v)) <> 0.
Proof.
  intros H. destruct (Req_EM_T (fst (turn t (u, v))) 0) as [A|A]; [|left; exact A]. right. intros B. destruct (turn_zero _ A B) as [U V]. cbn [fst snd] in U, V. tauto.
Qed.
Lemma atan2_turn u v : u <> 0 \/ v <> 0 -> exists k : Z, atan2 (snd (turn t (u, v))) (fst (turn t (u, v))) = atan2 v u + t + 2 * IZR k * PI.
Proof.
  intros H. destruct (atan2_polar u v) as [P Q]. set (th := atan2 v u) in *. set (r := sqrt (u ^ 2 + v ^ 2)) in *. assert (Hr : 0 < r) by (apply norm_pos, H).
  destruct (atan2_mod r (th + t) Hr) as [k E]. exists k. rewrite <- E. unfold turn; cbn [fst snd]. rewrite cos_plus, sin_plus.
  f_equal; [rewrite P, Q at 1; ring|]. rewrite P, Q at 1. ring.
Qed.
Lemma msum_ext f g l : (forall o, f o = g o) -> msum f l = msum g l.
Proof. intros H. induction l as [|o l IH]; [reflexivity|]. cbn [msum fold_right]. unfold msum in IH. rewrite H, IH. reflexivity. Qed.
Lemma msum_map f h l : msum f (map h l) = msum (fun o => f (h o)) l.
Proof. induction l as [|o l IH]; [reflexivity|]. cbn [msum fold_right map]. unfold msum in IH. rewrite IH. reflexivity. Qed.
Lemma msum_comb h f g c d l : (forall o, h o = f o * c + g o * d) -> msum h l = msum f l * c + msum g l * d.
Proof. intros H. induction l as [|o l IH]; cbn [msum fold_right]; [ring|]. unfold msum in IH. rewrite IH, H. ring. Qed.
Lemma msum_comb_m h f g c d l : (forall o, h o = f o * c - g o * d) -> msum h l = msum f l * c - msum g l * d.
Proof. intros H. induction l as [|o l IH]; cbn [msum fold_right]; [ring|]. unfold msum in IH. rewrite IH, H. ring. Qed.

Lemma multipole_moves x0 y0 l x y : x <> x0 \/ y <> y0 ->
  let l' := map (fun '(m, a_m, phi_m) => (m, a_m, phi_m + t)) l in
  carried_vector t a b (reduced_deflection_angle_multipole x0 y0 l) (reduced_deflection_angle_multipole (mx x0 y0) (my x0 y0) l') x y /\
  carried t a b (potential_multipole x0 y0 l) (potential_multipole (mx x0 y0) (my x0 y0) l') x y /\
  carried t a b (convergence_multipole x0 y0 l) (convergence_multipole (mx x0 y0) (my x0 y0) l') x y.
Proof.
  intros H l'. start. unfold reduced_deflection_angle_multipole, potential_multipole, convergence_multipole. rewrite tr_none. unfold translate_rotate.
  set (u := x - x0). set (v := y - y0). assert (H' : u <> 0 \/ v <> 0) by (unfold u, v; destruct H; [left|right]; lra).
  destruct (atan2_turn u v H') as [k E]. rewrite (surjective_pairing (turn t (u, v))), E, turn_norm. cbn [fst snd]. set (th := atan2 v u).
  destruct (cos_sin_period_Z (th + t) k) as [Hc Hs]. rewrite Hc, Hs.
  assert (A : forall m p, cos (IZR m * (th + t + 2 * IZR k * PI - (p + t))) = cos (IZR m * (th - p)) /\ sin (IZR m * (th + t + 2 * IZR k * PI - (p + t))) = sin (IZR m * (th - p))).
  { intros m p. replace (IZR m * (th + t + 2 * IZR k * PI - (p + t))) with (IZR m * (th - p) + 2 * IZR (m * k) * PI) by (rewrite mult_IZR; ring). apply cos_sin_period_Z. }
  unfold l'. rewrite !msum_map. split; [|split].
  - unfold turn at 1; cbn [fst snd]. f_equal.
    + apply msum_comb_m. intros [[m am] pm]. cbn [fst snd]. destruct (A m pm) as [-> ->]. rewrite cos_plus, sin_plus. unfold Rdiv. ring.
    + apply msum_comb. intros [[m am] pm]. cbn [fst snd]. destruct (A m pm) as [-> ->]. rewrite cos_plus, sin_plus. unfold Rdiv. ring.
  - apply msum_ext. intros [[m am] pm]. destruct (A m pm) as [-> _]. reflexivity.
  - apply msum_ext. intros [[m am] pm]. destruct (A m pm) as [-> _]. reflexivity.
Qed.

Lemma jaffe_moves dc z_s z_l x0 y0 mass Rc Rs x y :
  carried_vector t a b (jaffe_reduced_deflection_angle dc z_s z_l x0 y0 mass Rc Rs) (jaffe_reduced_deflection_angle dc z_s z_l (mx x0 y0) (my x0 y0) mass Rc Rs) x y /\
  carried t a b (jaffe_potential dc z_s z_l x0 y0 mass Rc Rs) (jaffe_potential dc z_s z_l (mx x0 y0) (my x0 y0) mass Rc Rs) x y /\
  carried t a b (jaffe_convergence dc z_s z_l x0 y0 mass Rc Rs) (jaffe_convergence dc z_s z_l (mx x0 y0) (my x0 y0) mass Rc Rs) x y.
Proof.
  start. unfold jaffe_reduced_deflection_angle, jaffe_potential, jaffe_convergence, reduced_deflection_angle_pseudo_jaffe, potential_pseudo_jaffe, convergence_pseudo_jaffe.
  rewrite tr_none. destruct (translate_rotate x y x0 y0 None) as [u v]. rewrite (surjective_pairing (turn t (u, v))), turn_norm. cbn [fst snd].
  split; [|split; reflexivity]. cbv zeta. match goal with |- (?k * _ / ?r, _) = _ => set (K := k); set (W := r) end. unfold turn, Rdiv; cbn [fst snd]. f_equal; ring.
Qed.
Lemma nfw_moves dc cd z_s z_l x0 y0 mass c s x y :
  carried_vector t a b (nfw_physical_deflection_angle dc cd z_l x0 y0 mass c s) (nfw_physical_deflection_angle dc cd z_l (mx x0 y0) (my x0 y0) mass c s) x y /\
  carried_vector t a b (nfw_reduced_deflection_angle dc cd z_s z_l x0 y0 mass c s) (nfw_reduced_deflection_angle dc cd z_s z_l (mx x0 y0) (my x0 y0) mass c s) x y /\
  carried t a b (nfw_potential dc cd z_s z_l x0 y0 mass c s) (nfw_potential dc cd z_s z_l (mx x0 y0) (my x0 y0) mass c s) x y /\
  carried t a b (nfw_convergence dc cd z_s z_l x0 y0 mass c s) (nfw_convergence dc cd z_s z_l (mx x0 y0) (my x0 y0) mass c s) x y.
Proof.
  start. assert (P : nfw_physical_deflection_angle dc cd z_l (mx x0 y0) (my x0 y0) mass c s (mx x y) (my x y) = turn t (nfw_physical_deflection_angle dc cd z_l x0 y0 mass c s x y)).
  { unfold nfw_physical_deflection_angle, physical_deflection_angle_nfw. rewrite tr_none. destruct (translate_rotate x y x0 y0 None) as [u v]. rewrite (surjective_pairing (turn t (u, v))), turn_norm. cbn [fst snd].
    cbv zeta. match goal with |- (?k * _ / ?r, _) = _ => set (K := k); set (W := r) end. unfold turn, Rdiv; cbn [fst snd]. f_equal; ring. }
  split; [exact P|]. split.
  - unfold nfw_reduced_deflection_angle. rewrite P. destruct (nfw_physical_deflection_angle dc cd z_l x0 y0 mass c s x y) as [p r]. cbv zeta. unfold reduced_from_physical_deflection_angle, turn; cbn [fst snd]. f_equal; ring.
  - unfold nfw_potential, nfw_convergence, potential_nfw, convergence_nfw. rewrite tr_none. destruct (translate_rotate x y x0 y0 None) as [u v]. rewrite (surjective_pairing (turn t (u, v))), turn_norm. cbn [fst snd]. split; reflexivity.
Qed.
Lemma tnfw_moves dc cd tot z_s z_l x0 y0 mass Rs tau s x y : x <> x0 \/ y <> y0 ->
  carried_vector t a b (tnfw_physical_deflection_angle dc cd tot z_l x0 y0 mass Rs tau s) (tnfw_physical_deflection_angle dc cd tot z_l (mx x0 y0) (my x0 y0) mass Rs tau s) x y /\
  carried_vector t a b (tnfw_reduced_deflection_angle dc cd tot z_s z_l x0 y0 mass Rs tau s) (tnfw_reduced_deflection_angle dc cd tot z_s z_l (mx x0 y0) (my x0 y0) mass Rs tau s) x y /\
  carried t a b (tnfw_potential dc cd tot z_s z_l x0 y0 mass Rs tau s) (tnfw_potential dc cd tot z_s z_l (mx x0 y0) (my x0 y0) mass Rs tau s) x y /\
  carried t a b (tnfw_convergence dc cd tot z_s z_l x0 y0 mass Rs tau s) (tnfw_convergence dc cd tot z_s z_l (mx x0 y0) (my x0 y0) mass Rs tau s) x y.
Proof.
  intros H. start.
  assert (P : tnfw_physical_deflection_angle dc cd tot z_l (mx x0 y0) (my x0 y0) mass Rs tau s (mx x y) (my x y) = turn t (tnfw_physical_deflection_angle dc cd tot z_l x0 y0 mass Rs tau s x y)).
  { unfold tnfw_physical_deflection_angle, physical_deflection_angle_tnfw. rewrite tr_none. unfold translate_rotate. set (u := x - x0). set (v := y - y0).
    assert (H' : u <> 0 \/ v <> 0) by (unfold u, v; destruct H; [left|right]; lra). destruct (atan2_turn u v H') as [k E].
    rewrite (surjective_pairing (turn t (u, v))), E, turn_norm. cbn [fst snd]. destruct (cos_sin_period_Z (atan2 v u + t) k) as [-> ->]. rewrite cos_plus, sin_plus.
    unfold turn at 1; cbn [fst snd]. f_equal; ring. }
  split; [exact P|]. split.
  - unfold tnfw_reduced_deflection_angle. rewrite P. destruct (tnfw_physical_deflection_angle dc cd tot z_l x0 y0 mass Rs tau s x y) as [p r]. cbv zeta. unfold reduced_from_physical_deflection_angle, turn; cbn [fst snd]. f_equal; ring.
  - unfold tnfw_potential, tnfw_convergence, potential_tnfw, convergence_tnfw. rewrite tr_none. destruct (translate_rotate x y x0 y0 None) as [u v]. rewrite (surjective_pairing (turn t (u, v))), turn_norm. cbn [fst snd]. split; reflexivity.
Qed.
Lemma enclosed_moves dc z_s z_l x0 y0 q phi M s x y :
  carried_vector t a b (enclosed_mass_reduced_deflection_angle dc z_s z_l x0 y0 q phi M s) (enclosed_mass_reduced_deflection_angle dc z_s z_l (mx x0 y0) (my x0 y0) q (phi + t) M s) x y /\
  carried t a b (enclosed_mass_convergence dc z_s z_l x0 y0 q phi M s) (enclosed_mass_convergence dc z_s z_l (mx x0 y0) (my x0 y0) q (phi + t) M s) x y.
Proof.
  start. unfold enclosed_mass_reduced_deflection_angle, enclosed_mass_convergence, physical_deflection_angle_enclosed_mass, convergence_enclosed_mass. rewrite tr_some.
  destruct (translate_rotate x y x0 y0 (Some phi)) as [u v]. split; [|reflexivity]. rewrite derot_turn. destruct (derotate _ _ (Some phi)) as [p r]. unfold reduced_from_physical_deflection_angle, turn; cbn [fst snd]. f_equal; ring.
Qed.
Lemma sersic_moves lk s x0 y0 q phi n Re Ie x y : carried t a b (sersic_brightness lk s x0 y0 q phi n Re Ie) (sersic_brightness lk s (mx x0 y0) (my x0 y0) q (phi + t) n Re Ie) x y.
Proof. start. unfold sersic_brightness, brightness_sersic. rewrite tr_some. reflexivity. Qed.
Lemma star_moves x0 y0 theta_s Ie gamma x y : carried t a b (fun x y => brightness_star x0 y0 theta_s Ie x y gamma) (fun x y => brightness_star (mx x0 y0) (my x0 y0) theta_s Ie x y gamma) x y.
Proof.
  start. unfold brightness_star. rewrite tr_none. destruct (translate_rotate x y x0 y0 None) as [u v]. rewrite (surjective_pairing (turn t (u, v))), turn_norm. reflexivity.
Qed.
End M.
