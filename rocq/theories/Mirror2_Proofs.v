(** * Proofs for C106: multipoles, halos, sources, and the symmetries *)
From Coq Require Import Reals Lra Lia Arith ZArith List.
From Coquelicot Require Import Coquelicot.
From Verif Require Import Py RealFun Geo_Model Const_Model Cosmo_Model LensBase_Model LensBasic_Model Epl_Model Multipole_Model Jaffe_Model Nfw_Model Tnfw_Model EncMass_Model Light_Model Rigid_Spec Rigid_Proofs Mirror_Spec Mirror_Proofs.
Import ListNotations.
Local Open Scope R_scope.

Lemma atan2_flip u v : u <> 0 \/ v <> 0 -> exists k : Z, atan2 (- v) u = - atan2 v u + 2 * IZR k * PI.
Proof.
  intros H. destruct (atan2_polar u v) as [P Q]. set (th := atan2 v u) in *. set (r := sqrt (u ^ 2 + v ^ 2)) in *. assert (Hr : 0 < r) by (apply norm_pos, H).
  destruct (atan2_mod r (- th) Hr) as [k E]. exists k. rewrite <- E. rewrite cos_neg, sin_neg. f_equal; [rewrite Q at 1; ring|]. rewrite P at 1. ring.
Qed.
Lemma msum_opp f g l : (forall o, f o = - g o) -> msum f l = - msum g l.
Proof. intros H. induction l as [|o l IH]; cbn [msum fold_right]; [ring|]. unfold msum in IH. rewrite IH, H. ring. Qed.
Lemma multipole_mirrored x0 y0 l x y : x <> x0 \/ y <> y0 -> let l' := map (fun '(m, a_m, phi_m) => (m, a_m, - phi_m)) l in
  mirrored_vector (reduced_deflection_angle_multipole x0 y0 l) (reduced_deflection_angle_multipole x0 (- y0) l') x y /\
  mirrored (potential_multipole x0 y0 l) (potential_multipole x0 (- y0) l') x y /\
  mirrored (convergence_multipole x0 y0 l) (convergence_multipole x0 (- y0) l') x y.
Proof.
  intros H l'. unfold mirrored, mirrored_vector, reduced_deflection_angle_multipole, potential_multipole, convergence_multipole. rewrite tm_none. unfold translate_rotate.
  set (u := x - x0). set (v := y - y0). assert (H' : u <> 0 \/ v <> 0) by (unfold u, v; destruct H; [left|right]; lra). unfold flip at 1 3 4. cbn [fst snd]. rewrite sq_flip.
  destruct (atan2_flip u v H') as [k E]. rewrite E. set (th := atan2 v u). destruct (cos_sin_period_Z (- th) k) as [Hc Hs]. rewrite Hc, Hs, cos_neg, sin_neg.
  assert (A : forall m p, cos (IZR m * (- th + 2 * IZR k * PI - - p)) = cos (IZR m * (th - p)) /\ sin (IZR m * (- th + 2 * IZR k * PI - - p)) = - sin (IZR m * (th - p))).
  { intros m p. replace (IZR m * (- th + 2 * IZR k * PI - - p)) with (- (IZR m * (th - p)) + 2 * IZR (m * k) * PI) by (rewrite mult_IZR; ring). rewrite <- sin_neg, <- (cos_neg (IZR m * (th - p))). apply cos_sin_period_Z. }
  unfold l'. rewrite !msum_map. split; [|split].
  - unfold flip. cbn [fst snd]. apply (f_equal2 pair).
    + apply msum_ext. intros [[m am] pm]. cbn [fst snd]. destruct (A m pm) as [-> ->]. unfold Rdiv. ring.
    + apply msum_opp. intros [[m am] pm]. cbn [fst snd]. destruct (A m pm) as [-> ->]. unfold Rdiv. ring.
  - apply msum_ext. intros [[m am] pm]. destruct (A m pm) as [-> _]. reflexivity.
  - apply msum_ext. intros [[m am] pm]. destruct (A m pm) as [-> _]. reflexivity.
Qed.
Lemma jaffe_mirrored dc z_s z_l x0 y0 mass Rc Rs x y :
  mirrored_vector (jaffe_reduced_deflection_angle dc z_s z_l x0 y0 mass Rc Rs) (jaffe_reduced_deflection_angle dc z_s z_l x0 (- y0) mass Rc Rs) x y /\
  mirrored (jaffe_potential dc z_s z_l x0 y0 mass Rc Rs) (jaffe_potential dc z_s z_l x0 (- y0) mass Rc Rs) x y /\
  mirrored (jaffe_convergence dc z_s z_l x0 y0 mass Rc Rs) (jaffe_convergence dc z_s z_l x0 (- y0) mass Rc Rs) x y.
Proof.
  unfold mirrored, mirrored_vector, jaffe_reduced_deflection_angle, jaffe_potential, jaffe_convergence, reduced_deflection_angle_pseudo_jaffe, potential_pseudo_jaffe, convergence_pseudo_jaffe.
  rewrite tm_none. destruct (translate_rotate x y x0 y0 None) as [u v]. unfold flip. cbn [fst snd]. rewrite sq_flip. split; [|split; reflexivity].
  cbv zeta. match goal with |- (?k * _ / ?r, _) = _ => set (K := k); set (W := r) end. apply (f_equal2 pair); unfold Rdiv; ring.
Qed.
Lemma nfw_mirrored dc cd z_s z_l x0 y0 mass c s x y :
  mirrored_vector (nfw_reduced_deflection_angle dc cd z_s z_l x0 y0 mass c s) (nfw_reduced_deflection_angle dc cd z_s z_l x0 (- y0) mass c s) x y /\
  mirrored (nfw_potential dc cd z_s z_l x0 y0 mass c s) (nfw_potential dc cd z_s z_l x0 (- y0) mass c s) x y /\
  mirrored (nfw_convergence dc cd z_s z_l x0 y0 mass c s) (nfw_convergence dc cd z_s z_l x0 (- y0) mass c s) x y.
Proof.
  unfold mirrored, mirrored_vector.
  assert (P : nfw_physical_deflection_angle dc cd z_l x0 (- y0) mass c s x (- y) = flip (nfw_physical_deflection_angle dc cd z_l x0 y0 mass c s x y)).
  { unfold nfw_physical_deflection_angle, physical_deflection_angle_nfw. rewrite tm_none. destruct (translate_rotate x y x0 y0 None) as [u v]. unfold flip. cbn [fst snd]. rewrite sq_flip.
    cbv zeta. match goal with |- (?k * _ / ?r, _) = _ => set (K := k); set (W := r) end. apply (f_equal2 pair); unfold Rdiv; ring. }
  split.
  - unfold nfw_reduced_deflection_angle. rewrite P. destruct (nfw_physical_deflection_angle dc cd z_l x0 y0 mass c s x y) as [p r]. cbv zeta. unfold reduced_from_physical_deflection_angle, flip; cbn [fst snd]. apply (f_equal2 pair); ring.
  - unfold nfw_potential, nfw_convergence, potential_nfw, convergence_nfw. rewrite tm_none. destruct (translate_rotate x y x0 y0 None) as [u v]. unfold flip. cbn [fst snd]. rewrite sq_flip. split; reflexivity.
Qed.
Lemma tnfw_mirrored dc cd tot z_s z_l x0 y0 mass Rs tau s x y : x <> x0 \/ y <> y0 ->
  mirrored_vector (tnfw_reduced_deflection_angle dc cd tot z_s z_l x0 y0 mass Rs tau s) (tnfw_reduced_deflection_angle dc cd tot z_s z_l x0 (- y0) mass Rs tau s) x y /\
  mirrored (tnfw_potential dc cd tot z_s z_l x0 y0 mass Rs tau s) (tnfw_potential dc cd tot z_s z_l x0 (- y0) mass Rs tau s) x y /\
  mirrored (tnfw_convergence dc cd tot z_s z_l x0 y0 mass Rs tau s) (tnfw_convergence dc cd tot z_s z_l x0 (- y0) mass Rs tau s) x y.
Proof.
  intros H. unfold mirrored, mirrored_vector.
  assert (P : tnfw_physical_deflection_angle dc cd tot z_l x0 (- y0) mass Rs tau s x (- y) = flip (tnfw_physical_deflection_angle dc cd tot z_l x0 y0 mass Rs tau s x y)).
  { unfold tnfw_physical_deflection_angle, physical_deflection_angle_tnfw. rewrite tm_none. unfold translate_rotate. set (u := x - x0). set (v := y - y0).
    assert (H' : u <> 0 \/ v <> 0) by (unfold u, v; destruct H; [left|right]; lra). destruct (atan2_flip u v H') as [k E].
    unfold flip at 1. cbn [fst snd]. rewrite sq_flip, E. destruct (cos_sin_period_Z (- atan2 v u) k) as [-> ->]. rewrite cos_neg, sin_neg. unfold flip. cbn [fst snd]. apply (f_equal2 pair); ring. }
  split.
  - unfold tnfw_reduced_deflection_angle. rewrite P. destruct (tnfw_physical_deflection_angle dc cd tot z_l x0 y0 mass Rs tau s x y) as [p r]. cbv zeta. unfold reduced_from_physical_deflection_angle, flip; cbn [fst snd]. apply (f_equal2 pair); ring.
  - unfold tnfw_potential, tnfw_convergence, potential_tnfw, convergence_tnfw. rewrite tm_none. destruct (translate_rotate x y x0 y0 None) as [u v]. unfold flip. cbn [fst snd]. rewrite sq_flip. split; reflexivity.
Qed.
Lemma enclosed_mirrored dc z_s z_l x0 y0 q phi M s x y :
  mirrored_vector (enclosed_mass_reduced_deflection_angle dc z_s z_l x0 y0 q phi M s) (enclosed_mass_reduced_deflection_angle dc z_s z_l x0 (- y0) q (- phi) M s) x y /\
  mirrored (enclosed_mass_convergence dc z_s z_l x0 y0 q phi M s) (enclosed_mass_convergence dc z_s z_l x0 (- y0) q (- phi) M s) x y.
Proof.
  unfold mirrored, mirrored_vector, enclosed_mass_reduced_deflection_angle, enclosed_mass_convergence, physical_deflection_angle_enclosed_mass, convergence_enclosed_mass. rewrite tm_some.
  destruct (translate_rotate x y x0 y0 (Some phi)) as [u v]. unfold flip at 1 3. cbn [fst snd]. cbv zeta. rewrite ?sq_flip. split; [|reflexivity].
  match goal with |- context [derotate ?A ?B (Some (- phi))] => match goal with |- context [derotate A ?B' (Some phi)] => replace B with (- B') by (unfold Rdiv; ring) end end.
  rewrite derot_flip. destruct (derotate _ _ (Some phi)) as [p r]. unfold reduced_from_physical_deflection_angle, flip; cbn [fst snd]. apply (f_equal2 pair); ring.
Qed.
Lemma sersic_mirrored lk s x0 y0 q phi n Re Ie x y : mirrored (sersic_brightness lk s x0 y0 q phi n Re Ie) (sersic_brightness lk s x0 (- y0) q (- phi) n Re Ie) x y.
Proof.
  unfold mirrored, sersic_brightness, brightness_sersic. rewrite tm_some. destruct (translate_rotate x y x0 y0 (Some phi)) as [u v]. unfold flip, to_elliptical. cbn [fst snd].
  replace (- v / q) with (- (v / q)) by (unfold Rdiv; ring). rewrite sq_flip. reflexivity.
Qed.
Lemma star_mirrored x0 y0 theta_s Ie gamma x y : mirrored (fun x y => brightness_star x0 y0 theta_s Ie x y gamma) (fun x y => brightness_star x0 (- y0) theta_s Ie x y gamma) x y.
Proof. unfold mirrored, brightness_star. rewrite tm_none. destruct (translate_rotate x y x0 y0 None) as [u v]. unfold flip. cbn [fst snd]. rewrite sq_flip. reflexivity. Qed.

(** ** symmetries: a mirror image followed by a rotation *)
Section Sym.
Variables x0 y0 p x y : R.
Let a := x0 - (x0 * cos (2 * p) + y0 * sin (2 * p)).
Let b := y0 - (x0 * sin (2 * p) - y0 * cos (2 * p)).
Lemma reflect_motion : reflect x0 y0 p x y = motion (2 * p) a b x (- y).
Proof. unfold reflect, reflect_vector, motion, turn, a, b. cbv zeta. cbn [fst snd]. apply (f_equal2 pair); ring. Qed.
Lemma centre_motion : motion (2 * p) a b x0 (- y0) = (x0, y0).
Proof. unfold motion, turn, a, b. cbn [fst snd]. apply (f_equal2 pair); ring. Qed.
Lemma symmetric_from {A} (f g : R -> R -> A) : mirrored f g x y -> carried (2 * p) a b g f x (- y) -> symmetric x0 y0 p f x y.
Proof. unfold mirrored, carried, symmetric. intros M C. rewrite reflect_motion, C. exact M. Qed.
Lemma symmetric_vector_from (f g : R -> R -> R * R) : mirrored_vector f g x y -> carried_vector (2 * p) a b g f x (- y) -> symmetric_vector x0 y0 p f x y.
Proof. unfold mirrored_vector, carried_vector, symmetric_vector. intros M C. rewrite reflect_motion, C, M. unfold turn, flip, reflect_vector. cbn [fst snd]. apply (f_equal2 pair); ring. Qed.
End Sym.
Lemma sie_symmetric x0 y0 q phi Rein s x y : 0 < q <= 1 -> 0 <= s -> x <> x0 \/ y <> y0 ->
  symmetric_vector x0 y0 phi (reduced_deflection_angle_sie x0 y0 q phi Rein s) x y /\ symmetric x0 y0 phi (potential_sie x0 y0 q phi Rein s) x y /\ symmetric x0 y0 phi (convergence_sie x0 y0 q phi Rein s) x y.
Proof.
  intros Q S H. destruct (sie_mirrored x0 y0 q phi Rein s x y Q S H) as (M1 & M2 & M3).
  assert (C := sie_moves (2 * phi) (x0 - (x0 * cos (2 * phi) + y0 * sin (2 * phi))) (y0 - (x0 * sin (2 * phi) - y0 * cos (2 * phi))) x0 (- y0) q (- phi) Rein s x (- y)). rewrite centre_motion in C. cbn [fst snd] in C. replace (- phi + 2 * phi) with phi in C by ring.
  destruct C as (C1 & C2 & C3). split; [eapply symmetric_vector_from; eassumption|]. split; eapply symmetric_from; eassumption.
Qed.
Lemma epl_symmetric x0 y0 q phi Rein t n c s x y :
  (let m := reflect x0 y0 phi x y in reduced_deflection_angle_epl x0 y0 q phi Rein t n c (fst m) (snd m) = bind (reduced_deflection_angle_epl x0 y0 q phi Rein t n c x y) (fun a => Ok (reflect_vector phi a))) /\
  symmetric x0 y0 phi (potential_epl x0 y0 q phi Rein t n c) x y /\ symmetric x0 y0 phi (convergence_epl x0 y0 q phi Rein t s) x y.
Proof.
  destruct (epl_mirrored x0 y0 q phi Rein t n c s x y) as (M1 & M2 & M3).
  assert (C := epl_moves (2 * phi) (x0 - (x0 * cos (2 * phi) + y0 * sin (2 * phi))) (y0 - (x0 * sin (2 * phi) - y0 * cos (2 * phi))) x0 (- y0) q (- phi) Rein t n c s x (- y)). rewrite centre_motion in C. cbn [fst snd] in C. replace (- phi + 2 * phi) with phi in C by ring.
  destruct C as (C1 & C1' & C2 & C3). split; [|split; eapply symmetric_from; eassumption].
  cbv zeta. rewrite reflect_motion. destruct (reduced_deflection_angle_epl x0 y0 q phi Rein t n c x y) as [al|e]; cbn [bind] in *.
  - rewrite (C1 _ M1). f_equal. unfold turn, flip, reflect_vector. cbn [fst snd]. apply (f_equal2 pair); ring.
  - apply C1', M1.
Qed.
Lemma sersic_symmetric lk s x0 y0 q phi n Re Ie x y : symmetric x0 y0 phi (sersic_brightness lk s x0 y0 q phi n Re Ie) x y.
Proof.
  assert (C := sersic_moves (2 * phi) (x0 - (x0 * cos (2 * phi) + y0 * sin (2 * phi))) (y0 - (x0 * sin (2 * phi) - y0 * cos (2 * phi))) lk s x0 (- y0) q (- phi) n Re Ie x (- y)). rewrite centre_motion in C. cbn [fst snd] in C. replace (- phi + 2 * phi) with phi in C by ring.
  eapply symmetric_from; [apply sersic_mirrored|exact C].
Qed.
Lemma multipole_symmetric x0 y0 m a_m phi_m x y : x <> x0 \/ y <> y0 -> let l := [(m, a_m, phi_m)] in
  symmetric_vector x0 y0 phi_m (reduced_deflection_angle_multipole x0 y0 l) x y /\ symmetric x0 y0 phi_m (potential_multipole x0 y0 l) x y /\ symmetric x0 y0 phi_m (convergence_multipole x0 y0 l) x y.
Proof.
  intros H l. destruct (multipole_mirrored x0 y0 l x y H) as (M1 & M2 & M3). assert (H' : x <> x0 \/ - y <> - y0) by (destruct H; [left|right]; lra).
  assert (C := multipole_moves (2 * phi_m) (x0 - (x0 * cos (2 * phi_m) + y0 * sin (2 * phi_m))) (y0 - (x0 * sin (2 * phi_m) - y0 * cos (2 * phi_m))) x0 (- y0) (map (fun '(m, a_m, phi_m) => (m, a_m, - phi_m)) l) x (- y) H'). cbv zeta in C. rewrite centre_motion in C. cbn [fst snd map l] in C. replace (- phi_m + 2 * phi_m) with phi_m in C by ring.
  destruct C as (C1 & C2 & C3). split; [eapply symmetric_vector_from; eassumption|]. split; eapply symmetric_from; eassumption.
Qed.
(** turning about the centre *)
Section Turn.
Variables x0 y0 t x y : R.
Let a := x0 - (x0 * cos t - y0 * sin t).
Let b := y0 - (x0 * sin t + y0 * cos t).
Lemma about_motion : about x0 y0 t x y = motion t a b x y.
Proof. unfold about, motion, turn, a, b. cbv zeta. cbn [fst snd]. apply (f_equal2 pair); ring. Qed.
Lemma centre_stays : motion t a b x0 y0 = (x0, y0).
Proof. unfold motion, turn, a, b. cbn [fst snd]. apply (f_equal2 pair); ring. Qed.
End Turn.
Definition same_angle (m : Z) (p p' : R) : Prop := forall th, cos (IZR m * (th - p')) = cos (IZR m * (th - p)) /\ sin (IZR m * (th - p')) = sin (IZR m * (th - p)).
Lemma multipole_same m a_m p p' x0 y0 x y : same_angle m p p' ->
  reduced_deflection_angle_multipole x0 y0 [(m, a_m, p')] x y = reduced_deflection_angle_multipole x0 y0 [(m, a_m, p)] x y /\
  potential_multipole x0 y0 [(m, a_m, p')] x y = potential_multipole x0 y0 [(m, a_m, p)] x y /\ convergence_multipole x0 y0 [(m, a_m, p')] x y = convergence_multipole x0 y0 [(m, a_m, p)] x y.
Proof.
  intros S. unfold reduced_deflection_angle_multipole, potential_multipole, convergence_multipole. cbn [translate_rotate msum fold_right]. cbv zeta. destruct (S (atan2 (y - y0) (x - x0))) as [-> ->]. repeat split; reflexivity.
Qed.
Lemma multipole_fold x0 y0 m a_m phi_m x y : (m <> 0)%Z -> x <> x0 \/ y <> y0 -> let l := [(m, a_m, phi_m)] in let t := 2 * PI / IZR m in
  unturned_vector x0 y0 t (reduced_deflection_angle_multipole x0 y0 l) x y /\ unturned x0 y0 t (potential_multipole x0 y0 l) x y /\ unturned x0 y0 t (convergence_multipole x0 y0 l) x y.
Proof.
  intros Hm H l t. assert (M0 : IZR m <> 0) by (apply not_0_IZR, Hm). unfold unturned, unturned_vector. rewrite about_motion.
  assert (C := multipole_moves t (x0 - (x0 * cos t - y0 * sin t)) (y0 - (x0 * sin t + y0 * cos t)) x0 y0 l x y H). cbv zeta in C. rewrite centre_stays in C. cbn [fst snd map l] in C. unfold carried, carried_vector in C.
  assert (S : same_angle m phi_m (phi_m + t)). { intros th. replace (IZR m * (th - (phi_m + t))) with (IZR m * (th - phi_m) + 2 * IZR (- 1) * PI) by (unfold t; field; exact M0). apply cos_sin_period_Z. }
  match type of C with context [reduced_deflection_angle_multipole x0 y0 [(m, a_m, phi_m + t)] ?u ?v] => destruct (multipole_same m a_m phi_m (phi_m + t) x0 y0 u v S) as (E1 & E2 & E3) end. rewrite E1, E2, E3 in C. exact C.
Qed.
