(** * Change of the unit of angle: EPL, multipoles, pseudo-Jaffe, truncated NFW, Sersic, and the magnification *)
From Coq Require Import Reals ZArith List Arith Lra Psatz.
From Coquelicot Require Import Coquelicot.
From Verif Require Import Py Const_Model RealFun Calc2 Cosmo_Model Geo_Model LensBase_Model LensBase_Proofs LensBasic_Model Epl_Model Multipole_Model Jaffe_Model Nfw_Model Tnfw_Model Light_Model Scale_Spec Scale_Proofs.
Import ListNotations.
Local Open Scope R_scope.

(** ** EPL *)
Lemma phase_same (l : R) (z : C) : l <> 0 -> (RtoC l * z / Cconj (RtoC l * z))%C = (z / Cconj z)%C.
Proof.
  intros L. assert (E : Cconj (RtoC l * z)%C = (RtoC l * Cconj z)%C) by (unfold Cconj, Cmult, RtoC; cbn [fst snd]; apply (f_equal2 pair); ring). rewrite E.
  destruct (Ceq_dec z 0) as [->|Z]; [unfold Cdiv; rewrite !Cmult_0_r, !Cmult_0_l; reflexivity|].
  field. split; [|intros H; apply RtoC_inj in H; contradiction]. intros H. apply Z. destruct z as [a b]. unfold Cconj in H. cbn [fst snd] in H. injection H as H1 H2. rewrite H1. replace b with 0 by lra. reflexivity.
Qed.
Lemma fold_scale (l : R) (f : nat -> C) ks (a s : C) :
  fold_left (fun (st : C * C) i => let o := (f i * fst st)%C in (o, (snd st + o)%C)) ks ((RtoC l * a)%C, (RtoC l * s)%C) =
  (let st := fold_left (fun (st : C * C) i => let o := (f i * fst st)%C in (o, (snd st + o)%C)) ks (a, s) in ((RtoC l * fst st)%C, (RtoC l * snd st)%C)).
Proof.
  revert a s. induction ks as [|k ks IH]; intros a s; [reflexivity|]. cbn [fold_left]. cbv zeta. cbn [fst snd]. cbv zeta in IH. rewrite <- IH. f_equal. apply (f_equal2 pair); ring.
Qed.
Lemma r_omega_scale (l : R) (z : C) t q n c : l <> 0 -> r_omega (RtoC l * z)%C t q n c = bind (r_omega z t q n c) (fun w => Ok (RtoC l * w)%C).
Proof.
  intros L. unfold r_omega. cbv zeta. rewrite phase_same by exact L. set (phi := (z / Cconj z * _)%C). clearbody phi. set (cs := match c with None => n | Some k => k end). clearbody cs.
  destruct (Nat.eqb cs 1).
  - cbn [bind]. f_equal. assert (F := fold_scale l (fun i => (factor t i * phi)%C) (seq 1 (n - 1)) z z). cbv zeta in F. rewrite F. reflexivity.
  - destruct (Nat.eqb cs 0); [reflexivity|]. match goal with |- bind ?X _ = _ => destruct X as [[[cc res]|]|e] end; cbn [bind]; [f_equal; ring|reflexivity|reflexivity].
Qed.
Section Epl.
Variables (l x0 y0 q phi Rein t : R) (n : nat) (c : option nat) (x y : R).
Hypotheses (L : 0 < l).
Lemma epl_deflection_scales : reduced_deflection_angle_epl (l * x0) (l * y0) q phi (l * Rein) t n c (l * x) (l * y) =
  bind (reduced_deflection_angle_epl x0 y0 q phi Rein t n c x y) (fun a => Ok (l * fst a, l * snd a)).
Proof.
  unfold reduced_deflection_angle_epl. cbn [translate_rotate]. rewrite !sub_scale, turn_x, turn_y. set (X := _ * cos phi + _). set (Y := _ * cos phi - _). clearbody X Y.
  assert (E : ((q * (l * X))%R, (l * Y)%R) = (RtoC l * ((q * X)%R, Y))%C). { unfold Cmult, RtoC. cbn [fst snd]. apply (f_equal2 pair); ring. }
  cbv zeta. rewrite E, r_omega_scale by lra. destruct (r_omega ((q * X)%R, Y) t q n c) as [w|e]; [|reflexivity]. cbn [bind]. f_equal.
  rewrite Cmod_mult, Cmod_R, (Rabs_pos_eq l) by lra. set (r := Cmod _). destruct (Req_EM_T (l * r) 0) as [A|A], (Req_EM_T r 0) as [B|B].
  - cbn [derotate fst snd RtoC]. cbv zeta. apply (f_equal2 pair); ring.
  - exfalso. destruct (Rmult_integral _ _ A); lra.
  - exfalso. apply A. rewrite B. ring.
  - replace (l * Rein * sqrt q / (l * r)) with (Rein * sqrt q / r) by (field; split; lra). unfold Cmult, RtoC. cbn [derotate fst snd]. cbv zeta. apply (f_equal2 pair); ring.
Qed.
Lemma epl_potential_scales : potential_epl (l * x0) (l * y0) q phi (l * Rein) t n c (l * x) (l * y) = bind (potential_epl x0 y0 q phi Rein t n c x y) (fun p => Ok (l ^ 2 * p)).
Proof.
  unfold potential_epl. rewrite epl_deflection_scales. destruct (reduced_deflection_angle_epl x0 y0 q phi Rein t n c x y) as [a|e]; [|reflexivity]. cbn [bind derotate translate_rotate fst snd]. cbv zeta. f_equal. unfold Rdiv. ring.
Qed.
Lemma epl_convergence_scales s : convergence_scales l (convergence_epl x0 y0 q phi Rein t s) (convergence_epl (l * x0) (l * y0) q phi (l * Rein) t (l * s)) x y.
Proof.
  unfold convergence_scales, convergence_epl. cbn [translate_rotate]. rewrite !sub_scale, turn_x, turn_y. set (X := _ * cos phi + _). set (Y := _ * cos phi - _). clearbody X Y. cbv zeta.
  replace (q ^ 2 * (l * X) ^ 2 + (l * Y) ^ 2 + (l * s) ^ 2) with (l ^ 2 * (q ^ 2 * X ^ 2 + Y ^ 2 + s ^ 2)) by ring.
  rewrite sq_scale; [|exact L|]. 2:{ assert (A := pow2_ge_0 (q * X)). assert (B := pow2_ge_0 Y). assert (D := pow2_ge_0 s). rewrite Rpow_mult_distr in A. lra. }
  set (r := sqrt (_ + s ^ 2)). clearbody r. f_equal. f_equal. destruct (Req_dec r 0) as [->|Z]; [rewrite Rmult_0_r; unfold Rdiv; rewrite Rinv_0; ring|field; split; lra].
Qed.
End Epl.

(** ** multipoles *)
Definition larger (l : R) (o : list order) : list order := map (fun '(m, a, p) => (m, l * a, p)) o.
Lemma atan2_scale l a b : 0 < l -> atan2 (l * b) (l * a) = atan2 b a.
Proof.
  intros L. unfold atan2. assert (E : l * b / (l * a) = b / a). { destruct (Req_dec a 0) as [->|A]; [rewrite Rmult_0_r; unfold Rdiv; rewrite Rinv_0; ring|field; lra]. } rewrite E.
  assert (S : forall w, (0 < l * w <-> 0 < w) /\ (l * w < 0 <-> w < 0) /\ (0 <= l * w <-> 0 <= w)) by (intros w; repeat split; intros; nra).
  destruct (S a) as (A1 & A2 & A3), (S b) as (B1 & B2 & B3).
  repeat match goal with |- context [Rlt_dec ?u ?v] => destruct (Rlt_dec u v) | |- context [Rle_dec ?u ?v] => destruct (Rle_dec u v) | |- context [Req_EM_T ?u ?v] => destruct (Req_EM_T u v) end; try reflexivity; exfalso; lra.
Qed.
Lemma msum_larger l o f f' k : (forall m a p, f' (m, l * a, p) = k * f (m, a, p)) -> msum f' (larger l o) = k * msum f o.
Proof.
  intros H. induction o as [|[[m a] p] o IH]; [cbn; ring|]. change (msum f' (larger l ((m, a, p) :: o))) with (f' (m, l * a, p) + msum f' (larger l o)). change (msum f ((m, a, p) :: o)) with (f (m, a, p) + msum f o). rewrite IH, H. ring.
Qed.
Section Multi.
Variables (l x0 y0 : R) (o : list order) (x y : R).
Hypotheses (L : 0 < l) (Off : x <> x0 \/ y <> y0) (O : orders_accepted o = true).
Lemma multipole_scales : lens_scales l (potential_multipole x0 y0 o) (potential_multipole (l * x0) (l * y0) (larger l o))
  (reduced_deflection_angle_multipole x0 y0 o) (reduced_deflection_angle_multipole (l * x0) (l * y0) (larger l o))
  (convergence_multipole x0 y0 o) (convergence_multipole (l * x0) (l * y0) (larger l o)) x y.
Proof.
  assert (N := norm_pos _ _ (off _ _ _ _ Off)). unfold lens_scales, potential_scales, deflection_scales, convergence_scales, potential_multipole, reduced_deflection_angle_multipole, convergence_multipole.
  cbn [translate_rotate]. cbv zeta. rewrite !sub_scale, atan2_scale, rad by exact L. cbn [fst snd]. set (th := atan2 _ _). clearbody th. set (r := sqrt _) in *. clearbody r. repeat split.
  - apply msum_larger. intros m a p. unfold Rdiv. ring.
  - apply msum_larger. intros m a p. unfold Rdiv. ring.
  - apply msum_larger. intros m a p. unfold Rdiv. ring.
  - rewrite <- (Rmult_1_l (msum _ o)). apply msum_larger. intros m a p. field. split; lra.
Qed.
End Multi.

(** ** pseudo-Jaffe *)
Section Jaffe.
Variables (l x0 y0 mass Rc Rs x y d_l : R).
Hypotheses (L : 0 < l) (Off : x <> x0 \/ y <> y0) (HRc : 0 < Rc) (HRs : 0 < Rs) (NE : Rc <> Rs) (HD : 0 < d_l).
Lemma kappa0_scale sigma : 0 < sigma -> convergence_0_pseudo_jaffe (l ^ 2 * mass) (l * Rc) (l * Rs) d_l sigma = convergence_0_pseudo_jaffe mass Rc Rs d_l sigma.
Proof. intros S. unfold convergence_0_pseudo_jaffe. assert (P := PI_RGT_0). assert (A := arcsec_to_rad_pos). field. repeat split; lra. Qed.
Lemma jaffe_deflection_scales sigma s : 0 < sigma -> 0 <= s ->
  deflection_scales l (fun u v => reduced_deflection_angle_pseudo_jaffe x0 y0 mass Rc Rs u v d_l sigma s)
    (fun u v => reduced_deflection_angle_pseudo_jaffe (l * x0) (l * y0) (l ^ 2 * mass) (l * Rc) (l * Rs) u v d_l sigma (l * s)) x y.
Proof.
  intros S S0. assert (P := soft_pos x y x0 y0 s Off S0). unfold deflection_scales, reduced_deflection_angle_pseudo_jaffe. cbn [translate_rotate]. cbv zeta. cbn [fst snd].
  rewrite !sub_scale, rad, <- Rmult_plus_distr_l, kappa0_scale by assumption. set (r := sqrt _ + s) in *. clearbody r. set (k := convergence_0_pseudo_jaffe _ _ _ _ _). clearbody k.
  replace (l * r / (l * Rc)) with (r / Rc) by (field; lra). replace (l * r / (l * Rs)) with (r / Rs) by (field; lra). rewrite (Rmult_assoc l Rs).
  assert (A : 0 < 1 + sqrt (1 + (r / Rc) ^ 2)) by (assert (H := sqrt_pos (1 + (r / Rc) ^ 2)); lra). assert (B : 0 < 1 + sqrt (1 + (r / Rs) ^ 2)) by (assert (H := sqrt_pos (1 + (r / Rs) ^ 2)); lra).
  set (a := 1 + sqrt (1 + (r / Rc) ^ 2)) in *. set (b := 1 + sqrt (1 + (r / Rs) ^ 2)) in *. clearbody a b.
  assert (D : Rs - Rc <> 0) by lra. assert (D' : l * Rs - l * Rc <> 0) by (rewrite sub_scale; apply Rmult_integral_contrapositive_currified; lra). split; field; repeat split; lra.
Qed.
Lemma jaffe_convergence_scales sigma : 0 < sigma -> convergence_scales l (fun u v => convergence_pseudo_jaffe x0 y0 mass Rc Rs u v d_l sigma 0)
  (fun u v => convergence_pseudo_jaffe (l * x0) (l * y0) (l ^ 2 * mass) (l * Rc) (l * Rs) u v d_l sigma 0) x y.
Proof.
  intros S. unfold convergence_scales, convergence_pseudo_jaffe. cbn [translate_rotate]. cbv zeta. rewrite !sub_scale, kappa0_scale by assumption. rewrite !Rplus_0_r.
  replace ((l * Rc) ^ 2 + ((l * (x - x0)) ^ 2 + (l * (y - y0)) ^ 2)) with (l ^ 2 * (Rc ^ 2 + ((x - x0) ^ 2 + (y - y0) ^ 2))) by ring.
  replace ((l * Rs) ^ 2 + ((l * (x - x0)) ^ 2 + (l * (y - y0)) ^ 2)) with (l ^ 2 * (Rs ^ 2 + ((x - x0) ^ 2 + (y - y0) ^ 2))) by ring.
  assert (N := nonneg2 (x - x0) (y - y0)). assert (c2 : 0 < Rc ^ 2) by (apply pow_lt, HRc). assert (s2 : 0 < Rs ^ 2) by (apply pow_lt, HRs).
  rewrite !sq_scale by lra. set (a := sqrt (Rc ^ 2 + _)). set (b := sqrt (Rs ^ 2 + _)). assert (A : 0 < a) by (apply sqrt_lt_R0; lra). assert (B : 0 < b) by (apply sqrt_lt_R0; lra). clearbody a b.
  set (k := convergence_0_pseudo_jaffe _ _ _ _ _). clearbody k. assert (D : Rs - Rc <> 0) by lra. assert (D' : l * Rs - l * Rc <> 0) by (rewrite sub_scale; apply Rmult_integral_contrapositive_currified; lra). field. repeat split; lra.
Qed.
Definition jaffe_constant (d_s d_ls : R) : R :=
  let S := convergence_0_pseudo_jaffe mass Rc Rs d_l 1 in - (8 * PI * G_over_c2 * S * (d_l * d_ls / d_s) * Rc * Rs / (Rs - Rc)) * (l ^ 2 * (Rc - Rs) * ln l).
Lemma jaffe_potential_scales d_s d_ls : d_s <> 0 -> potential_scales_up_to (jaffe_constant d_s d_ls) l (fun u v => potential_pseudo_jaffe x0 y0 mass Rc Rs u v d_l d_s d_ls 0)
  (fun u v => potential_pseudo_jaffe (l * x0) (l * y0) (l ^ 2 * mass) (l * Rc) (l * Rs) u v d_l d_s d_ls 0) x y.
Proof.
  intros S. unfold potential_scales_up_to, jaffe_constant, potential_pseudo_jaffe. cbn [translate_rotate]. cbv zeta. rewrite !sub_scale, kappa0_scale by lra. rewrite !Rplus_0_r.
  replace ((l * Rc) ^ 2 + ((l * (x - x0)) ^ 2 + (l * (y - y0)) ^ 2)) with (l ^ 2 * (Rc ^ 2 + ((x - x0) ^ 2 + (y - y0) ^ 2))) by ring.
  replace ((l * Rs) ^ 2 + ((l * (x - x0)) ^ 2 + (l * (y - y0)) ^ 2)) with (l ^ 2 * (Rs ^ 2 + ((x - x0) ^ 2 + (y - y0) ^ 2))) by ring.
  assert (N := nonneg2 (x - x0) (y - y0)). assert (c2 : 0 < Rc ^ 2) by (apply pow_lt, HRc). assert (s2 : 0 < Rs ^ 2) by (apply pow_lt, HRs).
  rewrite !sq_scale by lra. set (a := sqrt (Rc ^ 2 + _)). set (b := sqrt (Rs ^ 2 + _)). assert (A : 0 < a) by (apply sqrt_lt_R0; lra). assert (B : 0 < b) by (apply sqrt_lt_R0; lra). clearbody a b.
  replace (l * Rc + l * a) with (l * (Rc + a)) by ring. replace (l * Rs + l * b) with (l * (Rs + b)) by ring. rewrite (ln_mult l (Rc + a)), (ln_mult l (Rs + b)) by lra. set (k := convergence_0_pseudo_jaffe _ _ _ _ _). clearbody k. set (G := G_over_c2). clearbody G. assert (D : Rs - Rc <> 0) by lra. assert (D' : l * Rs - l * Rc <> 0) by (rewrite sub_scale; apply Rmult_integral_contrapositive_currified; lra). field. repeat split; lra.
Qed.
End Jaffe.
(** with the softening, which is added to the square of the radius, the convergence does depend on the unit *)
Lemma bracket a b : 0 < a -> 0 < b -> 1 / sqrt a - 1 / sqrt b = (b - a) / (sqrt a * sqrt b * (sqrt a + sqrt b)).
Proof.
  intros A B. assert (P := sqrt_lt_R0 _ A). assert (Q := sqrt_lt_R0 _ B). rewrite <- (sqrt_sqrt a) at 2 by lra. rewrite <- (sqrt_sqrt b) at 2 by lra. field. repeat split; lra.
Qed.
Lemma bracket_decreasing A B h : 0 < A -> A < B -> 0 < h -> 1 / sqrt (A + h) - 1 / sqrt (B + h) < 1 / sqrt A - 1 / sqrt B.
Proof.
  intros HA HB Hh. rewrite !bracket by lra. replace (B + h - (A + h)) with (B - A) by ring. apply Rmult_lt_compat_l; [lra|].
  assert (P := sqrt_lt_R0 _ HA). assert (Q : 0 < sqrt B) by (apply sqrt_lt_R0; lra). assert (P' : sqrt A < sqrt (A + h)) by (apply sqrt_lt_1; lra). assert (Q' : sqrt B < sqrt (B + h)) by (apply sqrt_lt_1; lra).
  apply Rinv_lt_contravar; [repeat apply Rmult_lt_0_compat; lra|]. apply Rmult_gt_0_lt_compat; try lra; [apply Rmult_lt_0_compat; lra|]. apply Rmult_gt_0_lt_compat; lra.
Qed.
Lemma jaffe_softened_depends l x0 y0 mass Rc Rs x y d_l sigma s : 0 < l -> l <> 1 -> 0 < mass -> 0 < Rc < Rs -> 0 < d_l -> 0 < sigma -> 0 < s ->
  ~ convergence_scales l (fun u v => convergence_pseudo_jaffe x0 y0 mass Rc Rs u v d_l sigma s)
      (fun u v => convergence_pseudo_jaffe (l * x0) (l * y0) (l ^ 2 * mass) (l * Rc) (l * Rs) u v d_l sigma (l * s)) x y.
Proof.
  intros L N1 M HR D Sg S. unfold convergence_scales, convergence_pseudo_jaffe. cbn [translate_rotate]. cbv zeta. rewrite !sub_scale, kappa0_scale by lra.
  replace ((l * Rc) ^ 2 + ((l * (x - x0)) ^ 2 + (l * (y - y0)) ^ 2 + l * s)) with (l ^ 2 * (Rc ^ 2 + ((x - x0) ^ 2 + (y - y0) ^ 2 + s / l))) by (field; lra).
  replace ((l * Rs) ^ 2 + ((l * (x - x0)) ^ 2 + (l * (y - y0)) ^ 2 + l * s)) with (l ^ 2 * (Rs ^ 2 + ((x - x0) ^ 2 + (y - y0) ^ 2 + s / l))) by (field; lra).
  assert (N := nonneg2 (x - x0) (y - y0)). set (r2 := (x - x0) ^ 2 + (y - y0) ^ 2) in *. clearbody r2. assert (c2 : 0 < Rc ^ 2 < Rs ^ 2) by (split; [apply pow_lt; lra|simpl; nra]).
  assert (sl : 0 < s / l) by (apply Rdiv_lt_0_compat; lra). rewrite !sq_scale by lra.
  assert (K : 0 < convergence_0_pseudo_jaffe mass Rc Rs d_l sigma). { unfold convergence_0_pseudo_jaffe. assert (P := PI_RGT_0). assert (A := arcsec_to_rad_pos). apply Rdiv_lt_0_compat; [exact M|]. assert (Q := Rmult_lt_0_compat _ _ D A). assert (Q2 := pow_lt _ 2 Q). apply Rmult_lt_0_compat; [|exact Q2]. set (p := PI) in *. clearbody p. repeat apply Rmult_lt_0_compat; lra. }
  set (k := convergence_0_pseudo_jaffe _ _ _ _ _) in *. clearbody k.
  assert (W1 : 0 < sqrt (Rc ^ 2 + (r2 + s / l))) by (apply sqrt_lt_R0; lra). assert (W2 : 0 < sqrt (Rs ^ 2 + (r2 + s / l))) by (apply sqrt_lt_R0; lra).
  intros E. assert (F : 1 / sqrt (Rc ^ 2 + (r2 + s / l)) - 1 / sqrt (Rs ^ 2 + (r2 + s / l)) = 1 / sqrt (Rc ^ 2 + (r2 + s)) - 1 / sqrt (Rs ^ 2 + (r2 + s))).
  { apply Rmult_eq_reg_l with (k * Rc * Rs / (Rs - Rc)). 2:{ apply Rgt_not_eq. apply Rdiv_lt_0_compat; [|lra]. repeat apply Rmult_lt_0_compat; lra. }
    rewrite <- E. assert (D' : l * Rs - l * Rc <> 0) by (rewrite sub_scale; apply Rmult_integral_contrapositive_currified; lra). field. repeat split; lra. }
  assert (Cs : s / l < s \/ s < s / l).
  { destruct (Rdichotomy _ _ N1) as [T|T]; [right|left]; apply Rmult_lt_reg_r with l; try exact L; replace (s / l * l) with s by (field; lra); nra. }
  destruct Cs as [T|T].
  - assert (B := bracket_decreasing (Rc ^ 2 + (r2 + s / l)) (Rs ^ 2 + (r2 + s / l)) (s - s / l) ltac:(lra) ltac:(lra) ltac:(lra)).
    replace (Rc ^ 2 + (r2 + s / l) + (s - s / l)) with (Rc ^ 2 + (r2 + s)) in B by ring. replace (Rs ^ 2 + (r2 + s / l) + (s - s / l)) with (Rs ^ 2 + (r2 + s)) in B by ring. lra.
  - assert (B := bracket_decreasing (Rc ^ 2 + (r2 + s)) (Rs ^ 2 + (r2 + s)) (s / l - s) ltac:(lra) ltac:(lra) ltac:(lra)).
    replace (Rc ^ 2 + (r2 + s) + (s / l - s)) with (Rc ^ 2 + (r2 + s / l)) in B by ring. replace (Rs ^ 2 + (r2 + s) + (s / l - s)) with (Rs ^ 2 + (r2 + s / l)) in B by ring. lra.
Qed.

(** ** truncated NFW with a given total mass *)
Section Tnfw.
Variables (l x0 y0 Rs tau M0 x y d_l s : R).
Hypotheses (L : 0 < l) (Off : x <> x0 \/ y <> y0) (HR : 0 < Rs) (HD : 0 < d_l) (S : 0 <= s).
Lemma ratio_scale r : l * r / (l * Rs) = r / Rs.
Proof. field. lra. Qed.
Lemma tnfw_mass_scales r : mass_enclosed_2d_tnfw (l * r) (l * Rs) tau (l ^ 2 * M0) = l ^ 2 * mass_enclosed_2d_tnfw r Rs tau M0.
Proof. unfold mass_enclosed_2d_tnfw. cbv zeta. rewrite ratio_scale. ring. Qed.
Lemma tnfw_deflection_scales : deflection_scales l (fun u v => physical_deflection_angle_tnfw x0 y0 Rs tau u v M0 d_l s) (fun u v => physical_deflection_angle_tnfw (l * x0) (l * y0) (l * Rs) tau u v (l ^ 2 * M0) d_l (l * s)) x y.
Proof.
  assert (P := soft_pos x y x0 y0 s Off S). assert (A := arcsec_to_rad_pos). unfold deflection_scales, physical_deflection_angle_tnfw. cbn [translate_rotate]. cbv zeta. cbn [fst snd].
  rewrite !sub_scale, rad, atan2_scale, <- Rmult_plus_distr_l, tnfw_mass_scales by exact L. set (r := sqrt _ + s) in *. clearbody r. set (m := mass_enclosed_2d_tnfw _ _ _ _). clearbody m. set (G := G_over_c2). clearbody G. set (th := atan2 _ _). clearbody th. split; field; repeat split; lra.
Qed.
Lemma tnfw_convergence_scales sigma : sigma <> 0 -> convergence_scales l (fun u v => convergence_tnfw x0 y0 Rs tau u v sigma M0 d_l s) (fun u v => convergence_tnfw (l * x0) (l * y0) (l * Rs) tau u v sigma (l ^ 2 * M0) d_l (l * s)) x y.
Proof.
  intros Sg. assert (A := arcsec_to_rad_pos). assert (P := PI_RGT_0). unfold convergence_scales, convergence_tnfw. cbn [translate_rotate]. cbv zeta. rewrite !sub_scale, rad, <- Rmult_plus_distr_l, ratio_scale by exact L.
  replace (l ^ 2 * M0 / (2 * PI * (l * Rs * d_l * arcsec_to_rad) ^ 2)) with (M0 / (2 * PI * (Rs * d_l * arcsec_to_rad) ^ 2)) by (field; repeat split; lra). reflexivity.
Qed.
Lemma tnfw_potential_scales d_s d_ls : potential_scales l (fun u v => potential_tnfw x0 y0 Rs tau u v M0 d_l d_s d_ls s) (fun u v => potential_tnfw (l * x0) (l * y0) (l * Rs) tau u v (l ^ 2 * M0) d_l d_s d_ls (l * s)) x y.
Proof.
  unfold potential_scales, potential_tnfw. cbn [translate_rotate]. cbv zeta. rewrite !sub_scale, rad, <- Rmult_plus_distr_l, ratio_scale by exact L. set (g := _ / Rs). clearbody g. unfold Rdiv. ring.
Qed.
End Tnfw.
Lemma totmass_scale k mass tau : M0_totmass_tnfw (k * mass) tau = k * M0_totmass_tnfw mass tau.
Proof. unfold M0_totmass_tnfw. unfold Rdiv. ring. Qed.

(** ** Sersic *)
Lemma sersic_scales b l s x0 y0 q phi n Re Ie x y : 0 < l -> 0 < Re -> 0 < q ->
  sersic_brightness b (l * s) (l * x0) (l * y0) q phi n (l * Re) Ie (l * x) (l * y) = sersic_brightness b s x0 y0 q phi n Re Ie x y.
Proof.
  intros L HR Hq. unfold sersic_brightness, brightness_sersic. cbn [translate_rotate to_elliptical]. rewrite !sub_scale, turn_x, turn_y.
  replace (l * ((y - y0) * cos phi - (x - x0) * sin phi) / q) with (l * (((y - y0) * cos phi - (x - x0) * sin phi) / q)) by (unfold Rdiv; ring).
  rewrite rad, <- Rmult_plus_distr_l by exact L. replace (l * (sqrt (((x - x0) * cos phi + (y - y0) * sin phi) ^ 2 + (((y - y0) * cos phi - (x - x0) * sin phi) / q) ^ 2) + s) / (l * Re)) with ((sqrt (((x - x0) * cos phi + (y - y0) * sin phi) ^ 2 + (((y - y0) * cos phi - (x - x0) * sin phi) / q) ^ 2) + s) / Re) by (field; lra). reflexivity.
Qed.

(** ** images and magnifications *)
Lemma raytrace_scales l alpha alpha' x y : deflection_scales l alpha alpha' x y -> raytrace alpha' (l * x) (l * y) = (l * fst (raytrace alpha x y), l * snd (raytrace alpha x y)).
Proof. intros [A B]. unfold raytrace. destruct (alpha' (l * x) (l * y)) as [p q]. destruct (alpha x y) as [a b]. cbn [fst snd] in *. subst p q. apply (f_equal2 pair); ring. Qed.
Lemma D2_scaled l f f' x y a b : 0 < l -> locally_2d (fun u v => f' (l * u) (l * v) = l * f u v) x y -> D2 f x y a b -> D2 f' (l * x) (l * y) a b.
Proof.
  intros L E D. apply (D2_ext_loc (fun u v => l * f (/ l * u) (/ l * v))).
  - destruct E as [e E]. assert (P : 0 < l * e) by (apply Rmult_lt_0_compat; [exact L|apply cond_pos]). exists (mkposreal _ P). cbn [pos]. intros u v Hu Hv.
    assert (K : forall w z, Rabs (w - l * z) < l * e -> Rabs (/ l * w - z) < e). { intros w z H. replace (/ l * w - z) with ((w - l * z) / l) by (field; lra). rewrite Rabs_div, (Rabs_pos_eq l) by lra. apply Rmult_lt_reg_r with l; [exact L|]. replace (Rabs (w - l * z) / l * l) with (Rabs (w - l * z)) by (field; lra). lra. }
    rewrite <- (E (/ l * u) (/ l * v)) by (apply K; assumption). f_equal; field; lra.
  - assert (C := D2_comp f (fun u _ => / l * u) (fun _ v => / l * v) (l * x) (l * y) a b (/ l) 0 0 (/ l)). cbv beta in C.
    replace (/ l * (l * x)) with x in C by (field; lra). replace (/ l * (l * y)) with y in C by (field; lra).
    assert (C1 : D2 (fun u _ : R => / l * u) (l * x) (l * y) (/ l) 0) by (apply (D2_proj1 (fun u => / l * u)); auto_derive; [trivial|ring]).
    assert (C2 : D2 (fun _ v : R => / l * v) (l * x) (l * y) 0 (/ l)) by (apply (D2_proj2 (fun v => / l * v)); auto_derive; [trivial|ring]).
    eapply D2_eq; [apply D2_mult; [apply D2_const|exact (C D C1 C2)]| |]; cbv beta; field; lra.
Qed.
Lemma magnification_scales l alpha alpha' x y axx axy ayx ayy : 0 < l -> locally_2d (deflection_scales l alpha alpha') x y ->
  D2 (fun u v => fst (alpha u v)) x y axx axy -> D2 (fun u v => snd (alpha u v)) x y ayx ayy ->
  D2 (fun u v => fst (alpha' u v)) (l * x) (l * y) axx axy /\ D2 (fun u v => snd (alpha' u v)) (l * x) (l * y) ayx ayy /\ magnification alpha' (l * x) (l * y) = magnification alpha x y.
Proof.
  intros L E A B.
  assert (A' : D2 (fun u v => fst (alpha' u v)) (l * x) (l * y) axx axy). { eapply D2_scaled; [exact L| |exact A]. destruct E as [e E]. exists e. intros u v Hu Hv. apply (E u v Hu Hv). }
  assert (B' : D2 (fun u v => snd (alpha' u v)) (l * x) (l * y) ayx ayy). { eapply D2_scaled; [exact L| |exact B]. destruct E as [e E]. exists e. intros u v Hu Hv. apply (E u v Hu Hv). }
  split; [exact A'|]. split; [exact B'|]. unfold magnification, pixel_magnification.
  destruct (D2_raytrace _ _ _ _ _ _ _ A B) as [R1 R2]. destruct (D2_raytrace _ _ _ _ _ _ _ A' B') as [R1' R2'].
  rewrite (jacfwd_D2 _ _ _ _ _ _ _ R1 R2), (jacfwd_D2 _ _ _ _ _ _ _ R1' R2'). reflexivity.
Qed.
Section TnfwClass.
Variables (dc rho_c : R -> R) (l z_s z_l x0 y0 mass Rs tau s x y : R).
Hypotheses (L : 0 < l) (Off : x <> x0 \/ y <> y0) (HR : 0 < Rs) (S : 0 <= s) (HD : 0 < angular_diameter_distance dc z_l) (HS : critical_surface_density dc z_l z_s <> 0).
Lemma tnfw_class_scales : lens_scales l (tnfw_potential dc rho_c true z_s z_l x0 y0 mass Rs tau s) (tnfw_potential dc rho_c true z_s z_l (l * x0) (l * y0) (l ^ 2 * mass) (l * Rs) tau (l * s))
  (tnfw_reduced_deflection_angle dc rho_c true z_s z_l x0 y0 mass Rs tau s) (tnfw_reduced_deflection_angle dc rho_c true z_s z_l (l * x0) (l * y0) (l ^ 2 * mass) (l * Rs) tau (l * s))
  (tnfw_convergence dc rho_c true z_s z_l x0 y0 mass Rs tau s) (tnfw_convergence dc rho_c true z_s z_l (l * x0) (l * y0) (l ^ 2 * mass) (l * Rs) tau (l * s)) x y.
Proof.
  unfold lens_scales. split; [|split].
  - unfold potential_scales, tnfw_potential, tnfw_M0. rewrite totmass_scale. apply (tnfw_potential_scales l x0 y0 Rs tau (M0_totmass_tnfw mass tau) x y _ s L HR).
  - unfold deflection_scales, tnfw_reduced_deflection_angle, tnfw_physical_deflection_angle, tnfw_M0. rewrite totmass_scale.
    assert (D := tnfw_deflection_scales l x0 y0 Rs tau (M0_totmass_tnfw mass tau) x y _ s L Off HR HD S). unfold deflection_scales in D.
    destruct (physical_deflection_angle_tnfw (l * x0) _ _ _ _ _ _ _ _) as [bx by']. destruct (physical_deflection_angle_tnfw x0 _ _ _ _ _ _ _ _) as [ax ay]. cbn [fst snd] in D. destruct D as [-> ->].
    unfold reduced_from_physical_deflection_angle. cbn [fst snd]. split; unfold Rdiv; ring.
  - unfold convergence_scales, tnfw_convergence, tnfw_M0. rewrite totmass_scale. apply (tnfw_convergence_scales l x0 y0 Rs tau (M0_totmass_tnfw mass tau) x y _ s L HR HD _ HS).
Qed.
End TnfwClass.
Lemma sie_lens_scales l x0 y0 x y q phi Rein s : 0 < l -> x <> x0 \/ y <> y0 -> 0 < q <= 1 -> 0 <= s ->
  deflection_scales l (reduced_deflection_angle_sie x0 y0 q phi Rein s) (reduced_deflection_angle_sie (l * x0) (l * y0) q phi (l * Rein) (l * s)) x y /\
  convergence_scales l (convergence_sie x0 y0 q phi Rein s) (convergence_sie (l * x0) (l * y0) q phi (l * Rein) (l * s)) x y /\
  (s = 0 \/ 1 / 10 ^ 6 <= s /\ 1 / 10 ^ 6 <= l * s -> potential_scales l (potential_sie x0 y0 q phi Rein s) (potential_sie (l * x0) (l * y0) q phi (l * Rein) (l * s)) x y).
Proof. intros L O Q S. split; [apply sie_deflection_scales; assumption|]. split; [apply sie_convergence_scales; assumption|apply sie_potential_scales; assumption]. Qed.
Lemma jaffe_lens_scales l x0 y0 mass Rc Rs x y d_l d_s d_ls sigma : 0 < l -> x <> x0 \/ y <> y0 -> 0 < Rc -> 0 < Rs -> Rc <> Rs -> 0 < d_l -> d_s <> 0 -> 0 < sigma ->
  deflection_scales l (fun u v => reduced_deflection_angle_pseudo_jaffe x0 y0 mass Rc Rs u v d_l sigma 0) (fun u v => reduced_deflection_angle_pseudo_jaffe (l * x0) (l * y0) (l ^ 2 * mass) (l * Rc) (l * Rs) u v d_l sigma 0) x y /\
  convergence_scales l (fun u v => convergence_pseudo_jaffe x0 y0 mass Rc Rs u v d_l sigma 0) (fun u v => convergence_pseudo_jaffe (l * x0) (l * y0) (l ^ 2 * mass) (l * Rc) (l * Rs) u v d_l sigma 0) x y /\
  exists c, forall u v, potential_scales_up_to c l (fun u v => potential_pseudo_jaffe x0 y0 mass Rc Rs u v d_l d_s d_ls 0) (fun u v => potential_pseudo_jaffe (l * x0) (l * y0) (l ^ 2 * mass) (l * Rc) (l * Rs) u v d_l d_s d_ls 0) u v.
Proof.
  intros L O C S N D DS Sg. split; [|split].
  - assert (J := jaffe_deflection_scales l x0 y0 mass Rc Rs x y d_l L O C S N D sigma 0 Sg (Rle_refl 0)). rewrite Rmult_0_r in J. exact J.
  - apply jaffe_convergence_scales; assumption.
  - exists (jaffe_constant l mass Rc Rs d_l d_s d_ls). intros u v. apply jaffe_potential_scales; assumption.
Qed.
Lemma point_lens_scales l x0 y0 x y Rein s : 0 < l -> x <> x0 \/ y <> y0 -> 0 <= s ->
  deflection_scales l (reduced_deflection_angle_point x0 y0 Rein s) (reduced_deflection_angle_point (l * x0) (l * y0) (l * Rein) (l * s)) x y /\
  potential_scales_up_to ((l * Rein) ^ 2 * ln l) l (potential_point x0 y0 Rein s) (potential_point (l * x0) (l * y0) (l * Rein) (l * s)) x y /\
  convergence_point (l * x0) (l * y0) (l * x) (l * y) = convergence_point x0 y0 x y.
Proof. intros L O S. split; [apply point_deflection_scales; assumption|]. split; [apply point_potential_scales; assumption|apply point_convergence_scales; assumption]. Qed.
Lemma epl_lens_scales l x0 y0 q phi Rein t n c x y s : 0 < l -> 0 < q -> x <> x0 \/ y <> y0 ->
  reduced_deflection_angle_epl (l * x0) (l * y0) q phi (l * Rein) t n c (l * x) (l * y) = bind (reduced_deflection_angle_epl x0 y0 q phi Rein t n c x y) (fun a => Ok (l * fst a, l * snd a)) /\
  potential_epl (l * x0) (l * y0) q phi (l * Rein) t n c (l * x) (l * y) = bind (potential_epl x0 y0 q phi Rein t n c x y) (fun p => Ok (l ^ 2 * p)) /\
  convergence_scales l (convergence_epl x0 y0 q phi Rein t s) (convergence_epl (l * x0) (l * y0) q phi (l * Rein) t (l * s)) x y.
Proof. intros L Q O. split; [apply epl_deflection_scales; assumption|]. split; [apply epl_potential_scales; assumption|apply epl_convergence_scales; assumption]. Qed.
