(** * The formulas of the profiles can be backpropagated through at every point off the centre *)
From Coq Require Import Reals Lra List ZArith.
From Coquelicot Require Import Coquelicot.
From Verif Require Import RealFun Derive1 Geo_Model Const_Model Const_Proofs LensBasic_Model LensBasic_Proofs Jaffe_Model Nfw_Model Nfw_Proofs Nfw2_Proofs Tnfw_Model Multipole_Model Epl_Model Light_Model
  Ad_Model Ad_Spec Ad_Proofs AdLens_Model AdLens_Spec AdLens_Proofs Rev_Model Rev_Spec.
Import ListNotations.
Local Open Scope R_scope.

Section Rules.
Variable env : nat -> R.
Notation tm := (tame env).
Lemma tm_var n : tm (Var n). Proof. exact I. Qed.
Lemma tm_cst r : tm (Cst r). Proof. exact I. Qed.
Lemma tm_add a b : tm a -> tm b -> tm (Add a b). Proof. split; assumption. Qed.
Lemma tm_sub a b : tm a -> tm b -> tm (Sub a b). Proof. split; assumption. Qed.
Lemma tm_mul a b : tm a -> tm b -> tm (Mul a b). Proof. split; assumption. Qed.
Lemma tm_neg a : tm a -> tm (Neg a). Proof. auto. Qed.
Lemma tm_exp a : tm a -> tm (Exp a). Proof. auto. Qed.
Lemma tm_sin a : tm a -> tm (Sin a). Proof. auto. Qed.
Lemma tm_cos a : tm a -> tm (Cos a). Proof. auto. Qed.
Lemma tm_atan a : tm a -> tm (Atan a). Proof. auto. Qed.
Lemma tm_pow a n : tm a -> tm (Pow a n). Proof. auto. Qed.
Lemma tm_div a b : tm a -> tm b -> ev env b <> 0 -> tm (Div a b). Proof. cbn [tame]. tauto. Qed.
Lemma tm_sqrt a : tm a -> 0 < ev env a -> tm (Sqrt a). Proof. cbn [tame]. tauto. Qed.
Lemma tm_ln a : tm a -> 0 < ev env a -> tm (Ln a). Proof. cbn [tame]. tauto. Qed.
Lemma tm_atanh a : tm a -> -1 < ev env a < 1 -> tm (Atanh a). Proof. cbn [tame]. tauto. Qed.
Lemma tm_acos a : tm a -> -1 < ev env a < 1 -> tm (Acos a). Proof. cbn [tame]. tauto. Qed.
Lemma tm_acosh a : tm a -> 1 < ev env a -> tm (Acosh a). Proof. cbn [tame]. tauto. Qed.
Lemma tm_rpow a p : tm a -> tm p -> 0 < ev env a -> tm (RPow a p). Proof. cbn [tame]. tauto. Qed.
Lemma tm_atan2 a b : tm a -> tm b -> ev env a <> 0 \/ ev env b <> 0 -> tm (Atan2 a b). Proof. cbn [tame]. tauto. Qed.
Lemma tm_nan a : tm a -> tm (NanToNum a). Proof. auto. Qed.
Lemma tm_pick f a b : tm a -> tm b -> tm (f (ev env a) (ev env b)) -> tm (Pick f a b). Proof. cbn [tame]. tauto. Qed.
End Rules.
Ltac tmstep :=
  match goal with
  | H : tame ?a ?e |- tame ?a ?e => exact H
  | |- tame _ (Var _) => exact I
  | |- tame _ (Cst _) => exact I
  | |- tame _ (Add _ _) => apply tm_add
  | |- tame _ (Sub _ _) => apply tm_sub
  | |- tame _ (Mul _ _) => apply tm_mul
  | |- tame _ (Neg _) => apply tm_neg
  | |- tame _ (Exp _) => apply tm_exp
  | |- tame _ (Sin _) => apply tm_sin
  | |- tame _ (Cos _) => apply tm_cos
  | |- tame _ (Atan _) => apply tm_atan
  | |- tame _ (Pow _ _) => apply tm_pow
  | |- tame _ (Div _ _) => apply tm_div; [| |cbn [ev]]
  | |- tame _ (Sqrt _) => apply tm_sqrt; [|cbn [ev]]
  | |- tame _ (Ln _) => apply tm_ln; [|cbn [ev]]
  | |- tame _ (RPow _ _) => apply tm_rpow; [| |cbn [ev]]
  end.
Ltac tms := repeat tmstep.

Section Profiles.
Variable a : nat -> R.
Notation ok := (tame a).
Notation "'v' n" := (a n%nat) (at level 1, format "'v' n").

(** the distance from the centre *)
Lemma tm_distance x y : ok x -> ok y -> ev a x <> 0 \/ ev a y <> 0 -> ok (Sqrt (Add (Pow x 2) (Pow y 2))).
Proof. intros Hx Hy H. tms. apply norm2_pos, H. Qed.
Lemma tm_soft x y s : ok x -> ok y -> ok s -> ev a x <> 0 \/ ev a y <> 0 -> ok (Add (Sqrt (Add (Pow x 2) (Pow y 2))) s).
Proof. intros Hx Hy Hs H. apply tm_add; [apply tm_distance; assumption|exact Hs]. Qed.
Lemma tm_turned x y x0 y0 phi : ok x -> ok y -> ok x0 -> ok y0 -> ok phi -> ok (fst (turned x y x0 y0 phi)) /\ ok (snd (turned x y x0 y0 phi)).
Proof. intros; split; cbn [turned t_translate_rotate fst snd]; tms. Qed.
Lemma tm_derotate u w phi : ok u -> ok w -> ok phi -> ok (fst (t_derotate u w (Some phi))) /\ ok (snd (t_derotate u w (Some phi))).
Proof. intros; split; cbn [t_derotate fst snd]; tms. Qed.

(** ** Mass sheet, external shear: everywhere *)
Lemma mass_sheet_tm x0 y0 k x y : ok x0 -> ok y0 -> ok k -> ok x -> ok y ->
  ok (fst (t_deflection_mass_sheet x0 y0 k x y)) /\ ok (snd (t_deflection_mass_sheet x0 y0 k x y)) /\ ok (t_potential_mass_sheet x0 y0 k x y).
Proof. intros; split; [|split]; cbn [t_deflection_mass_sheet t_potential_mass_sheet t_translate_rotate fst snd]; tms; lra. Qed.
Lemma shear_tm x0 y0 g1 g2 x y : ok x0 -> ok y0 -> ok g1 -> ok g2 -> ok x -> ok y ->
  ok (fst (t_deflection_external_shear x0 y0 g1 g2 x y)) /\ ok (snd (t_deflection_external_shear x0 y0 g1 g2 x y)) /\ ok (t_potential_external_shear x0 y0 g1 g2 x y).
Proof. intros; split; [|split]; cbn [t_deflection_external_shear t_potential_external_shear t_translate_rotate fst snd]; tms. Qed.

(** ** SIS, Point *)
Section Soft.
Variables x y x0 y0 s : expr.
Hypothesis Hx : ok x.
Hypothesis Hy : ok y.
Hypothesis Hx0 : ok x0.
Hypothesis Hy0 : ok y0.
Hypothesis Hs : ok s.
Hypothesis Hoff : off a x y x0 y0.
Hypothesis Hs0 : 0 <= ev a s.
Let r := Add (Sqrt (Add (Pow (Sub x x0) 2) (Pow (Sub y y0) 2))) s.
Lemma r_tm : ok r.
Proof. apply tm_soft; [apply tm_sub; assumption|apply tm_sub; assumption|exact Hs|apply (off_sub a), Hoff]. Qed.
Lemma r_pos : 0 < ev a r.
Proof. apply soft_pos; [apply (off_sub a), Hoff|exact Hs0]. Qed.
Lemma sis_tm R : ok R ->
  ok (fst (t_deflection_sis x0 y0 R s x y)) /\ ok (snd (t_deflection_sis x0 y0 R s x y)) /\ ok (t_potential_sis x0 y0 R s x y) /\ ok (t_convergence_sis x0 y0 R s x y).
Proof.
  intros HR. pose proof r_tm as O; pose proof r_pos as P. unfold t_deflection_sis, t_potential_sis, t_convergence_sis. cbn [t_translate_rotate fst snd]. fold r.
  split; [|split; [|split]]; tms; cbn [ev] in P; lra.
Qed.
Lemma point_tm R : ok R ->
  ok (fst (t_deflection_point x0 y0 R s x y)) /\ ok (snd (t_deflection_point x0 y0 R s x y)) /\ ok (t_potential_point x0 y0 R s x y).
Proof.
  intros HR. pose proof r_tm as O; pose proof r_pos as P. unfold t_deflection_point, t_potential_point. cbn [t_translate_rotate fst snd]. fold r.
  split; [|split]; tms; try (apply pow_nonzero); cbn [ev] in P; lra.
Qed.

(** ** Pseudo Jaffe *)
Lemma jaffe_k_tm m Rc Rs d sg : ok m -> ok Rc -> ok Rs -> ok d -> ok sg -> 0 < ev a Rc -> 0 < ev a Rs -> ev a d <> 0 -> ev a sg <> 0 ->
  ok (t_convergence_0_pseudo_jaffe m Rc Rs d sg).
Proof.
  intros ????? Pc Ps Pd Pg. unfold t_convergence_0_pseudo_jaffe. tms. pose proof PI_RGT_0. pose proof arcsec_to_rad_pos.
  nzs; lra.
Qed.
Lemma jaffe_tm m Rc Rs d sg : ok m -> ok Rc -> ok Rs -> ok d -> ok sg -> 0 < ev a Rc -> 0 < ev a Rs -> ev a Rc <> ev a Rs -> ev a d <> 0 -> ev a sg <> 0 ->
  ok (fst (t_deflection_pseudo_jaffe x0 y0 m Rc Rs x y d sg s)) /\ ok (snd (t_deflection_pseudo_jaffe x0 y0 m Rc Rs x y d sg s)).
Proof.
  intros Om Oc Os Od Og Pc Ps Pn Pd Pg. pose proof (jaffe_k_tm m Rc Rs d sg Om Oc Os Od Og Pc Ps Pd Pg) as OK.
  pose proof r_tm as O; pose proof r_pos as P. unfold t_deflection_pseudo_jaffe. cbn [t_translate_rotate fst snd]. fold r.
  assert (Hc : forall R, 0 < ev a R -> 0 < 1 + (ev a r / ev a R) ^ 2) by (intros R _; pose proof (sq_ge0 (ev a r / ev a R)); lra).
  pose proof (Hc Rc Pc) as H1; pose proof (Hc Rs Ps) as H2. pose proof (sqrt_lt_R0 _ H1) as H3; pose proof (sqrt_lt_R0 _ H2) as H4.
  clearbody r. split; tms; try lra.
  all: apply Rmult_integral_contrapositive_currified; lra.
Qed.
End Soft.
Lemma jaffe_mass_tm x y x0 y0 s m Rc Rs d sg ds dls : ok x -> ok y -> ok x0 -> ok y0 -> ok s -> 0 <= ev a s ->
  ok m -> ok Rc -> ok Rs -> ok d -> ok sg -> ok ds -> ok dls ->
  0 < ev a Rc -> 0 < ev a Rs -> ev a Rc <> ev a Rs -> ev a d <> 0 -> ev a sg <> 0 -> ev a ds <> 0 ->
  ok (t_potential_pseudo_jaffe x0 y0 m Rc Rs x y d ds dls s) /\ ok (t_convergence_pseudo_jaffe x0 y0 m Rc Rs x y d sg s).
Proof.
  intros Ox Oy Ox0 Oy0 Os0 S0 Om Oc Os Od Og Ods Odls Pc Ps Pn Pd Pg Pds.
  pose proof (jaffe_k_tm m Rc Rs d sg Om Oc Os Od Og Pc Ps Pd Pg) as OK.
  pose proof (jaffe_k_tm m Rc Rs d (Cst 1) Om Oc Os Od (tm_cst _ 1) Pc Ps Pd ltac:(cbn [ev]; lra)) as OK1.
  unfold t_potential_pseudo_jaffe, t_convergence_pseudo_jaffe. cbn [t_translate_rotate fst snd].
  assert (Hc : forall R, 0 < ev a R -> 0 < ev a R ^ 2 + ((ev a x - ev a x0) ^ 2 + (ev a y - ev a y0) ^ 2 + ev a s))
    by (intros R HR; pose proof (sq_ge0 (ev a x - ev a x0)); pose proof (sq_ge0 (ev a y - ev a y0)); pose proof (pow_lt _ 2 HR); lra).
  pose proof (Hc Rc Pc) as H1; pose proof (Hc Rs Ps) as H2. pose proof (sqrt_lt_R0 _ H1) as H3; pose proof (sqrt_lt_R0 _ H2) as H4.
  split; tms; lra.
Qed.

(** ** SIE: everywhere when softened *)
Section Sie.
Variables x y x0 y0 q phi s : expr.
Hypothesis Hx : ok x.
Hypothesis Hy : ok y.
Hypothesis Hx0 : ok x0.
Hypothesis Hy0 : ok y0.
Hypothesis Hq : ok q.
Hypothesis Hphi : ok phi.
Hypothesis Hs : ok s.
Hypothesis Hoff : off a x y x0 y0 \/ 0 < ev a s.
Hypothesis Hs0 : 0 <= ev a s.
Hypothesis Hq1 : 0 < ev a q <= 1.
Let X := fst (turned x y x0 y0 phi).
Let Y := snd (turned x y x0 y0 phi).
Let q' := Where (Eq q (Cst 1)) (Sub q (Cst (1 / 10 ^ 6))) q.
Lemma off_XY : ev a X <> 0 \/ ev a Y <> 0 \/ 0 < ev a s.
Proof. destruct Hoff as [H|H]; [destruct (off_turned a x y x0 y0 phi H); auto|auto]. Qed.
Lemma q'_tm : ok q'.
Proof. unfold q'. cbn [tame]. tauto. Qed.
Lemma q'_range : 0 < ev a q' < 1.
Proof. unfold q'. cbn [ev]. destruct (Req_EM_T (ev a q) 1); lra. Qed.
Lemma sie_tm R : ok R ->
  ok (fst (t_deflection_sie x0 y0 q phi R s x y)) /\ ok (snd (t_deflection_sie x0 y0 q phi R s x y)).
Proof.
  intros HR. destruct (tm_turned x y x0 y0 phi Hx Hy Hx0 Hy0 Hphi) as [OX OY]. fold X in OX; fold Y in OY.
  pose proof q'_tm as OQ; pose proof q'_range as PQ; pose proof off_XY as HO.
  change (t_deflection_sie x0 y0 q phi R s x y) with
    (let q2_ := Pow q' 2 in let f := Sqrt (Sub (Cst 1) q2_) in let k := Div (Mul R (Sqrt q')) f in
     let psi := Sqrt (Add (Mul q2_ (Add (Pow X 2) (Pow s 2))) (Pow Y 2)) in
     t_derotate (Mul k (Atan (Div (Mul f X) (Add psi s)))) (Mul k (Atanh (Div (Mul f Y) (Add psi (Mul q2_ s))))) (Some phi)).
  cbv zeta. clearbody q' X Y.
  pose proof (sie_psi2_pos (ev a q') (ev a s) PQ (ev a X) (ev a Y) HO) as P2.
  pose proof (sqrt_lt_R0 _ P2) as P1. assert (Pq2 : 0 < ev a q' ^ 2) by (apply pow_lt; lra). assert (F2 : 0 < 1 - ev a q' ^ 2) by nra.
  pose proof (sqrt_lt_R0 _ F2) as F1. assert (Pq2s : 0 <= ev a q' ^ 2 * ev a s) by (apply Rmult_le_pos; lra).
  pose proof (sie_w_bound (ev a q') (ev a s) PQ Hs0 (ev a X) (ev a Y) HO) as W.
  apply tm_derotate; [| |exact Hphi]; tms; try lra.
  apply tm_atanh; [tms; try lra|]. cbn [ev]. exact W.
Qed.
Lemma psi2_pos : 0 < ev a q ^ 2 * (ev a X ^ 2 + ev a s ^ 2) + ev a Y ^ 2.
Proof.
  pose proof off_XY as HO. clearbody X Y. clear Hoff.
    pose proof (sq_ge0 (ev a X)) as SX; pose proof (sq_ge0 (ev a Y)) as SY; pose proof (sq_ge0 (ev a s)) as SS. assert (Q : 0 < ev a q ^ 2) by (apply pow_lt; lra).
    assert (N : 0 <= ev a q ^ 2 * (ev a X ^ 2 + ev a s ^ 2)) by (apply Rmult_le_pos; lra).
    destruct HO as [H|[H|H]].
    - assert (0 < ev a q ^ 2 * (ev a X ^ 2 + ev a s ^ 2)) by (apply Rmult_lt_0_compat; [exact Q|pose proof (pow2_gt_0 _ H); lra]). lra.
    - pose proof (pow2_gt_0 _ H); lra.
    - assert (0 < ev a q ^ 2 * (ev a X ^ 2 + ev a s ^ 2)) by (apply Rmult_lt_0_compat; [exact Q|pose proof (pow_lt _ 2 H); lra]). lra.
Qed.
Lemma sie_kappa_tm R : ok R -> ok (t_convergence_sie x0 y0 q phi R s x y).
Proof.
  intros HR. destruct (tm_turned x y x0 y0 phi Hx Hy Hx0 Hy0 Hphi) as [OX OY]. fold X in OX; fold Y in OY. pose proof off_XY as HO.
  change (t_convergence_sie x0 y0 q phi R s x y) with
    (Div (Mul (Mul (Cst (/ 2)) (Sqrt q)) R) (Sqrt (Add (Mul (Pow q 2) (Add (Pow X 2) (Pow s 2))) (Pow Y 2)))).
  pose proof psi2_pos as P2. clearbody X Y.
  pose proof (sqrt_lt_R0 _ P2) as P1. tms; try lra.
Qed.
Lemma sie_potential_tm R : ok R -> ok (t_potential_sie x0 y0 q phi R s x y).
Proof.
  intros HR. destruct (sie_tm R HR) as [OAx OAy].
  destruct (tm_turned x y x0 y0 phi Hx Hy Hx0 Hy0 Hphi) as [OX OY]. fold X in OX; fold Y in OY. pose proof (sie_kappa_tm R HR) as OK.
  destruct (tm_derotate _ _ (Neg phi) OAx OAy (tm_neg _ _ Hphi)) as [OBx OBy].
  change (t_potential_sie x0 y0 q phi R s x y) with
    (let Ax := fst (t_derotate (fst (t_deflection_sie x0 y0 q phi R s x y)) (snd (t_deflection_sie x0 y0 q phi R s x y)) (Some (Neg phi))) in
     let Ay := snd (t_derotate (fst (t_deflection_sie x0 y0 q phi R s x y)) (snd (t_deflection_sie x0 y0 q phi R s x y)) (Some (Neg phi))) in
     let k := Mul (Mul R (Sqrt q)) s in let mx := AtLeast (1 / 10 ^ 6) s in
     let psi := Sqrt (Add (Mul (Pow q 2) (Add (Pow X 2) (Pow s 2))) (Pow Y 2)) in
     Add (Sub (Add (Mul X Ax) (Mul Y Ay)) (Mul k (Ln (Sqrt (Add (Pow (Add psi mx) 2) (Mul (Sub (Cst 1) (Pow q 2)) (Pow X 2)))))))
         (Mul k (Ln (Mul (Add (Cst 1) q) mx)))).
  cbv zeta. pose proof (psi2_pos) as P2. pose proof (sqrt_lt_R0 _ P2) as P1.
  assert (OM : ok (AtLeast (1 / 10 ^ 6) s)) by (exact Hs).
  assert (PM : 0 < ev a (AtLeast (1 / 10 ^ 6) s)) by (cbn [ev]; pose proof (Rmax_r (ev a s) (1 / 10 ^ 6)); lra).
  match type of OBx with tame _ ?e => set (Ax := e) in * end. match type of OBy with tame _ ?e => set (Ay := e) in * end.
  set (mx := AtLeast (1 / 10 ^ 6) s) in *. clearbody X Y Ax Ay mx.
  pose proof (sq_ge0 (ev a X)). assert (0 <= (1 - ev a q ^ 2) * ev a X ^ 2) by (apply Rmult_le_pos; nra).
  assert (P3 : 0 < (sqrt (ev a q ^ 2 * (ev a X ^ 2 + ev a s ^ 2) + ev a Y ^ 2) + ev a mx) ^ 2 + (1 - ev a q ^ 2) * ev a X ^ 2)
    by (assert (0 < (sqrt (ev a q ^ 2 * (ev a X ^ 2 + ev a s ^ 2) + ev a Y ^ 2) + ev a mx) ^ 2) by (apply pow_lt; lra); lra).
  pose proof (sqrt_lt_R0 _ P3) as P4.
  tms; try lra. apply Rmult_lt_0_compat; lra.
Qed.
End Sie.

(** ** NFW *)
Lemma scale_radius_tm rho m c D : ok rho -> ok m -> ok c -> ok D -> 0 < ev a rho -> 0 < ev a m -> 0 < ev a c -> 0 < ev a D ->
  ok (t_scale_radius_nfw rho m c D) /\ 0 < ev a (t_scale_radius_nfw rho m c D).
Proof.
  intros Or Om Oc OD Pr Pm Pc PD. pose proof PI_RGT_0.
  assert (K : 0 < 4 * PI * ev a D * ev a rho) by (repeat match goal with |- 0 < _ * _ => apply Rmult_lt_0_compat end; lra).
  unfold t_scale_radius_nfw. split; [tms; try lra; try (apply Rdiv_lt_0_compat; lra)|].
  cbn [ev]. apply Rdiv_lt_0_compat; [apply exp_pos|exact Pc].
Qed.
Lemma scale_density_tm rho c D : ok rho -> ok c -> ok D -> 0 < ev a c -> ok (t_scale_density_nfw rho c D).
Proof. intros Or Oc OD Pc. pose proof (ln_excess _ Pc). unfold t_scale_density_nfw. tms; lra. Qed.
Lemma tm_inner x b : ok x -> 0 < ev a x -> 0 < b < 1 -> ok (AtMost b x) /\ 0 < ev a (AtMost b x) < 1.
Proof. intros Ox Px Pb. split; [exact Ox|]. cbn [ev]. split; [apply Rmin_glb_lt; lra|]. pose proof (Rmin_r (ev a x) b). lra. Qed.
Lemma tm_outer x b : ok x -> 1 < b -> ok (AtLeast b x) /\ 1 < ev a (AtLeast b x).
Proof. intros Ox Pb. split; [exact Ox|]. cbn [ev]. pose proof (Rmax_r (ev a x) b). lra. Qed.
Lemma tm_acosh_inner x : ok x -> 0 < ev a x < 1 -> ok (Acosh (Div (Cst 1) x)).
Proof.
  intros Ox Px. apply tm_acosh; [tms; lra|]. cbn [ev]. apply Rmult_lt_reg_r with (ev a x); [lra|]. unfold Rdiv. rewrite Rmult_assoc, Rinv_l; lra.
Qed.
Lemma tm_acos_outer x : ok x -> 1 < ev a x -> ok (Acos (Div (Cst 1) x)).
Proof.
  intros Ox Px. apply tm_acos; [tms; lra|]. cbn [ev]. assert (0 < 1 / ev a x) by (apply Rdiv_lt_0_compat; lra).
  assert (1 / ev a x < 1) by (apply Rmult_lt_reg_r with (ev a x); [lra|]; unfold Rdiv; rewrite Rmult_assoc, Rinv_l; lra). lra.
Qed.
(** the two branches of the where of the NFW functions *)
Lemma nfw_where x p n z : ok x -> ok p -> ok n -> ok z -> ok (Where (Lt (Cst 1) x) p (Where (Lt x (Cst 1)) n z)).
Proof. cbn [tame]. tauto. Qed.
Lemma f_nfw_tm x : ok x -> 0 < ev a x -> ok (t_f_nfw x).
Proof.
  intros Ox Px. pose proof eps_pos as E. unfold t_f_nfw. apply nfw_where; [exact Ox| | |exact I].
  - destruct (tm_outer x (1 + eps_nfw) Ox ltac:(lra)) as [O P]. set (b := AtLeast _ x) in *. clearbody b.
    assert (0 < (ev a b - 1) / (ev a b + 1)) by (apply Rdiv_lt_0_compat; lra). assert (0 < ev a b ^ 2 - 1) by nra. pose proof (sqrt_lt_R0 (ev a b ^ 2 - 1) ltac:(assumption)).
    tms; lra.
  - destruct (tm_inner x (1 - eps_nfw) Ox Px ltac:(lra)) as [O P]. set (b := AtMost _ x) in *. clearbody b.
    assert (Q : 0 < (1 - ev a b) / (1 + ev a b)) by (apply Rdiv_lt_0_compat; lra). assert (0 < 1 - ev a b ^ 2) by nra. pose proof (sqrt_lt_R0 (1 - ev a b ^ 2) ltac:(assumption)).
    assert (Q1 : (1 - ev a b) / (1 + ev a b) < 1) by (apply Rmult_lt_reg_r with (1 + ev a b); [lra|]; unfold Rdiv; rewrite Rmult_assoc, Rinv_l; lra).
    tms; try lra. apply tm_atanh; [tms; lra|]. cbn [ev]. pose proof (sqrt_lt_R0 _ Q). pose proof (sqrt_lt_1 ((1 - ev a b) / (1 + ev a b)) 1 ltac:(lra) ltac:(lra) Q1) as K. rewrite sqrt_1 in K. lra.
Qed.
Lemma h_nfw_tm x : ok x -> 0 < ev a x -> ok (t_h_nfw x).
Proof.
  intros Ox Px. pose proof eps_pos as E. unfold t_h_nfw. apply tm_add; [tms; lra|]. apply nfw_where; [exact Ox| | |exact I].
  - destruct (tm_outer x (1 + eps_nfw) Ox ltac:(lra)) as [O P]. set (b := AtLeast _ x) in *. clearbody b.
    assert (0 < ev a b ^ 2 - 1) by nra. pose proof (sqrt_lt_R0 (ev a b ^ 2 - 1) ltac:(assumption)). pose proof (tm_acos_outer b O P). tms; lra.
  - destruct (tm_inner x (1 - eps_nfw) Ox Px ltac:(lra)) as [O P]. set (b := AtMost _ x) in *. clearbody b.
    assert (0 < 1 - ev a b ^ 2) by nra. pose proof (sqrt_lt_R0 (1 - ev a b ^ 2) ltac:(assumption)). pose proof (tm_acosh_inner b O P). tms; lra.
Qed.
Lemma g_nfw_tm x : ok x -> 0 < ev a x -> ok (t_g_nfw x).
Proof.
  intros Ox Px. pose proof eps_pos as E. unfold t_g_nfw. apply tm_add; [tms; lra|]. apply nfw_where; [exact Ox| | |exact I].
  - destruct (tm_outer x (1 + eps_nfw) Ox ltac:(lra)) as [O P]. set (b := AtLeast _ x) in *. clearbody b.
    pose proof (tm_acos_outer b O P). tms.
  - destruct (tm_inner x (1 - eps_nfw) Ox Px ltac:(lra)) as [O P]. set (b := AtMost _ x) in *. clearbody b.
    pose proof (tm_acosh_inner b O P). tms.
Qed.
Section Nfw.
Variables x y x0 y0 s rho m c D d : expr.
Hypothesis Hx : ok x.
Hypothesis Hy : ok y.
Hypothesis Hx0 : ok x0.
Hypothesis Hy0 : ok y0.
Hypothesis Hs : ok s.
Hypothesis Hoff : off a x y x0 y0.
Hypothesis Hs0 : 0 <= ev a s.
Hypothesis Hrho : ok rho.
Hypothesis Hm : ok m.
Hypothesis Hc : ok c.
Hypothesis HD : ok D.
Hypothesis Hd : ok d.
Hypothesis Prho : 0 < ev a rho.
Hypothesis Pm : 0 < ev a m.
Hypothesis Pc : 0 < ev a c.
Hypothesis PD : 0 < ev a D.
Hypothesis Pd : 0 < ev a d.
Let th := Add (Sqrt (Add (Pow (Sub x x0) 2) (Pow (Sub y y0) 2))) s.
Let rs := t_scale_radius_nfw rho m c D.
Let xi := Mul (Mul d th) (Cst arcsec_to_rad).
Let r := Div xi rs.
Lemma nfw_scales : ok th /\ 0 < ev a th /\ ok rs /\ 0 < ev a rs /\ ok xi /\ 0 < ev a xi /\ ok r /\ 0 < ev a r.
Proof.
  pose proof (r_tm x y x0 y0 s Hx Hy Hx0 Hy0 Hs Hoff) as O1. pose proof (r_pos x y x0 y0 s Hoff Hs0) as P1. fold th in O1, P1.
  destruct (scale_radius_tm rho m c D Hrho Hm Hc HD Prho Pm Pc PD) as [O2 P2]. fold rs in O2, P2.
  assert (O3 : ok xi) by (unfold xi; tms). assert (P3 : 0 < ev a xi).
  { unfold xi; cbn [ev]. apply Rmult_lt_0_compat; [apply Rmult_lt_0_compat; assumption|apply arcsec_to_rad_pos]. }
  assert (O4 : ok r) by (unfold r; tms; lra). assert (P4 : 0 < ev a r) by (unfold r; cbn [ev]; apply Rdiv_lt_0_compat; assumption). tauto.
Qed.
Lemma nfw_tm : ok (fst (t_deflection_nfw x0 y0 m c rho d x y D s)) /\ ok (snd (t_deflection_nfw x0 y0 m c rho d x y D s)).
Proof.
  destruct nfw_scales as (O1 & P1 & O2 & P2 & O3 & P3 & O4 & P4). pose proof (h_nfw_tm r O4 P4) as O5.
  pose proof (scale_density_tm rho c D Hrho Hc HD Pc) as O6.
  unfold t_deflection_nfw. cbn [t_translate_rotate fst snd]. fold th rs. fold xi. fold r. set (h := t_h_nfw r) in *. set (ds := t_scale_density_nfw rho c D) in *.
  clearbody h ds r xi rs th. split; tms; lra.
Qed.
Lemma nfw_mass_tm sg : ok sg -> ev a sg <> 0 ->
  (ev a r <> 1 -> ok (t_convergence_nfw sg rho x0 y0 m c x y d D s)) /\ ok (t_potential_nfw sg rho x0 y0 m c d x y D s).
Proof.
  intros Og Pg.
  destruct nfw_scales as (O1 & P1 & O2 & P2 & O3 & P3 & O4 & P4). pose proof (f_nfw_tm r O4 P4) as O5. pose proof (g_nfw_tm r O4 P4) as O5'.
  pose proof (scale_density_tm rho c D Hrho Hc HD Pc) as O6.
  unfold t_convergence_nfw, t_potential_nfw, t_convergence_s_nfw. cbn [t_translate_rotate fst snd]. fold th rs. fold xi. fold r.
  set (f := t_f_nfw r) in *. set (g := t_g_nfw r) in *. set (ds := t_scale_density_nfw rho c D) in *.
  clearbody f g ds r xi rs th. pose proof arcsec_to_rad_pos as A. pose proof (pow_lt _ 2 A). pose proof (pow_lt _ 2 Pd).
  split; [intros N1; assert (ev a r ^ 2 - 1 <> 0) by (intros K; assert (ev a r = 1) by nra; lra)|].
  all: tms; try lra. apply Rmult_integral_contrapositive_currified; lra.
Qed.
End Nfw.

(** ** TNFW *)
Lemma clear_lt x b p q : ok x -> ok p -> ok q -> ok (Where (Lt x (Cst b)) p q).
Proof. cbn [tame]. tauto. Qed.
Lemma clear_gt x b p q : ok x -> ok p -> ok q -> ok (Where (Lt (Cst b) x) p q).
Proof. cbn [tame]. tauto. Qed.
Lemma F_tnfw_tm x : ok x -> 0 < ev a x -> ok (t_F_tnfw x).
Proof.
  intros Ox Px. unfold t_F_tnfw. apply clear_lt; [exact Ox| |].
  - destruct (tm_inner x (1 - 1 / 1000) Ox Px ltac:(lra)) as [O P]. set (b := AtMost _ x) in *. clearbody b.
    assert (0 < 1 - ev a b ^ 2) by nra. pose proof (sqrt_lt_R0 (1 - ev a b ^ 2) ltac:(assumption)). pose proof (tm_acosh_inner b O P). tms; lra.
  - apply clear_gt; [exact Ox| |].
    + destruct (tm_outer x (1 + 1 / 1000) Ox ltac:(lra)) as [O P]. set (b := AtLeast _ x) in *. clearbody b.
      assert (0 < ev a b ^ 2 - 1) by nra. pose proof (sqrt_lt_R0 (ev a b ^ 2 - 1) ltac:(assumption)). pose proof (tm_acos_outer b O P). tms; lra.
    + tms; lra.
Qed.
Lemma P_tnfw_tm x : ok x -> 0 < ev a x -> ok (t_P_tnfw x).
Proof.
  intros Ox Px. unfold t_P_tnfw. apply clear_lt; [exact Ox| |].
  - destruct (tm_inner x (1 - 1 / 10000) Ox Px ltac:(lra)) as [O P]. set (b := AtMost _ x) in *. clearbody b.
    pose proof (tm_acosh_inner b O P). tms; lra.
  - apply clear_gt; [exact Ox| |].
    + destruct (tm_outer x (1 + 1 / 10000) Ox ltac:(lra)) as [O P]. set (b := AtLeast _ x) in *. clearbody b.
      pose proof (tm_acos_outer b O P). tms; lra.
    + tms; lra.
Qed.
Lemma hyp_tm g t : ok g -> ok t -> 0 < ev a t -> ok (Sqrt (Add (Pow t 2) (Pow g 2))) /\ 0 < ev a (Sqrt (Add (Pow t 2) (Pow g 2))).
Proof.
  intros Og Ot Pt. assert (K : 0 < ev a t ^ 2 + ev a g ^ 2) by (pose proof (sq_ge0 (ev a g)); pose proof (pow_lt _ 2 Pt); lra).
  split; [tms; exact K|cbn [ev]; apply sqrt_lt_R0, K].
Qed.
Lemma L_tnfw_tm g t : ok g -> ok t -> 0 < ev a g -> 0 < ev a t -> ok (t_L_tnfw g t).
Proof.
  intros Og Ot Pg Pt. destruct (hyp_tm g t Og Ot Pt) as [O P]. unfold t_L_tnfw. set (h := Sqrt _) in *. clearbody h.
  tms; [lra|]. apply Rdiv_lt_0_compat; lra.
Qed.
Lemma mass_tnfw_tm r Rs t M : ok r -> ok Rs -> ok t -> ok M -> 0 < ev a r -> 0 < ev a Rs -> 0 < ev a t -> ok (t_mass_enclosed_2d_tnfw r Rs t M).
Proof.
  intros Or OR Ot OM Pr PR Pt. assert (Og : ok (Div r Rs)) by (tms; lra). assert (Pg : 0 < ev a (Div r Rs)) by (cbn [ev]; apply Rdiv_lt_0_compat; assumption).
  pose proof (F_tnfw_tm _ Og Pg) as OF. pose proof (L_tnfw_tm _ _ Og Ot Pg Pt) as OL. destruct (hyp_tm _ _ Og Ot Pt) as [OH PH].
  unfold t_mass_enclosed_2d_tnfw. set (F := t_F_tnfw _) in *. set (L := t_L_tnfw _ _) in *. set (h := Sqrt _) in *. set (g := Div r Rs) in *. clearbody F L h g.
  tms; try lra. apply pow_nonzero. pose proof (sq_ge0 (ev a t)); lra.
Qed.

Section Tnfw.
Variables x y x0 y0 s Rs t M d : expr.
Hypothesis Hx : ok x.
Hypothesis Hy : ok y.
Hypothesis Hx0 : ok x0.
Hypothesis Hy0 : ok y0.
Hypothesis Hs : ok s.
Hypothesis Hoff : off a x y x0 y0.
Hypothesis Hs0 : 0 <= ev a s.
Hypothesis HRs : ok Rs.
Hypothesis Ht : ok t.
Hypothesis HM : ok M.
Hypothesis Hd : ok d.
Hypothesis PR : 0 < ev a Rs.
Hypothesis Pt : 0 < ev a t.
Hypothesis Pd : 0 < ev a d.
Let r := Add (Sqrt (Add (Pow (Sub x x0) 2) (Pow (Sub y y0) 2))) s.
Lemma tnfw_tm : ok (fst (t_deflection_tnfw x0 y0 Rs t x y M d s)) /\ ok (snd (t_deflection_tnfw x0 y0 Rs t x y M d s)).
Proof.
  pose proof (r_tm x y x0 y0 s Hx Hy Hx0 Hy0 Hs Hoff) as O1. pose proof (r_pos x y x0 y0 s Hoff Hs0) as P1. fold r in O1, P1.
  pose proof (mass_tnfw_tm r Rs t M O1 HRs Ht HM P1 PR Pt) as OM. pose proof arcsec_to_rad_pos as PA.
  unfold t_deflection_tnfw. cbn [t_translate_rotate]. unfold t_deflection_tnfw_at. cbn [fst snd]. fold r.
  assert (OD : ok (Mul (Cst (4 * G_over_c2 * rad_to_arcsec)) (Div (t_mass_enclosed_2d_tnfw r Rs t M) (Mul (Mul r d) (Cst arcsec_to_rad))))).
  { clearbody r. tms. nzs; lra. }
  set (dr := Mul _ (Div _ _)) in *. clearbody dr.
  assert (OT : ok (Atan2 (Sub y y0) (Sub x x0))) by (apply tm_atan2; [tms|tms|]; destruct (off_sub a _ _ _ _ Hoff); auto).
  set (th := Atan2 _ _) in *. clearbody th. split; tms.
Qed.
Lemma tnfw_kappa_tm cd : ok cd -> ev a cd <> 0 -> ev a r / ev a Rs <> 1 -> ok (t_convergence_tnfw x0 y0 Rs t x y cd M d s).
Proof.
  intros Oc Pc N0. pose proof (r_tm x y x0 y0 s Hx Hy Hx0 Hy0 Hs Hoff) as O1. pose proof (r_pos x y x0 y0 s Hoff Hs0) as P1. fold r in O1, P1.
  assert (Og : ok (Div r Rs)) by (clearbody r; tms; lra). assert (Pg : 0 < ev a (Div r Rs)) by (cbn [ev]; apply Rdiv_lt_0_compat; assumption).
  change (ev a r / ev a Rs) with (ev a (Div r Rs)) in *.
  pose proof (F_tnfw_tm _ Og Pg) as OF. pose proof (L_tnfw_tm _ _ Og Ht Pg Pt) as OL. destruct (hyp_tm _ _ Og Ht Pt) as [OH PH].
  pose proof arcsec_to_rad_pos as PA. pose proof PI_RGT_0 as PP.
  unfold t_convergence_tnfw. cbn [t_translate_rotate]. fold r. set (g := Div r Rs) in *.
  set (F := t_F_tnfw _) in *. set (L := t_L_tnfw _ _) in *. set (h := Sqrt (Add (Pow t 2) (Pow g 2))) in *. clearbody F L h g.
  assert (OW : ok (Where (Eq g (Cst 1)) (Div (Add (Pow t 2) (Cst 1)) (Cst 3)) (Div (Mul (Add (Pow t 2) (Cst 1)) (Sub (Cst 1) F)) (Sub (Pow g 2) (Cst 1))))).
  { cbn [tame ev]. repeat split; try assumption; try lra. intros K. assert (ev a g = 1) by nra. lra. }
  set (w := Where _ _ _) in *. clearbody w. pose proof (sq_ge0 (ev a t)). tms; try lra; nzs; lra.
Qed.
Lemma tnfw_psi_tm ds dls : ok ds -> ok dls -> ev a ds <> 0 ->
  ok (t_potential_tnfw x0 y0 Rs t x y M d ds dls s).
Proof.
  intros Ods Odls Pds. pose proof (r_tm x y x0 y0 s Hx Hy Hx0 Hy0 Hs Hoff) as O1. pose proof (r_pos x y x0 y0 s Hoff Hs0) as P1. fold r in O1, P1.
  assert (Og : ok (Div r Rs)) by (clearbody r; tms; lra). assert (Pg : 0 < ev a (Div r Rs)) by (cbn [ev]; apply Rdiv_lt_0_compat; assumption).
  change (ev a r / ev a Rs) with (ev a (Div r Rs)) in *.
  pose proof (F_tnfw_tm _ Og Pg) as OF. pose proof (P_tnfw_tm _ Og Pg) as OP. pose proof (L_tnfw_tm _ _ Og Ht Pg Pt) as OL. destruct (hyp_tm _ _ Og Ht Pt) as [OH PH].
  pose proof arcsec_to_rad_pos as PA. pose proof PI_RGT_0 as PP.
  unfold t_potential_tnfw. cbn [t_translate_rotate]. fold r. set (g := Div r Rs) in *.
  set (F := t_F_tnfw _) in *. set (P := t_P_tnfw _) in *. set (L := t_L_tnfw _ _) in *. set (h := Sqrt (Add (Pow t 2) (Pow g 2))) in *. clearbody F P L h g.
  pose proof (sq_ge0 (ev a t)). pose proof (pow_lt _ 2 Pg). tms; try lra; try (apply Rdiv_lt_0_compat; lra); nzs; lra.
Qed.
End Tnfw.

(** ** Multipoles *)
Section Multipole.
Variables x y x0 y0 : expr.
Variable l : list (Z * expr * expr).
Hypothesis Hx : ok x.
Hypothesis Hy : ok y.
Hypothesis Hx0 : ok x0.
Hypothesis Hy0 : ok y0.
Hypothesis Hl : forall m c p, In (m, c, p) l -> (2 <= m)%Z /\ ok c /\ ok p.
Hypothesis Hoff : off a x y x0 y0.
Lemma order_nz m : (2 <= m)%Z -> 1 - IZR m ^ 2 <> 0.
Proof. intros H. apply IZR_le in H. nra. Qed.
Lemma fold_tm (f : Z -> expr -> expr -> expr) : (forall m c p, (2 <= m)%Z -> ok c -> ok p -> ok (f m c p)) ->
  ok (fold_right (fun '(m, c, p) s => Add (f m c p) s) (Cst 0) l).
Proof.
  intros H. clear - H Hl. induction l as [|[[m c] p] k IH]; cbn [fold_right]; [apply tm_cst|].
  apply tm_add; [destruct (Hl m c p (or_introl eq_refl)) as (Hm & Hc & Hp); apply H; assumption|apply IH; intros; apply Hl; right; assumption].
Qed.
Let dx := Sub x x0.
Let dy := Sub y y0.
Let th := Atan2 dy dx.
Lemma th_tm : ok th.
Proof. apply tm_atan2; [apply tm_sub; assumption|apply tm_sub; assumption|]. destruct (off_sub a _ _ _ _ Hoff); auto. Qed.
Lemma multipole_tm : ok (fst (t_deflection_multipole x0 y0 l x y)) /\ ok (snd (t_deflection_multipole x0 y0 l x y)).
Proof.
  pose proof th_tm as OT. unfold t_deflection_multipole. cbn [t_translate_rotate]. fold dx dy. unfold t_deflection_multipole_at. fold th. clearbody th. cbn [fst snd].
  split; apply fold_tm; intros m c p Hm Oc Op; tms; apply order_nz, Hm.
Qed.
Lemma multipole_mass_tm : ok (t_potential_multipole x0 y0 l x y) /\ ok (t_convergence_multipole x0 y0 l x y).
Proof.
  pose proof (tm_distance dx dy (tm_sub _ _ _ Hx Hx0) (tm_sub _ _ _ Hy Hy0) (off_sub a _ _ _ _ Hoff)) as O1.
  pose proof (norm_pos _ _ (off_sub a _ _ _ _ Hoff)) as P1. change (0 < ev a (Sqrt (Add (Pow dx 2) (Pow dy 2)))) in P1. pose proof th_tm as OT.
  unfold t_potential_multipole, t_convergence_multipole. cbn [t_translate_rotate]. fold dx dy. unfold t_potential_multipole_at, t_convergence_multipole_at. fold th.
  set (r := Sqrt _) in *. clearbody r th. split; apply fold_tm; intros m c p Hm Oc Op; tms; [apply order_nz, Hm|lra].
Qed.
End Multipole.

(** ** EPL convergence, Sersic brightness *)
Lemma epl_kappa_tm x y x0 y0 q phi R t s : ok x -> ok y -> ok x0 -> ok y0 -> ok q -> ok phi -> ok R -> ok t -> ok s ->
  0 < ev a q -> 0 < ev a R -> off a x y x0 y0 \/ ev a s <> 0 ->
  ok (t_convergence_epl x0 y0 q phi R t x y s) /\ ok (epl_base x0 y0 q phi R x y s) /\ 0 < ev a (epl_base x0 y0 q phi R x y s).
Proof.
  intros Ox Oy Ox0 Oy0 Oq Op OR Ot Os Pq PR H.
  destruct (tm_turned x y x0 y0 phi Ox Oy Ox0 Oy0 Op) as [OX OY].
  assert (HO : ev a (fst (turned x y x0 y0 phi)) <> 0 \/ ev a (snd (turned x y x0 y0 phi)) <> 0 \/ ev a s <> 0)
    by (destruct H as [H|H]; [destruct (off_turned a x y x0 y0 phi H); auto|auto]).
  unfold t_convergence_epl, epl_base. fold (turned x y x0 y0 phi). rewrite (surjective_pairing (turned x y x0 y0 phi)).
  set (X := fst _) in *. set (Y := snd _) in *. clearbody X Y.
  assert (P2 : 0 < ev a q ^ 2 * ev a X ^ 2 + ev a Y ^ 2 + ev a s ^ 2).
  { pose proof (sq_ge0 (ev a X)) as SX; pose proof (sq_ge0 (ev a Y)) as SY; pose proof (sq_ge0 (ev a s)) as SS. assert (Q : 0 < ev a q ^ 2) by (apply pow_lt; lra).
    assert (N : 0 <= ev a q ^ 2 * ev a X ^ 2) by (apply Rmult_le_pos; lra).
    destruct HO as [K|[K|K]]; pose proof (pow2_gt_0 _ K) as K2; [|lra|lra]. pose proof (Rmult_lt_0_compat _ _ Q K2). lra. }
  pose proof (sqrt_lt_R0 _ P2) as P1. pose proof (sqrt_lt_R0 _ Pq) as P3.
  assert (PB : 0 < ev a R * sqrt (ev a q) / sqrt (ev a q ^ 2 * ev a X ^ 2 + ev a Y ^ 2 + ev a s ^ 2)) by (apply Rdiv_lt_0_compat; [apply Rmult_lt_0_compat; lra|lra]).
  split; [|split; [|exact PB]]; tms; lra.
Qed.
Lemma sersic_tm x y x0 y0 q phi n Re Ie k s : ok x -> ok y -> ok x0 -> ok y0 -> ok q -> ok phi -> ok n -> ok Re -> ok Ie -> ok k -> ok s ->
  ev a q <> 0 -> ev a n <> 0 -> 0 < ev a Re -> 0 <= ev a s -> off a x y x0 y0 ->
  ok (t_brightness_sersic x0 y0 q phi n Re Ie x y k s) /\ ok (sersic_base x0 y0 q phi Re x y s) /\ 0 < ev a (sersic_base x0 y0 q phi Re x y s).
Proof.
  intros Ox Oy Ox0 Oy0 Oq Op On ORe OIe Ok Os Pq Pn PR Ps H.
  destruct (tm_turned x y x0 y0 phi Ox Oy Ox0 Oy0 Op) as [OX OY]. pose proof (off_turned a x y x0 y0 phi H) as HO.
  unfold t_brightness_sersic, sersic_base. fold (turned x y x0 y0 phi). rewrite (surjective_pairing (turned x y x0 y0 phi)).
  set (X := fst _) in *. set (Y := snd _) in *. clearbody X Y.
  assert (OE : ok (Div Y q)) by (tms; exact Pq).
  assert (HO' : ev a X <> 0 \/ ev a (Div Y q) <> 0).
  { destruct HO as [K|K]; [left; exact K|right; cbn [ev]]. apply Rmult_integral_contrapositive_currified; [exact K|apply Rinv_neq_0_compat, Pq]. }
  pose proof (tm_soft X (Div Y q) s OX OE Os HO') as O1. pose proof (soft_pos a X (Div Y q) s HO' Ps) as P1.
  set (e := Add (Sqrt _) s) in *. clearbody e. assert (PB : 0 < ev a e / ev a Re) by (apply Rdiv_lt_0_compat; lra).
  split; [|split; [|exact PB]]; tms; lra.
Qed.
End Profiles.
