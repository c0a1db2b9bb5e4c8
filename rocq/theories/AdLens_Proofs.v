(** * The formulas of the profiles differentiate exactly away from the centre *)
From Coq Require Import Reals Lra List ZArith.
From Coquelicot Require Import Coquelicot.
From Verif Require Import RealFun Derive1 Geo_Model Const_Model Const_Proofs LensBasic_Model LensBasic_Proofs Jaffe_Model Nfw_Model Nfw_Proofs Nfw2_Proofs Tnfw_Model Multipole_Model Epl_Model Light_Model
  Ad_Model Ad_Spec Ad_Proofs AdLens_Model AdLens_Spec.
Import ListNotations.
Local Open Scope R_scope.

Lemma ad_of F t a seed : (forall a, F a = ev a t) -> ok a seed t -> ad_exact F t a seed.
Proof.
  intros E O. destruct (ok_exact _ _ _ O) as (d & V & T & D). exists d. rewrite E. split; [exact V|split; [exact T|]].
  apply (is_derive_ext (fun h => ev (along a seed h) t)); [intros h; symmetry; apply E|exact D].
Qed.
Lemma ad2_of F t a seed : (forall a, F a = (ev a (fst t), ev a (snd t))) -> ok a seed (fst t) -> ok a seed (snd t) -> ad_exact2 F t a seed.
Proof. intros E O1 O2. split; (apply ad_of; [intros b; rewrite E; reflexivity|assumption]). Qed.

Ltac okstep :=
  match goal with
  | H : ok ?a ?s ?e |- ok ?a ?s ?e => exact H
  | |- ok _ _ (Var _) => apply ok_var
  | |- ok _ _ (Cst _) => apply ok_cst
  | |- ok _ _ (Add _ _) => apply ok_add
  | |- ok _ _ (Sub _ _) => apply ok_sub
  | |- ok _ _ (Mul _ _) => apply ok_mul
  | |- ok _ _ (Neg _) => apply ok_neg
  | |- ok _ _ (Exp _) => apply ok_exp
  | |- ok _ _ (Sin _) => apply ok_sin
  | |- ok _ _ (Cos _) => apply ok_cos
  | |- ok _ _ (Atan _) => apply ok_atan
  | |- ok _ _ (Pow _ _) => apply ok_pow
  | |- ok _ _ (Div _ _) => apply ok_div; [| |cbn [ev]]
  | |- ok _ _ (Sqrt _) => apply ok_sqrt; [|right; cbn [ev]]
  | |- ok _ _ (Ln _) => apply ok_ln; [|cbn [ev]]
  | |- ok _ _ (RPow _ _) => apply ok_rpow; [| |cbn [ev]]
  end.
Ltac oks := repeat okstep.

Ltac nzs := repeat match goal with |- (_ * _)%R <> 0 => apply Rmult_integral_contrapositive_currified | |- (_ ^ _)%R <> 0 => apply pow_nonzero end.

Section Profiles.
Variable a : nat -> R.
Variable seed : nat -> option R.
Notation ok := (ok a seed).
Notation "'v' n" := (a n%nat) (at level 1, format "'v' n").

(** the distance from the centre *)
Lemma ok_distance x y : ok x -> ok y -> ev a x <> 0 \/ ev a y <> 0 -> ok (Sqrt (Add (Pow x 2) (Pow y 2))).
Proof. intros Hx Hy H. oks. apply norm2_pos, H. Qed.
Lemma ok_soft x y s : ok x -> ok y -> ok s -> ev a x <> 0 \/ ev a y <> 0 -> ok (Add (Sqrt (Add (Pow x 2) (Pow y 2))) s).
Proof. intros Hx Hy Hs H. apply ok_add; [apply ok_distance; assumption|exact Hs]. Qed.
Lemma soft_pos x y s : ev a x <> 0 \/ ev a y <> 0 -> 0 <= ev a s -> 0 < ev a (Add (Sqrt (Add (Pow x 2) (Pow y 2))) s).
Proof. intros H Hs. cbn [ev]. pose proof (norm_pos _ _ H). lra. Qed.
Definition off (x y x0 y0 : expr) : Prop := ev a x <> ev a x0 \/ ev a y <> ev a y0.
Lemma off_sub x y x0 y0 : off x y x0 y0 -> ev a (Sub x x0) <> 0 \/ ev a (Sub y y0) <> 0.
Proof. intros [H|H]; [left|right]; cbn [ev]; lra. Qed.
Definition turned (x y x0 y0 phi : expr) : expr * expr := t_translate_rotate x y x0 y0 (Some phi).
Lemma off_turned x y x0 y0 phi : off x y x0 y0 -> ev a (fst (turned x y x0 y0 phi)) <> 0 \/ ev a (snd (turned x y x0 y0 phi)) <> 0.
Proof.
  intros H. pose proof (norm2_pos _ _ (off_sub _ _ _ _ H)) as P. cbn [turned t_translate_rotate fst snd ev] in *.
  set (u := ev a x - ev a x0) in *; set (w := ev a y - ev a y0) in *. pose proof (sin2_cos2 (ev a phi)) as T. unfold Rsqr in T.
  set (c := cos (ev a phi)) in *; set (t := sin (ev a phi)) in *.
  destruct (Req_dec (u * c + w * t) 0) as [E|E]; [|left; exact E]. right. intros E'.
  assert (Q : u ^ 2 + w ^ 2 = (u * c + w * t) ^ 2 + (w * c - u * t) ^ 2) by (transitivity ((u ^ 2 + w ^ 2) * (t * t + c * c)); [rewrite T; ring|ring]).
  rewrite E, E' in Q. lra.
Qed.
Lemma ok_turned x y x0 y0 phi : ok x -> ok y -> ok x0 -> ok y0 -> ok phi -> ok (fst (turned x y x0 y0 phi)) /\ ok (snd (turned x y x0 y0 phi)).
Proof. intros; split; cbn [turned t_translate_rotate fst snd]; oks. Qed.
Lemma ok_derotate u w phi : ok u -> ok w -> ok phi -> ok (fst (t_derotate u w (Some phi))) /\ ok (snd (t_derotate u w (Some phi))).
Proof. intros; split; cbn [t_derotate fst snd]; oks. Qed.

(** ** Mass sheet, external shear: everywhere *)
Lemma mass_sheet_ok x0 y0 k x y : ok x0 -> ok y0 -> ok k -> ok x -> ok y ->
  ok (fst (t_deflection_mass_sheet x0 y0 k x y)) /\ ok (snd (t_deflection_mass_sheet x0 y0 k x y)) /\ ok (t_potential_mass_sheet x0 y0 k x y).
Proof. intros; split; [|split]; cbn [t_deflection_mass_sheet t_potential_mass_sheet t_translate_rotate fst snd]; oks; lra. Qed.
Lemma shear_ok x0 y0 g1 g2 x y : ok x0 -> ok y0 -> ok g1 -> ok g2 -> ok x -> ok y ->
  ok (fst (t_deflection_external_shear x0 y0 g1 g2 x y)) /\ ok (snd (t_deflection_external_shear x0 y0 g1 g2 x y)) /\ ok (t_potential_external_shear x0 y0 g1 g2 x y).
Proof. intros; split; [|split]; cbn [t_deflection_external_shear t_potential_external_shear t_translate_rotate fst snd]; oks. Qed.

(** ** SIS, Point *)
Section Soft.
Variables x y x0 y0 s : expr.
Hypothesis Hx : ok x.
Hypothesis Hy : ok y.
Hypothesis Hx0 : ok x0.
Hypothesis Hy0 : ok y0.
Hypothesis Hs : ok s.
Hypothesis Hoff : off x y x0 y0.
Hypothesis Hs0 : 0 <= ev a s.
Let r := Add (Sqrt (Add (Pow (Sub x x0) 2) (Pow (Sub y y0) 2))) s.
Lemma r_ok : ok r.
Proof. apply ok_soft; [apply ok_sub; assumption|apply ok_sub; assumption|exact Hs|apply off_sub, Hoff]. Qed.
Lemma r_pos : 0 < ev a r.
Proof. apply soft_pos; [apply off_sub, Hoff|exact Hs0]. Qed.
Lemma sis_ok R : ok R ->
  ok (fst (t_deflection_sis x0 y0 R s x y)) /\ ok (snd (t_deflection_sis x0 y0 R s x y)) /\ ok (t_potential_sis x0 y0 R s x y) /\ ok (t_convergence_sis x0 y0 R s x y).
Proof.
  intros HR. pose proof r_ok as O; pose proof r_pos as P. unfold t_deflection_sis, t_potential_sis, t_convergence_sis. cbn [t_translate_rotate fst snd]. fold r.
  split; [|split; [|split]]; oks; cbn [ev] in P; lra.
Qed.
Lemma point_ok R : ok R ->
  ok (fst (t_deflection_point x0 y0 R s x y)) /\ ok (snd (t_deflection_point x0 y0 R s x y)) /\ ok (t_potential_point x0 y0 R s x y).
Proof.
  intros HR. pose proof r_ok as O; pose proof r_pos as P. unfold t_deflection_point, t_potential_point. cbn [t_translate_rotate fst snd]. fold r.
  split; [|split]; oks; try (apply pow_nonzero); cbn [ev] in P; lra.
Qed.

(** ** Pseudo Jaffe *)
Lemma jaffe_k_ok m Rc Rs d sg : ok m -> ok Rc -> ok Rs -> ok d -> ok sg -> 0 < ev a Rc -> 0 < ev a Rs -> ev a d <> 0 -> ev a sg <> 0 ->
  ok (t_convergence_0_pseudo_jaffe m Rc Rs d sg).
Proof.
  intros ????? Pc Ps Pd Pg. unfold t_convergence_0_pseudo_jaffe. oks. pose proof PI_RGT_0. pose proof arcsec_to_rad_pos.
  nzs; lra.
Qed.
Lemma jaffe_ok m Rc Rs d sg : ok m -> ok Rc -> ok Rs -> ok d -> ok sg -> 0 < ev a Rc -> 0 < ev a Rs -> ev a Rc <> ev a Rs -> ev a d <> 0 -> ev a sg <> 0 ->
  ok (fst (t_deflection_pseudo_jaffe x0 y0 m Rc Rs x y d sg s)) /\ ok (snd (t_deflection_pseudo_jaffe x0 y0 m Rc Rs x y d sg s)).
Proof.
  intros Om Oc Os Od Og Pc Ps Pn Pd Pg. pose proof (jaffe_k_ok m Rc Rs d sg Om Oc Os Od Og Pc Ps Pd Pg) as OK.
  pose proof r_ok as O; pose proof r_pos as P. unfold t_deflection_pseudo_jaffe. cbn [t_translate_rotate fst snd]. fold r.
  assert (Hc : forall R, 0 < ev a R -> 0 < 1 + (ev a r / ev a R) ^ 2) by (intros R _; pose proof (sq_ge0 (ev a r / ev a R)); lra).
  pose proof (Hc Rc Pc) as H1; pose proof (Hc Rs Ps) as H2. pose proof (sqrt_lt_R0 _ H1) as H3; pose proof (sqrt_lt_R0 _ H2) as H4.
  clearbody r. split; oks; try lra.
  all: apply Rmult_integral_contrapositive_currified; lra.
Qed.
End Soft.
Lemma jaffe_mass_ok x y x0 y0 s m Rc Rs d sg ds dls : ok x -> ok y -> ok x0 -> ok y0 -> ok s -> 0 <= ev a s ->
  ok m -> ok Rc -> ok Rs -> ok d -> ok sg -> ok ds -> ok dls ->
  0 < ev a Rc -> 0 < ev a Rs -> ev a Rc <> ev a Rs -> ev a d <> 0 -> ev a sg <> 0 -> ev a ds <> 0 ->
  ok (t_potential_pseudo_jaffe x0 y0 m Rc Rs x y d ds dls s) /\ ok (t_convergence_pseudo_jaffe x0 y0 m Rc Rs x y d sg s).
Proof.
  intros Ox Oy Ox0 Oy0 Os0 S0 Om Oc Os Od Og Ods Odls Pc Ps Pn Pd Pg Pds.
  pose proof (jaffe_k_ok m Rc Rs d sg Om Oc Os Od Og Pc Ps Pd Pg) as OK.
  pose proof (jaffe_k_ok m Rc Rs d (Cst 1) Om Oc Os Od (ok_cst _ _ 1) Pc Ps Pd ltac:(cbn [ev]; lra)) as OK1.
  unfold t_potential_pseudo_jaffe, t_convergence_pseudo_jaffe. cbn [t_translate_rotate fst snd].
  assert (Hc : forall R, 0 < ev a R -> 0 < ev a R ^ 2 + ((ev a x - ev a x0) ^ 2 + (ev a y - ev a y0) ^ 2 + ev a s))
    by (intros R HR; pose proof (sq_ge0 (ev a x - ev a x0)); pose proof (sq_ge0 (ev a y - ev a y0)); pose proof (pow_lt _ 2 HR); lra).
  pose proof (Hc Rc Pc) as H1; pose proof (Hc Rs Ps) as H2. pose proof (sqrt_lt_R0 _ H1) as H3; pose proof (sqrt_lt_R0 _ H2) as H4.
  split; oks; lra.
Qed.

(** ** SIE: everywhere when softened *)
Section Sie.
Variables x y x0 y0 q phi s : expr.
Hypothesis Hx : ok x.
Hypothesis Hy : ok y.
Hypothesis Hx0 : ok x0.
Hypothesis Hy0 : ok y0.
Hypothesis Hq : ok q.
Hypothesis Hphi : ok phi.
Hypothesis Hs : ok s.
Hypothesis Hoff : off x y x0 y0 \/ 0 < ev a s.
Hypothesis Hs0 : 0 <= ev a s.
Hypothesis Hq1 : 0 < ev a q <= 1.
Hypothesis Hround : ev a q < 1 \/ snd (jvp a seed q) = None.
Let X := fst (turned x y x0 y0 phi).
Let Y := snd (turned x y x0 y0 phi).
Let q' := Where (Eq q (Cst 1)) (Sub q (Cst (1 / 10 ^ 6))) q.
Lemma off_XY : ev a X <> 0 \/ ev a Y <> 0 \/ 0 < ev a s.
Proof. destruct Hoff as [H|H]; [destruct (off_turned x y x0 y0 phi H); auto|auto]. Qed.
Lemma q'_ok : ok q'.
Proof.
  apply ok_where; cbn [lhs rhs]; [exact Hq|apply ok_cst| |].
  - unfold settled; cbn [lhs rhs ev]. destruct Hround as [H|H]; [right; lra|left; split; [exact H|reflexivity]].
  - destruct (holds _ a); oks.
Qed.
Lemma q'_range : 0 < ev a q' < 1.
Proof. unfold q'. cbn [ev]. destruct (Req_EM_T (ev a q) 1); lra. Qed.
Lemma sie_ok R : ok R ->
  ok (fst (t_deflection_sie x0 y0 q phi R s x y)) /\ ok (snd (t_deflection_sie x0 y0 q phi R s x y)).
Proof.
  intros HR. destruct (ok_turned x y x0 y0 phi Hx Hy Hx0 Hy0 Hphi) as [OX OY]. fold X in OX; fold Y in OY.
  pose proof q'_ok as OQ; pose proof q'_range as PQ; pose proof off_XY as HO.
  change (t_deflection_sie x0 y0 q phi R s x y) with
    (let q2_ := Pow q' 2 in let f := Sqrt (Sub (Cst 1) q2_) in let k := Div (Mul R (Sqrt q')) f in
     let psi := Sqrt (Add (Mul q2_ (Add (Pow X 2) (Pow s 2))) (Pow Y 2)) in
     t_derotate (Mul k (Atan (Div (Mul f X) (Add psi s)))) (Mul k (Atanh (Div (Mul f Y) (Add psi (Mul q2_ s))))) (Some phi)).
  cbv zeta. clearbody q' X Y.
  pose proof (sie_psi2_pos (ev a q') (ev a s) PQ (ev a X) (ev a Y) HO) as P2.
  pose proof (sqrt_lt_R0 _ P2) as P1. assert (Pq2 : 0 < ev a q' ^ 2) by (apply pow_lt; lra). assert (F2 : 0 < 1 - ev a q' ^ 2) by nra.
  pose proof (sqrt_lt_R0 _ F2) as F1. assert (Pq2s : 0 <= ev a q' ^ 2 * ev a s) by (apply Rmult_le_pos; lra).
  pose proof (sie_w_bound (ev a q') (ev a s) PQ Hs0 (ev a X) (ev a Y) HO) as W.
  apply ok_derotate; [| |exact Hphi]; oks; try lra.
  apply ok_atanh; [oks; try lra|]. cbn [ev]. exact W.
Qed.
Lemma psi2_pos : 0 < ev a q ^ 2 * (ev a X ^ 2 + ev a s ^ 2) + ev a Y ^ 2.
Proof.
  pose proof off_XY as HO. clearbody X Y. clear Hoff.
    pose proof (sq_ge0 (ev a X)) as SX; pose proof (sq_ge0 (ev a Y)) as SY; pose proof (sq_ge0 (ev a s)) as SS. assert (Q : 0 < ev a q ^ 2) by (apply pow_lt; lra).
    assert (N : 0 <= ev a q ^ 2 * (ev a X ^ 2 + ev a s ^ 2)) by (apply Rmult_le_pos; lra).
    destruct HO as [H|[H|H]].
    - assert (0 < ev a q ^ 2 * (ev a X ^ 2 + ev a s ^ 2)) by (apply Rmult_lt_0_compat; [exact Q|pose proof (pow2_gt_0 _ H); lra]). lra.
    - pose proof (pow2_gt_0 _ H); lra.
    - assert (0 < ev a q ^ 2 * (ev a X ^ 2 + ev a s ^ 2)) by (apply Rmult_lt_0_compat; [exact Q|pose proof (pow_lt _ 2 H); lra]). lra.
Qed.
Lemma sie_kappa_ok R : ok R -> ok (t_convergence_sie x0 y0 q phi R s x y).
Proof.
  intros HR. destruct (ok_turned x y x0 y0 phi Hx Hy Hx0 Hy0 Hphi) as [OX OY]. fold X in OX; fold Y in OY. pose proof off_XY as HO.
  change (t_convergence_sie x0 y0 q phi R s x y) with
    (Div (Mul (Mul (Cst (/ 2)) (Sqrt q)) R) (Sqrt (Add (Mul (Pow q 2) (Add (Pow X 2) (Pow s 2))) (Pow Y 2)))).
  pose proof psi2_pos as P2. clearbody X Y.
  pose proof (sqrt_lt_R0 _ P2) as P1. oks; try lra.
Qed.
Lemma sie_potential_ok R : ok R -> snd (jvp a seed s) = None \/ ev a s <> 1 / 10 ^ 6 -> ok (t_potential_sie x0 y0 q phi R s x y).
Proof.
  intros HR HM. destruct (sie_ok R HR) as [OAx OAy].
  destruct (ok_turned x y x0 y0 phi Hx Hy Hx0 Hy0 Hphi) as [OX OY]. fold X in OX; fold Y in OY. pose proof (sie_kappa_ok R HR) as OK.
  destruct (ok_derotate _ _ (Neg phi) OAx OAy (ok_neg _ _ _ Hphi)) as [OBx OBy].
  change (t_potential_sie x0 y0 q phi R s x y) with
    (let Ax := fst (t_derotate (fst (t_deflection_sie x0 y0 q phi R s x y)) (snd (t_deflection_sie x0 y0 q phi R s x y)) (Some (Neg phi))) in
     let Ay := snd (t_derotate (fst (t_deflection_sie x0 y0 q phi R s x y)) (snd (t_deflection_sie x0 y0 q phi R s x y)) (Some (Neg phi))) in
     let k := Mul (Mul R (Sqrt q)) s in let mx := AtLeast (1 / 10 ^ 6) s in
     let psi := Sqrt (Add (Mul (Pow q 2) (Add (Pow X 2) (Pow s 2))) (Pow Y 2)) in
     Add (Sub (Add (Mul X Ax) (Mul Y Ay)) (Mul k (Ln (Sqrt (Add (Pow (Add psi mx) 2) (Mul (Sub (Cst 1) (Pow q 2)) (Pow X 2)))))))
         (Mul k (Ln (Mul (Add (Cst 1) q) mx)))).
  cbv zeta. pose proof (psi2_pos) as P2. pose proof (sqrt_lt_R0 _ P2) as P1.
  assert (OM : ok (AtLeast (1 / 10 ^ 6) s)) by (apply ok_atleast; assumption).
  assert (PM : 0 < ev a (AtLeast (1 / 10 ^ 6) s)) by (cbn [ev]; pose proof (Rmax_r (ev a s) (1 / 10 ^ 6)); lra).
  match type of OBx with Ad_Proofs.ok _ _ ?e => set (Ax := e) in * end. match type of OBy with Ad_Proofs.ok _ _ ?e => set (Ay := e) in * end.
  set (mx := AtLeast (1 / 10 ^ 6) s) in *. clearbody X Y Ax Ay mx.
  pose proof (sq_ge0 (ev a X)). assert (0 <= (1 - ev a q ^ 2) * ev a X ^ 2) by (apply Rmult_le_pos; nra).
  assert (P3 : 0 < (sqrt (ev a q ^ 2 * (ev a X ^ 2 + ev a s ^ 2) + ev a Y ^ 2) + ev a mx) ^ 2 + (1 - ev a q ^ 2) * ev a X ^ 2)
    by (assert (0 < (sqrt (ev a q ^ 2 * (ev a X ^ 2 + ev a s ^ 2) + ev a Y ^ 2) + ev a mx) ^ 2) by (apply pow_lt; lra); lra).
  pose proof (sqrt_lt_R0 _ P3) as P4.
  oks; try lra. apply Rmult_lt_0_compat; lra.
Qed.
End Sie.

(** ** NFW *)
Lemma scale_radius_ok rho m c D : ok rho -> ok m -> ok c -> ok D -> 0 < ev a rho -> 0 < ev a m -> 0 < ev a c -> 0 < ev a D ->
  ok (t_scale_radius_nfw rho m c D) /\ 0 < ev a (t_scale_radius_nfw rho m c D).
Proof.
  intros Or Om Oc OD Pr Pm Pc PD. pose proof PI_RGT_0.
  assert (K : 0 < 4 * PI * ev a D * ev a rho) by (repeat match goal with |- 0 < _ * _ => apply Rmult_lt_0_compat end; lra).
  unfold t_scale_radius_nfw. split; [oks; try lra; try (apply Rdiv_lt_0_compat; lra)|].
  cbn [ev]. apply Rdiv_lt_0_compat; [apply exp_pos|exact Pc].
Qed.
Lemma scale_density_ok rho c D : ok rho -> ok c -> ok D -> 0 < ev a c -> ok (t_scale_density_nfw rho c D).
Proof. intros Or Oc OD Pc. pose proof (ln_excess _ Pc). unfold t_scale_density_nfw. oks; lra. Qed.
Lemma ok_inner x b : ok x -> 0 < ev a x < 1 -> 0 < b < 1 -> ev a x <> b -> ok (AtMost b x) /\ 0 < ev a (AtMost b x) < 1.
Proof.
  intros Ox Px Pb Nb. split; [apply ok_atmost; auto|]. cbn [ev]. split; [apply Rmin_glb_lt; lra|]. pose proof (Rmin_l (ev a x) b). lra.
Qed.
Lemma ok_outer x b : ok x -> 1 < ev a x -> 1 < b -> ev a x <> b -> ok (AtLeast b x) /\ 1 < ev a (AtLeast b x).
Proof.
  intros Ox Px Pb Nb. split; [apply ok_atleast; auto|]. cbn [ev]. pose proof (Rmax_l (ev a x) b). lra.
Qed.
Lemma ok_acosh_inner x : ok x -> 0 < ev a x < 1 -> ok (Acosh (Div (Cst 1) x)).
Proof.
  intros Ox Px. apply ok_acosh; [oks; lra|]. right; cbn [ev]. apply Rmult_lt_reg_r with (ev a x); [lra|]. unfold Rdiv. rewrite Rmult_assoc, Rinv_l; lra.
Qed.
Lemma ok_acos_outer x : ok x -> 1 < ev a x -> ok (Acos (Div (Cst 1) x)).
Proof.
  intros Ox Px. apply ok_acos; [oks; lra|]. right; cbn [ev]. assert (0 < 1 / ev a x) by (apply Rdiv_lt_0_compat; lra).
  assert (1 / ev a x < 1) by (apply Rmult_lt_reg_r with (ev a x); [lra|]; unfold Rdiv; rewrite Rmult_assoc, Rinv_l; lra). lra.
Qed.
(** the two branches of the where of the NFW functions *)
Lemma nfw_where x p n z : ok x -> ev a x <> 1 -> (1 < ev a x -> ok p) -> (ev a x < 1 -> ok n) ->
  ok (Where (Lt (Cst 1) x) p (Where (Lt x (Cst 1)) n z)).
Proof.
  intros Ox N1 Hp Hn. apply ok_where; cbn [lhs rhs]; [apply ok_cst|exact Ox|right; cbn [lhs rhs ev]; lra|].
  unfold holds, ltb; cbn [ev]. destruct (Rlt_dec 1 (ev a x)) as [G|G]; [auto|].
  apply ok_where; cbn [lhs rhs]; [exact Ox|apply ok_cst|right; cbn [lhs rhs ev]; lra|].
  unfold holds, ltb; cbn [ev]. destruct (Rlt_dec (ev a x) 1) as [G'|G']; [auto|lra].
Qed.
Lemma f_nfw_ok x : ok x -> 0 < ev a x -> clear_of_1 eps_nfw (ev a x) -> ok (t_f_nfw x).
Proof.
  intros Ox Px (N1 & N2 & N3). pose proof eps_pos as E. unfold t_f_nfw. apply nfw_where; auto.
  - intros G. destruct (ok_outer x (1 + eps_nfw) Ox G ltac:(lra) N3) as [O P]. set (b := AtLeast _ x) in *. clearbody b.
    assert (0 < (ev a b - 1) / (ev a b + 1)) by (apply Rdiv_lt_0_compat; lra). assert (0 < ev a b ^ 2 - 1) by nra. pose proof (sqrt_lt_R0 (ev a b ^ 2 - 1) ltac:(assumption)).
    oks; lra.
  - intros G. destruct (ok_inner x (1 - eps_nfw) Ox ltac:(lra) ltac:(lra) N2) as [O P]. set (b := AtMost _ x) in *. clearbody b.
    assert (Q : 0 < (1 - ev a b) / (1 + ev a b)) by (apply Rdiv_lt_0_compat; lra). assert (0 < 1 - ev a b ^ 2) by nra. pose proof (sqrt_lt_R0 (1 - ev a b ^ 2) ltac:(assumption)).
    assert (Q1 : (1 - ev a b) / (1 + ev a b) < 1) by (apply Rmult_lt_reg_r with (1 + ev a b); [lra|]; unfold Rdiv; rewrite Rmult_assoc, Rinv_l; lra).
    oks; try lra. apply ok_atanh; [oks; lra|]. cbn [ev]. pose proof (sqrt_lt_R0 _ Q). pose proof (sqrt_lt_1 ((1 - ev a b) / (1 + ev a b)) 1 ltac:(lra) ltac:(lra) Q1) as K. rewrite sqrt_1 in K. lra.
Qed.
Lemma h_nfw_ok x : ok x -> 0 < ev a x -> clear_of_1 eps_nfw (ev a x) -> ok (t_h_nfw x).
Proof.
  intros Ox Px (N1 & N2 & N3). pose proof eps_pos as E. unfold t_h_nfw. apply ok_add; [oks; lra|]. apply nfw_where; auto.
  - intros G. destruct (ok_outer x (1 + eps_nfw) Ox G ltac:(lra) N3) as [O P]. set (b := AtLeast _ x) in *. clearbody b.
    assert (0 < ev a b ^ 2 - 1) by nra. pose proof (sqrt_lt_R0 (ev a b ^ 2 - 1) ltac:(assumption)). pose proof (ok_acos_outer b O P). oks; lra.
  - intros G. destruct (ok_inner x (1 - eps_nfw) Ox ltac:(lra) ltac:(lra) N2) as [O P]. set (b := AtMost _ x) in *. clearbody b.
    assert (0 < 1 - ev a b ^ 2) by nra. pose proof (sqrt_lt_R0 (1 - ev a b ^ 2) ltac:(assumption)). pose proof (ok_acosh_inner b O P). oks; lra.
Qed.
Lemma g_nfw_ok x : ok x -> 0 < ev a x -> clear_of_1 eps_nfw (ev a x) -> ok (t_g_nfw x).
Proof.
  intros Ox Px (N1 & N2 & N3). pose proof eps_pos as E. unfold t_g_nfw. apply ok_add; [oks; lra|]. apply nfw_where; auto.
  - intros G. destruct (ok_outer x (1 + eps_nfw) Ox G ltac:(lra) N3) as [O P]. set (b := AtLeast _ x) in *. clearbody b.
    pose proof (ok_acos_outer b O P). oks.
  - intros G. destruct (ok_inner x (1 - eps_nfw) Ox ltac:(lra) ltac:(lra) N2) as [O P]. set (b := AtMost _ x) in *. clearbody b.
    pose proof (ok_acosh_inner b O P). oks.
Qed.
Section Nfw.
Variables x y x0 y0 s rho m c D d : expr.
Hypothesis Hx : ok x.
Hypothesis Hy : ok y.
Hypothesis Hx0 : ok x0.
Hypothesis Hy0 : ok y0.
Hypothesis Hs : ok s.
Hypothesis Hoff : off x y x0 y0.
Hypothesis Hs0 : 0 <= ev a s.
Hypothesis Hrho : ok rho.
Hypothesis Hm : ok m.
Hypothesis Hc : ok c.
Hypothesis HD : ok D.
Hypothesis Hd : ok d.
Hypothesis Prho : 0 < ev a rho.
Hypothesis Pm : 0 < ev a m.
Hypothesis Pc : 0 < ev a c.
Hypothesis PD : 0 < ev a D.
Hypothesis Pd : 0 < ev a d.
Let th := Add (Sqrt (Add (Pow (Sub x x0) 2) (Pow (Sub y y0) 2))) s.
Let rs := t_scale_radius_nfw rho m c D.
Let xi := Mul (Mul d th) (Cst arcsec_to_rad).
Let r := Div xi rs.
Hypothesis Hclear : clear_of_1 eps_nfw (ev a r).
Lemma nfw_scales : ok th /\ 0 < ev a th /\ ok rs /\ 0 < ev a rs /\ ok xi /\ 0 < ev a xi /\ ok r /\ 0 < ev a r.
Proof.
  pose proof (r_ok x y x0 y0 s Hx Hy Hx0 Hy0 Hs Hoff) as O1. pose proof (r_pos x y x0 y0 s Hoff Hs0) as P1. fold th in O1, P1.
  destruct (scale_radius_ok rho m c D Hrho Hm Hc HD Prho Pm Pc PD) as [O2 P2]. fold rs in O2, P2.
  assert (O3 : ok xi) by (unfold xi; oks). assert (P3 : 0 < ev a xi).
  { unfold xi; cbn [ev]. apply Rmult_lt_0_compat; [apply Rmult_lt_0_compat; assumption|apply arcsec_to_rad_pos]. }
  assert (O4 : ok r) by (unfold r; oks; lra). assert (P4 : 0 < ev a r) by (unfold r; cbn [ev]; apply Rdiv_lt_0_compat; assumption). tauto.
Qed.
Lemma nfw_ok : ok (fst (t_deflection_nfw x0 y0 m c rho d x y D s)) /\ ok (snd (t_deflection_nfw x0 y0 m c rho d x y D s)).
Proof.
  destruct nfw_scales as (O1 & P1 & O2 & P2 & O3 & P3 & O4 & P4). pose proof (h_nfw_ok r O4 P4 Hclear) as O5.
  pose proof (scale_density_ok rho c D Hrho Hc HD Pc) as O6.
  unfold t_deflection_nfw. cbn [t_translate_rotate fst snd]. fold th rs. fold xi. fold r. set (h := t_h_nfw r) in *. set (ds := t_scale_density_nfw rho c D) in *.
  clearbody h ds r xi rs th. split; oks; lra.
Qed.
Lemma nfw_mass_ok sg : ok sg -> ev a sg <> 0 ->
  ok (t_convergence_nfw sg rho x0 y0 m c x y d D s) /\ ok (t_potential_nfw sg rho x0 y0 m c d x y D s).
Proof.
  intros Og Pg.
  destruct nfw_scales as (O1 & P1 & O2 & P2 & O3 & P3 & O4 & P4). pose proof (f_nfw_ok r O4 P4 Hclear) as O5. pose proof (g_nfw_ok r O4 P4 Hclear) as O5'.
  pose proof (scale_density_ok rho c D Hrho Hc HD Pc) as O6. destruct Hclear as [N1 _].
  unfold t_convergence_nfw, t_potential_nfw, t_convergence_s_nfw. cbn [t_translate_rotate fst snd]. fold th rs. fold xi. fold r.
  set (f := t_f_nfw r) in *. set (g := t_g_nfw r) in *. set (ds := t_scale_density_nfw rho c D) in *.
  clearbody f g ds r xi rs th. pose proof arcsec_to_rad_pos as A. pose proof (pow_lt _ 2 A). pose proof (pow_lt _ 2 Pd).
  assert (ev a r ^ 2 - 1 <> 0) by (intros K; assert (ev a r = 1) by nra; lra).
  split; oks; try lra. apply Rmult_integral_contrapositive_currified; lra.
Qed.
End Nfw.

(** ** TNFW *)
Lemma clear_lt x b : ok x -> ev a x <> b -> forall p q, (ev a x < b -> ok p) -> (b < ev a x -> ok q) -> ok (Where (Lt x (Cst b)) p q).
Proof.
  intros Ox N p q Hp Hq. apply ok_where; cbn [lhs rhs]; [exact Ox|apply ok_cst|right; cbn [lhs rhs ev]; exact N|].
  unfold holds, ltb; cbn [ev]. destruct (Rlt_dec (ev a x) b) as [G|G]; [auto|apply Hq; lra].
Qed.
Lemma clear_gt x b : ok x -> ev a x <> b -> forall p q, (b < ev a x -> ok p) -> (ev a x < b -> ok q) -> ok (Where (Lt (Cst b) x) p q).
Proof.
  intros Ox N p q Hp Hq. apply ok_where; cbn [lhs rhs]; [apply ok_cst|exact Ox|right; cbn [lhs rhs ev]; auto|].
  unfold holds, ltb; cbn [ev]. destruct (Rlt_dec b (ev a x)) as [G|G]; [auto|apply Hq; lra].
Qed.
Lemma F_tnfw_ok x : ok x -> 0 < ev a x -> ev a x <> 1 - 1 / 100 -> ev a x <> 1 + 1 / 100 -> ok (t_F_tnfw x).
Proof.
  intros Ox Px N1 N2. unfold t_F_tnfw. apply clear_lt; [exact Ox|exact N1| |].
  - intros G. destruct (ok_inner x (1 - 1 / 1000) Ox ltac:(lra) ltac:(lra) ltac:(lra)) as [O P]. set (b := AtMost _ x) in *. clearbody b.
    assert (0 < 1 - ev a b ^ 2) by nra. pose proof (sqrt_lt_R0 (1 - ev a b ^ 2) ltac:(assumption)). pose proof (ok_acosh_inner b O P). oks; lra.
  - intros _. apply clear_gt; [exact Ox|exact N2| |].
    + intros G. destruct (ok_outer x (1 + 1 / 1000) Ox ltac:(lra) ltac:(lra) ltac:(lra)) as [O P]. set (b := AtLeast _ x) in *. clearbody b.
      assert (0 < ev a b ^ 2 - 1) by nra. pose proof (sqrt_lt_R0 (ev a b ^ 2 - 1) ltac:(assumption)). pose proof (ok_acos_outer b O P). oks; lra.
    + intros _. oks; lra.
Qed.
Lemma P_tnfw_ok x : ok x -> 0 < ev a x -> ev a x <> 1 - 1 / 1000 -> ev a x <> 1 + 1 / 1000 -> ok (t_P_tnfw x).
Proof.
  intros Ox Px N1 N2. unfold t_P_tnfw. apply clear_lt; [exact Ox|exact N1| |].
  - intros G. destruct (ok_inner x (1 - 1 / 10000) Ox ltac:(lra) ltac:(lra) ltac:(lra)) as [O P]. set (b := AtMost _ x) in *. clearbody b.
    pose proof (ok_acosh_inner b O P). oks; lra.
  - intros _. apply clear_gt; [exact Ox|exact N2| |].
    + intros G. destruct (ok_outer x (1 + 1 / 10000) Ox ltac:(lra) ltac:(lra) ltac:(lra)) as [O P]. set (b := AtLeast _ x) in *. clearbody b.
      pose proof (ok_acos_outer b O P). oks; lra.
    + intros _. oks; lra.
Qed.
Lemma hyp_ok g t : ok g -> ok t -> 0 < ev a t -> ok (Sqrt (Add (Pow t 2) (Pow g 2))) /\ 0 < ev a (Sqrt (Add (Pow t 2) (Pow g 2))).
Proof.
  intros Og Ot Pt. assert (K : 0 < ev a t ^ 2 + ev a g ^ 2) by (pose proof (sq_ge0 (ev a g)); pose proof (pow_lt _ 2 Pt); lra).
  split; [oks; exact K|cbn [ev]; apply sqrt_lt_R0, K].
Qed.
Lemma L_tnfw_ok g t : ok g -> ok t -> 0 < ev a g -> 0 < ev a t -> ok (t_L_tnfw g t).
Proof.
  intros Og Ot Pg Pt. destruct (hyp_ok g t Og Ot Pt) as [O P]. unfold t_L_tnfw. set (h := Sqrt _) in *. clearbody h.
  oks; [lra|]. apply Rdiv_lt_0_compat; lra.
Qed.
Lemma mass_tnfw_ok r Rs t M : ok r -> ok Rs -> ok t -> ok M -> 0 < ev a r -> 0 < ev a Rs -> 0 < ev a t ->
  ev a r / ev a Rs <> 1 - 1 / 100 -> ev a r / ev a Rs <> 1 + 1 / 100 -> ok (t_mass_enclosed_2d_tnfw r Rs t M).
Proof.
  intros Or OR Ot OM Pr PR Pt N1 N2. assert (Og : ok (Div r Rs)) by (oks; lra). assert (Pg : 0 < ev a (Div r Rs)) by (cbn [ev]; apply Rdiv_lt_0_compat; assumption).
  pose proof (F_tnfw_ok _ Og Pg N1 N2) as OF. pose proof (L_tnfw_ok _ _ Og Ot Pg Pt) as OL. destruct (hyp_ok _ _ Og Ot Pt) as [OH PH].
  unfold t_mass_enclosed_2d_tnfw. set (F := t_F_tnfw _) in *. set (L := t_L_tnfw _ _) in *. set (h := Sqrt _) in *. set (g := Div r Rs) in *. clearbody F L h g.
  oks; try lra. apply pow_nonzero. pose proof (sq_ge0 (ev a t)); lra.
Qed.

(** *** Angles: the cut of arctan2 does not show *)
Section Angle.
Variables x y : expr.
Hypothesis Hx : ok x.
Hypothesis Hy : ok y.
Hypothesis Hxy : ev a x <> 0 \/ ev a y <> 0.
Let theta := Atan2 y x.
Let theta' := Add (Atan2 (Neg y) (Neg x)) (Cst PI).
Definition congruent (e e' : expr) : Prop := locally 0 (fun h => exists k : Z, ev (along a seed h) e = ev (along a seed h) e' + 2 * IZR k * PI).
Lemma turn_half b : ev b x < 0 -> exists k : Z, ev b theta = ev b theta' + 2 * IZR k * PI.
Proof.
  intros N. unfold theta, theta'; cbn [ev]. set (u := ev b x) in *; set (w := ev b y) in *. set (t := atan2 (- w) (- u)).
  pose proof (norm_pos u w ltac:(left; lra)) as P. destruct (atan2_polar (- u) (- w)) as [A B]. fold t in A, B.
  replace ((- u) ^ 2 + (- w) ^ 2) with (u ^ 2 + w ^ 2) in A, B by ring. set (r := sqrt (u ^ 2 + w ^ 2)) in *.
  destruct (atan2_mod r (t + PI) P) as [k K]. exists k. rewrite <- K. rewrite neg_sin, neg_cos. apply f_equal2; lra.
Qed.
Lemma angle : exists t, ok t /\ jvp a seed theta = jvp a seed t /\ congruent theta t.
Proof.
  destruct (Rlt_dec 0 (ev a x)) as [G|G]; [|destruct (Req_dec (ev a y) 0) as [Z|Z]].
  1, 3: exists theta; split; [apply ok_atan2; auto|split; [reflexivity|unfold congruent; apply filter_forall; intros h; exists 0%Z; ring]].
  assert (N : ev a x < 0) by lra. exists theta'. split; [|split].
  - unfold theta'. oks. apply ok_atan2; [oks|oks|right; left; cbn [ev]; lra].
  - pose proof Hx as [dx Gx]; pose proof Hy as [dy Gy]. destruct (good_tangent _ _ _ _ Gx) as [[Tx _]|Tx], (good_tangent _ _ _ _ Gy) as [[Ty _]|Ty];
      destruct Gx as (Vx & _), Gy as (Vy & _); unfold theta, theta'; cbn [jvp fst snd];
      rewrite Vx, Vy, Tx, Ty, Z; apply pair_equal_spec; (split;
      [cbn [nneg natan2 nadd lift1 lift2]; apply Fin_eq; unfold atan2; destruct (Rlt_dec 0 (ev a x)); [lra|]; destruct (Rlt_dec (ev a x) 0); [|lra];
       destruct (Rle_dec 0 0); [|lra]; destruct (Rlt_dec 0 (- ev a x)); [|lra]; apply f_equal2; [apply f_equal; field; lra|reflexivity]|]);
      cbn [tan1 tan2]; [reflexivity|apply f_equal..]; cbn [nneg nmul npow nadd lift1 lift2]; rewrite !ndiv_fin by nra; apply Fin_eq; field; lra.
  - unfold congruent. generalize (ok_lt a seed x (Cst 0) Hx (ok_cst _ _ 0) N). apply filter_imp. intros h L. apply turn_half, L.
Qed.
(** an expression in which the angle occurs only modulo 2 PI *)
Lemma angle_swap (C : expr -> expr) :
  (forall t, jvp a seed theta = jvp a seed t -> jvp a seed (C theta) = jvp a seed (C t)) ->
  (forall b t, (exists k : Z, ev b theta = ev b t + 2 * IZR k * PI) -> ev b (C theta) = ev b (C t)) ->
  (forall t, ok t -> ok (C t)) -> ok (C theta).
Proof.
  intros HJ HE HC. destruct angle as (t & Ot & Jt & Kt). destruct (HC t Ot) as [d G]. exists d.
  apply (ok_same _ _ _ (C t) d G); [rewrite (HJ t Jt); reflexivity|rewrite (HJ t Jt); reflexivity|rewrite (HJ t Jt); auto|].
  unfold congruent in Kt. revert Kt. apply filter_imp. intros h K. apply HE, K.
Qed.
End Angle.

(** the dual number of an expression depends on its parts through their dual numbers only *)
Ltac same := cbn [jvp fst snd]; repeat match goal with H : jvp _ _ ?e = jvp _ _ ?e' |- _ => rewrite H end; reflexivity.
Lemma same_mul p p' q q' : jvp a seed p = jvp a seed p' -> jvp a seed q = jvp a seed q' -> jvp a seed (Mul p q) = jvp a seed (Mul p' q').
Proof. intros H1 H2. same. Qed.
Lemma same_add p p' q q' : jvp a seed p = jvp a seed p' -> jvp a seed q = jvp a seed q' -> jvp a seed (Add p q) = jvp a seed (Add p' q').
Proof. intros H1 H2. same. Qed.
Lemma same_sub p p' q q' : jvp a seed p = jvp a seed p' -> jvp a seed q = jvp a seed q' -> jvp a seed (Sub p q) = jvp a seed (Sub p' q').
Proof. intros H1 H2. same. Qed.
Lemma same_div p p' q q' : jvp a seed p = jvp a seed p' -> jvp a seed q = jvp a seed q' -> jvp a seed (Div p q) = jvp a seed (Div p' q').
Proof. intros H1 H2. same. Qed.
Lemma same_cos p p' : jvp a seed p = jvp a seed p' -> jvp a seed (Cos p) = jvp a seed (Cos p').
Proof. intros H1. same. Qed.
Lemma same_sin p p' : jvp a seed p = jvp a seed p' -> jvp a seed (Sin p) = jvp a seed (Sin p').
Proof. intros H1. same. Qed.
Ltac sames := repeat first [reflexivity | assumption | apply same_add | apply same_sub | apply same_mul | apply same_div | apply same_cos | apply same_sin].

Section Tnfw.
Variables x y x0 y0 s Rs t M d : expr.
Hypothesis Hx : ok x.
Hypothesis Hy : ok y.
Hypothesis Hx0 : ok x0.
Hypothesis Hy0 : ok y0.
Hypothesis Hs : ok s.
Hypothesis Hoff : off x y x0 y0.
Hypothesis Hs0 : 0 <= ev a s.
Hypothesis HRs : ok Rs.
Hypothesis Ht : ok t.
Hypothesis HM : ok M.
Hypothesis Hd : ok d.
Hypothesis PR : 0 < ev a Rs.
Hypothesis Pt : 0 < ev a t.
Hypothesis Pd : 0 < ev a d.
Let r := Add (Sqrt (Add (Pow (Sub x x0) 2) (Pow (Sub y y0) 2))) s.
Hypothesis N1 : ev a r / ev a Rs <> 1 - 1 / 100.
Hypothesis N2 : ev a r / ev a Rs <> 1 + 1 / 100.
Lemma tnfw_ok : ok (fst (t_deflection_tnfw x0 y0 Rs t x y M d s)) /\ ok (snd (t_deflection_tnfw x0 y0 Rs t x y M d s)).
Proof.
  pose proof (r_ok x y x0 y0 s Hx Hy Hx0 Hy0 Hs Hoff) as O1. pose proof (r_pos x y x0 y0 s Hoff Hs0) as P1. fold r in O1, P1.
  pose proof (mass_tnfw_ok r Rs t M O1 HRs Ht HM P1 PR Pt N1 N2) as OM. pose proof arcsec_to_rad_pos as PA.
  unfold t_deflection_tnfw. cbn [t_translate_rotate]. unfold t_deflection_tnfw_at. cbn [fst snd]. fold r.
  assert (OD : ok (Mul (Cst (4 * G_over_c2 * rad_to_arcsec)) (Div (t_mass_enclosed_2d_tnfw r Rs t M) (Mul (Mul r d) (Cst arcsec_to_rad))))).
  { clearbody r. oks. nzs; lra. }
  set (dr := Mul _ (Div _ _)) in *. clearbody dr.
  pose proof (off_sub _ _ _ _ Hoff) as HO.
  split; [apply (angle_swap (Sub x x0) (Sub y y0) (ok_sub _ _ _ _ Hx Hx0) (ok_sub _ _ _ _ Hy Hy0) HO (fun th => Mul dr (Cos th)))
         |apply (angle_swap (Sub x x0) (Sub y y0) (ok_sub _ _ _ _ Hx Hx0) (ok_sub _ _ _ _ Hy Hy0) HO (fun th => Mul dr (Sin th)))].
  1, 4: intros u E; sames.
  2, 4: intros u Ou; oks.
  1, 2: intros b u [k K]; cbn [ev] in *; rewrite K; destruct (cos_sin_period_Z (ev b u) k) as [C1 C2]; rewrite ?C1, ?C2; reflexivity.
Qed.
Lemma tnfw_kappa_ok cd : ok cd -> ev a cd <> 0 -> ev a r / ev a Rs <> 1 -> ok (t_convergence_tnfw x0 y0 Rs t x y cd M d s).
Proof.
  intros Oc Pc N0. pose proof (r_ok x y x0 y0 s Hx Hy Hx0 Hy0 Hs Hoff) as O1. pose proof (r_pos x y x0 y0 s Hoff Hs0) as P1. fold r in O1, P1.
  assert (Og : ok (Div r Rs)) by (clearbody r; oks; lra). assert (Pg : 0 < ev a (Div r Rs)) by (cbn [ev]; apply Rdiv_lt_0_compat; assumption).
  change (ev a r / ev a Rs) with (ev a (Div r Rs)) in *.
  pose proof (F_tnfw_ok _ Og Pg N1 N2) as OF. pose proof (L_tnfw_ok _ _ Og Ht Pg Pt) as OL. destruct (hyp_ok _ _ Og Ht Pt) as [OH PH].
  pose proof arcsec_to_rad_pos as PA. pose proof PI_RGT_0 as PP.
  unfold t_convergence_tnfw. cbn [t_translate_rotate]. fold r. set (g := Div r Rs) in *.
  set (F := t_F_tnfw _) in *. set (L := t_L_tnfw _ _) in *. set (h := Sqrt (Add (Pow t 2) (Pow g 2))) in *. clearbody F L h g.
  assert (OW : ok (Where (Eq g (Cst 1)) (Div (Add (Pow t 2) (Cst 1)) (Cst 3)) (Div (Mul (Add (Pow t 2) (Cst 1)) (Sub (Cst 1) F)) (Sub (Pow g 2) (Cst 1))))).
  { apply ok_where; cbn [lhs rhs]; [exact Og|apply ok_cst|right; cbn [lhs rhs ev]; exact N0|].
    unfold holds, eqb; cbn [ev]. destruct (Req_EM_T (ev a g) 1) as [E|E]; [lra|]. oks. intros K. assert (ev a g = 1) by nra. lra. }
  set (w := Where _ _ _) in *. clearbody w. pose proof (sq_ge0 (ev a t)). oks; try lra; nzs; lra.
Qed.
Lemma tnfw_psi_ok ds dls : ok ds -> ok dls -> ev a ds <> 0 -> ev a r / ev a Rs <> 1 - 1 / 1000 -> ev a r / ev a Rs <> 1 + 1 / 1000 ->
  ok (t_potential_tnfw x0 y0 Rs t x y M d ds dls s).
Proof.
  intros Ods Odls Pds N3 N4. pose proof (r_ok x y x0 y0 s Hx Hy Hx0 Hy0 Hs Hoff) as O1. pose proof (r_pos x y x0 y0 s Hoff Hs0) as P1. fold r in O1, P1.
  assert (Og : ok (Div r Rs)) by (clearbody r; oks; lra). assert (Pg : 0 < ev a (Div r Rs)) by (cbn [ev]; apply Rdiv_lt_0_compat; assumption).
  change (ev a r / ev a Rs) with (ev a (Div r Rs)) in *.
  pose proof (F_tnfw_ok _ Og Pg N1 N2) as OF. pose proof (P_tnfw_ok _ Og Pg N3 N4) as OP. pose proof (L_tnfw_ok _ _ Og Ht Pg Pt) as OL. destruct (hyp_ok _ _ Og Ht Pt) as [OH PH].
  pose proof arcsec_to_rad_pos as PA. pose proof PI_RGT_0 as PP.
  unfold t_potential_tnfw. cbn [t_translate_rotate]. fold r. set (g := Div r Rs) in *.
  set (F := t_F_tnfw _) in *. set (P := t_P_tnfw _) in *. set (L := t_L_tnfw _ _) in *. set (h := Sqrt (Add (Pow t 2) (Pow g 2))) in *. clearbody F P L h g.
  pose proof (sq_ge0 (ev a t)). pose proof (pow_lt _ 2 Pg). oks; try lra; try (apply Rdiv_lt_0_compat; lra); nzs; lra.
Qed.
End Tnfw.

(** ** Multipoles *)
Section Multipole.
Variables x y x0 y0 : expr.
Variable l : list (Z * expr * expr).
Hypothesis Hx : ok x.
Hypothesis Hy : ok y.
Hypothesis Hx0 : ok x0.
Hypothesis Hy0 : ok y0.
Hypothesis Hl : forall m c p, In (m, c, p) l -> (2 <= m)%Z /\ ok c /\ ok p.
Hypothesis Hoff : off x y x0 y0.
Lemma order_nz m : (2 <= m)%Z -> 1 - IZR m ^ 2 <> 0.
Proof. intros H. apply IZR_le in H. nra. Qed.
Lemma fold_ok (f : Z -> expr -> expr -> expr) : (forall m c p, (2 <= m)%Z -> ok c -> ok p -> ok (f m c p)) ->
  ok (fold_right (fun '(m, c, p) s => Add (f m c p) s) (Cst 0) l).
Proof.
  intros H. clear - H Hl. induction l as [|[[m c] p] k IH]; cbn [fold_right]; [apply ok_cst|].
  apply ok_add; [destruct (Hl m c p (or_introl eq_refl)) as (Hm & Hc & Hp); apply H; assumption|apply IH; intros; apply Hl; right; assumption].
Qed.
Lemma fold_same (f g : Z -> expr -> expr -> expr) : (forall m c p, jvp a seed (f m c p) = jvp a seed (g m c p)) ->
  jvp a seed (fold_right (fun '(m, c, p) s => Add (f m c p) s) (Cst 0) l) = jvp a seed (fold_right (fun '(m, c, p) s => Add (g m c p) s) (Cst 0) l).
Proof. intros H. clear - H. induction l as [|[[m c] p] k IH]; [reflexivity|]. cbn [fold_right]. apply same_add; auto. Qed.
Lemma fold_ev (f g : Z -> expr -> expr -> expr) b : (forall m c p, ev b (f m c p) = ev b (g m c p)) ->
  ev b (fold_right (fun '(m, c, p) s => Add (f m c p) s) (Cst 0) l) = ev b (fold_right (fun '(m, c, p) s => Add (g m c p) s) (Cst 0) l).
Proof. intros H. clear - H. induction l as [|[[m c] p] k IH]; [reflexivity|]. cbn [fold_right ev]. rewrite H. f_equal. exact IH. Qed.
Lemma turns (m k : Z) t p : cos (IZR m * (t + 2 * IZR k * PI - p)) = cos (IZR m * (t - p)) /\ sin (IZR m * (t + 2 * IZR k * PI - p)) = sin (IZR m * (t - p)).
Proof.
  replace (IZR m * (t + 2 * IZR k * PI - p)) with (IZR m * (t - p) + 2 * IZR (m * k) * PI) by (rewrite mult_IZR; ring). apply cos_sin_period_Z.
Qed.
Let dx := Sub x x0.
Let dy := Sub y y0.
Let th := Atan2 dy dx.
(** a sum over the orders of terms in which the angle occurs modulo 2 PI *)
Lemma sum_ok (f : expr -> Z -> expr -> expr -> expr) :
  (forall t m c p, ok t -> (2 <= m)%Z -> ok c -> ok p -> ok (f t m c p)) ->
  (forall t m c p, jvp a seed th = jvp a seed t -> jvp a seed (f th m c p) = jvp a seed (f t m c p)) ->
  (forall b t m c p, (exists k : Z, ev b th = ev b t + 2 * IZR k * PI) -> ev b (f th m c p) = ev b (f t m c p)) ->
  ok (fold_right (fun '(m, c, p) s => Add (f th m c p) s) (Cst 0) l).
Proof.
  intros HO HJ HE.
  apply (angle_swap dx dy (ok_sub _ _ _ _ Hx Hx0) (ok_sub _ _ _ _ Hy Hy0) (off_sub _ _ _ _ Hoff) (fun t => fold_right (fun '(m, c, p) s => Add (f t m c p) s) (Cst 0) l)).
  - intros t E. apply fold_same. intros; apply HJ, E.
  - intros b t K. apply fold_ev. intros; apply HE, K.
  - intros t Ot. apply fold_ok. auto.
Qed.
Ltac turn := intros b t m c p [k K]; cbn [ev] in *; rewrite K; destruct (cos_sin_period_Z (ev b t) k) as [C1 C2], (turns m k (ev b t) (ev b p)) as [C3 C4];
  rewrite ?C1, ?C2, ?C3, ?C4; reflexivity.
Lemma multipole_ok : ok (fst (t_deflection_multipole x0 y0 l x y)) /\ ok (snd (t_deflection_multipole x0 y0 l x y)).
Proof.
  split.
  - apply (sum_ok (fun phi m a_m phi_m => Add (Mul (Div (Mul (Cos phi) a_m) (Sub (Cst 1) (Pow (Cst (IZR m)) 2))) (Cos (Mul (Cst (IZR m)) (Sub phi phi_m))))
       (Mul (Div (Mul (Mul (Sin phi) (Cst (IZR m))) a_m) (Sub (Cst 1) (Pow (Cst (IZR m)) 2))) (Sin (Mul (Cst (IZR m)) (Sub phi phi_m)))))).
    + intros t m c p Ot Hm Oc Op. oks; apply order_nz, Hm.
    + intros t m c p E. sames.
    + turn.
  - apply (sum_ok (fun phi m a_m phi_m => Sub (Mul (Div (Mul (Sin phi) a_m) (Sub (Cst 1) (Pow (Cst (IZR m)) 2))) (Cos (Mul (Cst (IZR m)) (Sub phi phi_m))))
       (Mul (Div (Mul (Mul (Cos phi) (Cst (IZR m))) a_m) (Sub (Cst 1) (Pow (Cst (IZR m)) 2))) (Sin (Mul (Cst (IZR m)) (Sub phi phi_m)))))).
    + intros t m c p Ot Hm Oc Op. oks; apply order_nz, Hm.
    + intros t m c p E. sames.
    + turn.
Qed.
Lemma multipole_mass_ok : ok (t_potential_multipole x0 y0 l x y) /\ ok (t_convergence_multipole x0 y0 l x y).
Proof.
  pose proof (ok_distance dx dy (ok_sub _ _ _ _ Hx Hx0) (ok_sub _ _ _ _ Hy Hy0) (off_sub _ _ _ _ Hoff)) as O1.
  pose proof (norm_pos _ _ (off_sub _ _ _ _ Hoff)) as P1. change (0 < ev a (Sqrt (Add (Pow dx 2) (Pow dy 2)))) in P1.
  unfold t_potential_multipole, t_convergence_multipole. cbn [t_translate_rotate]. fold dx dy. unfold t_potential_multipole_at, t_convergence_multipole_at. fold th.
  set (r := Sqrt _) in *. clearbody r. split.
  - apply (sum_ok (fun phi m a_m phi_m => Mul (Div (Mul r a_m) (Sub (Cst 1) (Pow (Cst (IZR m)) 2))) (Cos (Mul (Cst (IZR m)) (Sub phi phi_m))))).
    + intros t m c p Ot Hm Oc Op. oks; apply order_nz, Hm.
    + intros t m c p E. sames.
    + turn.
  - apply (sum_ok (fun phi m a_m phi_m => Mul (Mul (Div (Cst 1) (Mul (Cst 2) r)) a_m) (Cos (Mul (Cst (IZR m)) (Sub phi phi_m))))).
    + intros t m c p Ot Hm Oc Op. oks; lra.
    + intros t m c p E. sames.
    + turn.
Qed.
End Multipole.

(** ** EPL convergence, Sersic brightness *)
Definition epl_base (x0 y0 q phi R x y s : expr) : expr :=
  let '(x, y) := t_translate_rotate x y x0 y0 (Some phi) in Div (Mul R (Sqrt q)) (Sqrt (Add (Add (Mul (Pow q 2) (Pow x 2)) (Pow y 2)) (Pow s 2))).
Lemma epl_kappa_ok x y x0 y0 q phi R t s : ok x -> ok y -> ok x0 -> ok y0 -> ok q -> ok phi -> ok R -> ok t -> ok s ->
  0 < ev a q -> 0 < ev a R -> off x y x0 y0 \/ ev a s <> 0 ->
  ok (t_convergence_epl x0 y0 q phi R t x y s) /\ ok (epl_base x0 y0 q phi R x y s) /\ 0 < ev a (epl_base x0 y0 q phi R x y s).
Proof.
  intros Ox Oy Ox0 Oy0 Oq Op OR Ot Os Pq PR H.
  destruct (ok_turned x y x0 y0 phi Ox Oy Ox0 Oy0 Op) as [OX OY].
  assert (HO : ev a (fst (turned x y x0 y0 phi)) <> 0 \/ ev a (snd (turned x y x0 y0 phi)) <> 0 \/ ev a s <> 0)
    by (destruct H as [H|H]; [destruct (off_turned x y x0 y0 phi H); auto|auto]).
  unfold t_convergence_epl, epl_base. fold (turned x y x0 y0 phi). rewrite (surjective_pairing (turned x y x0 y0 phi)).
  set (X := fst _) in *. set (Y := snd _) in *. clearbody X Y.
  assert (P2 : 0 < ev a q ^ 2 * ev a X ^ 2 + ev a Y ^ 2 + ev a s ^ 2).
  { pose proof (sq_ge0 (ev a X)) as SX; pose proof (sq_ge0 (ev a Y)) as SY; pose proof (sq_ge0 (ev a s)) as SS. assert (Q : 0 < ev a q ^ 2) by (apply pow_lt; lra).
    assert (N : 0 <= ev a q ^ 2 * ev a X ^ 2) by (apply Rmult_le_pos; lra).
    destruct HO as [K|[K|K]]; pose proof (pow2_gt_0 _ K) as K2; [|lra|lra]. pose proof (Rmult_lt_0_compat _ _ Q K2). lra. }
  pose proof (sqrt_lt_R0 _ P2) as P1. pose proof (sqrt_lt_R0 _ Pq) as P3.
  assert (PB : 0 < ev a R * sqrt (ev a q) / sqrt (ev a q ^ 2 * ev a X ^ 2 + ev a Y ^ 2 + ev a s ^ 2)) by (apply Rdiv_lt_0_compat; [apply Rmult_lt_0_compat; lra|lra]).
  split; [|split; [|exact PB]]; oks; lra.
Qed.
Definition sersic_base (x0 y0 q phi Re x y s : expr) : expr :=
  let '(x, y) := t_translate_rotate x y x0 y0 (Some phi) in Div (Add (Sqrt (Add (Pow x 2) (Pow (Div y q) 2))) s) Re.
Lemma sersic_ok x y x0 y0 q phi n Re Ie k s : ok x -> ok y -> ok x0 -> ok y0 -> ok q -> ok phi -> ok n -> ok Re -> ok Ie -> ok k -> ok s ->
  ev a q <> 0 -> ev a n <> 0 -> 0 < ev a Re -> 0 <= ev a s -> off x y x0 y0 ->
  ok (t_brightness_sersic x0 y0 q phi n Re Ie x y k s) /\ ok (sersic_base x0 y0 q phi Re x y s) /\ 0 < ev a (sersic_base x0 y0 q phi Re x y s).
Proof.
  intros Ox Oy Ox0 Oy0 Oq Op On ORe OIe Ok Os Pq Pn PR Ps H.
  destruct (ok_turned x y x0 y0 phi Ox Oy Ox0 Oy0 Op) as [OX OY]. pose proof (off_turned x y x0 y0 phi H) as HO.
  unfold t_brightness_sersic, sersic_base. fold (turned x y x0 y0 phi). rewrite (surjective_pairing (turned x y x0 y0 phi)).
  set (X := fst _) in *. set (Y := snd _) in *. clearbody X Y.
  assert (OE : ok (Div Y q)) by (oks; exact Pq).
  assert (HO' : ev a X <> 0 \/ ev a (Div Y q) <> 0).
  { destruct HO as [K|K]; [left; exact K|right; cbn [ev]]. apply Rmult_integral_contrapositive_currified; [exact K|apply Rinv_neq_0_compat, Pq]. }
  pose proof (ok_soft X (Div Y q) s OX OE Os HO') as O1. pose proof (soft_pos X (Div Y q) s HO' Ps) as P1.
  set (e := Add (Sqrt _) s) in *. clearbody e. assert (PB : 0 < ev a e / ev a Re) by (apply Rdiv_lt_0_compat; lra).
  split; [|split; [|exact PB]]; oks; lra.
Qed.
End Profiles.
