(** * Gradients of the lens models by backpropagation *)
From Coq Require Import Reals Lra List ZArith.
From Coquelicot Require Import Coquelicot.
From Verif Require Import RealFun Derive1 Geo_Model Const_Model Const_Proofs Py LensBase_Model LensBasic_Model Jaffe_Model Nfw_Model Nfw_Proofs Nfw2_Proofs Tnfw_Model Multipole_Model Epl_Model Light_Model
  Ad_Model Ad_Spec Ad_Proofs AdLens_Model AdLens_Spec AdLens_Proofs AdLens2_Proofs AdLens3_Proofs Rev_Model Rev_Spec Rev_Proofs RevLens_Proofs.
Import ListNotations.
Local Open Scope R_scope.

Lemma grad_exact2_of F t a req : tame a (fst t) -> tame a (snd t) -> (forall k, req k = true -> ad_exact2 F t a (one_of req k)) -> grad_exact2 F t a req.
Proof. intros T1 T2 H. split; apply grad_exact_of; try assumption; intros k K; apply (H k K). Qed.

Local Notation "a @ n" := (a n%nat) (at level 9, only parsing).
Local Notation V n := (Var n%nat).
Section Thms.
Variable a : nat -> R.
Variable req : nat -> bool.
Ltac vars := try exact I.
Ltac g2 := apply grad_exact2_of; [assumption|assumption|intros k _].
Ltac g1 := apply grad_exact_of; [assumption|intros k _].
Lemma mass_sheet_grad : grad_exact2 (fun a => reduced_deflection_angle_mass_sheet a@2 a@3 a@4 a@0 a@1) (t_deflection_mass_sheet (V 2) (V 3) (V 4) (V 0) (V 1)) a req /\
  grad_exact (fun a => potential_mass_sheet a@2 a@3 a@4 a@0 a@1) (t_potential_mass_sheet (V 2) (V 3) (V 4) (V 0) (V 1)) a req.
Proof.
  destruct (mass_sheet_tm a (V 2) (V 3) (V 4) (V 0) (V 1)) as (O1 & O2 & O3); vars.
  split; [g2; apply (mass_sheet_ad a (one_of req k))|g1; apply (mass_sheet_ad a (one_of req k))].
Qed.
Lemma shear_grad : grad_exact2 (fun a => reduced_deflection_angle_external_shear a@2 a@3 a@4 a@5 a@0 a@1) (t_deflection_external_shear (V 2) (V 3) (V 4) (V 5) (V 0) (V 1)) a req /\
  grad_exact (fun a => potential_external_shear a@2 a@3 a@4 a@5 a@0 a@1) (t_potential_external_shear (V 2) (V 3) (V 4) (V 5) (V 0) (V 1)) a req.
Proof.
  destruct (shear_tm a (V 2) (V 3) (V 4) (V 5) (V 0) (V 1)) as (O1 & O2 & O3); vars.
  split; [g2; apply (shear_ad a (one_of req k))|g1; apply (shear_ad a (one_of req k))].
Qed.
Lemma sis_grad : (a@0 <> a@2 \/ a@1 <> a@3) -> 0 <= a@5 ->
  grad_exact2 (fun a => reduced_deflection_angle_sis a@2 a@3 a@4 a@5 a@0 a@1) (t_deflection_sis (V 2) (V 3) (V 4) (V 5) (V 0) (V 1)) a req /\
  grad_exact (fun a => potential_sis a@2 a@3 a@4 a@5 a@0 a@1) (t_potential_sis (V 2) (V 3) (V 4) (V 5) (V 0) (V 1)) a req /\
  grad_exact (fun a => convergence_sis a@2 a@3 a@4 a@5 a@0 a@1) (t_convergence_sis (V 2) (V 3) (V 4) (V 5) (V 0) (V 1)) a req.
Proof.
  intros H S. destruct (sis_tm a (V 0) (V 1) (V 2) (V 3) (V 5) I I I I I H S (V 4) I) as (O1 & O2 & O3 & O4).
  split; [g2; apply (sis_ad a (one_of req k) H S)|split; g1; apply (sis_ad a (one_of req k) H S)].
Qed.
Lemma point_grad : (a@0 <> a@2 \/ a@1 <> a@3) -> 0 <= a@5 ->
  grad_exact2 (fun a => reduced_deflection_angle_point a@2 a@3 a@4 a@5 a@0 a@1) (t_deflection_point (V 2) (V 3) (V 4) (V 5) (V 0) (V 1)) a req /\
  grad_exact (fun a => potential_point a@2 a@3 a@4 a@5 a@0 a@1) (t_potential_point (V 2) (V 3) (V 4) (V 5) (V 0) (V 1)) a req.
Proof.
  intros H S. destruct (point_tm a (V 0) (V 1) (V 2) (V 3) (V 5) I I I I I H S (V 4) I) as (O1 & O2 & O3).
  split; [g2; apply (point_ad a (one_of req k) H S)|g1; apply (point_ad a (one_of req k) H S)].
Qed.
Lemma sie_grad : (a@0 <> a@2 \/ a@1 <> a@3) \/ 0 < a@7 -> 0 <= a@7 -> 0 < a@4 <= 1 -> a@4 < 1 \/ req 4%nat = false ->
  grad_exact2 (fun a => reduced_deflection_angle_sie a@2 a@3 a@4 a@5 a@6 a@7 a@0 a@1) (t_deflection_sie (V 2) (V 3) (V 4) (V 5) (V 6) (V 7) (V 0) (V 1)) a req /\
  grad_exact (fun a => convergence_sie a@2 a@3 a@4 a@5 a@6 a@7 a@0 a@1) (t_convergence_sie (V 2) (V 3) (V 4) (V 5) (V 6) (V 7) (V 0) (V 1)) a req /\
  (req 7%nat = false ->
   grad_exact (fun a => potential_sie a@2 a@3 a@4 a@5 a@6 a@7 a@0 a@1) (t_potential_sie (V 2) (V 3) (V 4) (V 5) (V 6) (V 7) (V 0) (V 1)) a req).
Proof.
  intros H S Q N. assert (N' : forall k, a@4 < 1 \/ one_of req k 4%nat = None) by (intros k; destruct N as [N|N]; [left; exact N|right; unfold one_of; rewrite N; reflexivity]).
  pose proof (sie_tm a (V 0) (V 1) (V 2) (V 3) (V 4) (V 5) (V 7) I I I I I I I H S Q (V 6) I) as [O1 O2].
  pose proof (sie_kappa_tm a (V 0) (V 1) (V 2) (V 3) (V 4) (V 5) (V 7) I I I I I I I H Q (V 6) I) as O3.
  pose proof (sie_potential_tm a (V 0) (V 1) (V 2) (V 3) (V 4) (V 5) (V 7) I I I I I I I H S Q (V 6) I) as O4.
  split; [g2; apply (sie_ad a (one_of req k) H S Q (N' k))|split; [g1; apply (sie_ad a (one_of req k) H S Q (N' k))|intros N7; g1; apply (sie_ad a (one_of req k) H S Q (N' k))]].
  unfold one_of. rewrite N7. reflexivity.
Qed.
Lemma jaffe_grad : 0 < a@5 -> 0 < a@6 -> a@5 <> a@6 -> 0 < a@7 -> 0 < a@8 -> 0 <= a@9 -> 0 < a@10 ->
  (a@0 <> a@2 \/ a@1 <> a@3 ->
   grad_exact2 (fun a => reduced_deflection_angle_pseudo_jaffe a@2 a@3 a@4 a@5 a@6 a@0 a@1 a@7 a@8 a@9) (t_deflection_pseudo_jaffe (V 2) (V 3) (V 4) (V 5) (V 6) (V 0) (V 1) (V 7) (V 8) (V 9)) a req) /\
  grad_exact (fun a => potential_pseudo_jaffe a@2 a@3 a@4 a@5 a@6 a@0 a@1 a@7 a@10 a@11 a@9) (t_potential_pseudo_jaffe (V 2) (V 3) (V 4) (V 5) (V 6) (V 0) (V 1) (V 7) (V 10) (V 11) (V 9)) a req /\
  grad_exact (fun a => convergence_pseudo_jaffe a@2 a@3 a@4 a@5 a@6 a@0 a@1 a@7 a@8 a@9) (t_convergence_pseudo_jaffe (V 2) (V 3) (V 4) (V 5) (V 6) (V 0) (V 1) (V 7) (V 8) (V 9)) a req.
Proof.
  intros P5 P6 N P7 P8 P9 P10.
  destruct (jaffe_mass_tm a (V 0) (V 1) (V 2) (V 3) (V 9) (V 4) (V 5) (V 6) (V 7) (V 8) (V 10) (V 11)) as [O1 O2]; vars; cbn [ev]; try lra; try assumption.
  split; [intros H|split; g1; apply (jaffe_ad a (one_of req k)); assumption].
  destruct (jaffe_tm a (V 0) (V 1) (V 2) (V 3) (V 9) I I I I I H P9 (V 4) (V 5) (V 6) (V 7) (V 8)) as [O3 O4]; vars; cbn [ev]; try lra; try assumption.
  g2; apply (jaffe_ad a (one_of req k)); assumption.
Qed.
Lemma nfw_grad : a@0 <> a@2 \/ a@1 <> a@3 -> 0 < a@4 -> 0 < a@5 -> 0 < a@6 -> 0 < a@7 -> 0 < a@8 -> 0 <= a@9 -> 0 < a@10 ->
  clear_of_1 eps_nfw (a@7 * (sqrt ((a@0 - a@2) ^ 2 + (a@1 - a@3) ^ 2) + a@9) * arcsec_to_rad / scale_radius_nfw a@6 a@4 a@5 a@8) ->
  grad_exact2 (fun a => physical_deflection_angle_nfw a@2 a@3 a@4 a@5 a@6 a@7 a@0 a@1 a@8 a@9) (t_deflection_nfw (V 2) (V 3) (V 4) (V 5) (V 6) (V 7) (V 0) (V 1) (V 8) (V 9)) a req /\
  grad_exact (fun a => potential_nfw a@10 a@6 a@2 a@3 a@4 a@5 a@7 a@0 a@1 a@8 a@9) (t_potential_nfw (V 10) (V 6) (V 2) (V 3) (V 4) (V 5) (V 7) (V 0) (V 1) (V 8) (V 9)) a req /\
  grad_exact_opt (fun a => convergence_nfw a@10 a@6 a@2 a@3 a@4 a@5 a@0 a@1 a@7 a@8 a@9) (t_convergence_nfw (V 10) (V 6) (V 2) (V 3) (V 4) (V 5) (V 0) (V 1) (V 7) (V 8) (V 9)) a req.
Proof.
  intros H P4 P5 P6 P7 P8 P9 P10 HC.
  destruct (nfw_tm a (V 0) (V 1) (V 2) (V 3) (V 9) (V 6) (V 4) (V 5) (V 8) (V 7) I I I I I H P9 I I I I I P6 P4 P5 P8 P7) as [O1 O2].
  destruct (nfw_mass_tm a (V 0) (V 1) (V 2) (V 3) (V 9) (V 6) (V 4) (V 5) (V 8) (V 7) I I I I I H P9 I I I I I P6 P4 P5 P8 P7 (V 10) I (Rgt_not_eq _ _ P10)) as [O3 O4].
  specialize (O3 (proj1 HC)).
  split; [g2; apply (nfw_ad a (one_of req k)); assumption|split; [g1; apply (nfw_ad a (one_of req k)); assumption|]].
  unfold grad_exact_opt. g1. apply (nfw_ad a (one_of req k)); assumption.
Qed.
Lemma tnfw_grad : a@0 <> a@2 \/ a@1 <> a@3 -> 0 < a@4 -> 0 < a@5 -> 0 < a@7 -> 0 <= a@8 -> 0 < a@9 -> 0 < a@10 ->
  let g := (sqrt ((a@0 - a@2) ^ 2 + (a@1 - a@3) ^ 2) + a@8) / a@4 in
  g <> 1 - 1 / 100 -> g <> 1 + 1 / 100 ->
  grad_exact2 (fun a => physical_deflection_angle_tnfw a@2 a@3 a@4 a@5 a@0 a@1 a@6 a@7 a@8) (t_deflection_tnfw (V 2) (V 3) (V 4) (V 5) (V 0) (V 1) (V 6) (V 7) (V 8)) a req /\
  (g <> 1 - 1 / 1000 -> g <> 1 + 1 / 1000 ->
   grad_exact (fun a => potential_tnfw a@2 a@3 a@4 a@5 a@0 a@1 a@6 a@7 a@10 a@11 a@8) (t_potential_tnfw (V 2) (V 3) (V 4) (V 5) (V 0) (V 1) (V 6) (V 7) (V 10) (V 11) (V 8)) a req) /\
  (g <> 1 -> grad_exact (fun a => convergence_tnfw a@2 a@3 a@4 a@5 a@0 a@1 a@9 a@6 a@7 a@8) (t_convergence_tnfw (V 2) (V 3) (V 4) (V 5) (V 0) (V 1) (V 9) (V 6) (V 7) (V 8)) a req).
Proof.
  intros H P4 P5 P7 P8 P9 P10 g N1 N2.
  destruct (tnfw_tm a (V 0) (V 1) (V 2) (V 3) (V 8) (V 4) (V 5) (V 6) (V 7) I I I I I H P8 I I I I P4 P5 P7) as [O1 O2].
  split; [g2; apply (tnfw_ad a (one_of req k)); assumption|split].
  - intros N3 N4. pose proof (tnfw_psi_tm a (V 0) (V 1) (V 2) (V 3) (V 8) (V 4) (V 5) (V 6) (V 7) I I I I I H P8 I I I I P4 P5 P7 (V 10) (V 11) I I (Rgt_not_eq _ _ P10)) as O3.
    g1. apply (tnfw_ad a (one_of req k)); assumption.
  - intros N3. pose proof (tnfw_kappa_tm a (V 0) (V 1) (V 2) (V 3) (V 8) (V 4) (V 5) (V 6) (V 7) I I I I I H P8 I I I I P4 P5 P7 (V 9) I (Rgt_not_eq _ _ P9) N3) as O3.
    g1. apply (tnfw_ad a (one_of req k)); assumption.
Qed.
Lemma multipole_grad ms : orders_accepted (mode_vals ms a) = true -> a@0 <> a@2 \/ a@1 <> a@3 ->
  grad_exact2 (fun a => reduced_deflection_angle_multipole a@2 a@3 (mode_vals ms a) a@0 a@1) (t_deflection_multipole (V 2) (V 3) (mode_args ms) (V 0) (V 1)) a req /\
  grad_exact (fun a => potential_multipole a@2 a@3 (mode_vals ms a) a@0 a@1) (t_potential_multipole (V 2) (V 3) (mode_args ms) (V 0) (V 1)) a req /\
  grad_exact (fun a => convergence_multipole a@2 a@3 (mode_vals ms a) a@0 a@1) (t_convergence_multipole (V 2) (V 3) (mode_args ms) (V 0) (V 1)) a req.
Proof.
  intros HM H.
  assert (HL : forall m c p, In (m, c, p) (mode_args ms) -> (2 <= m)%Z /\ tame a c /\ tame a p).
  { intros m c p K. unfold mode_args in K. apply in_map_iff in K as ([k m'] & E & K). injection E as -> <- <-. split; [|split; exact I].
    unfold orders_accepted in HM. rewrite forallb_forall in HM. specialize (HM (m, a (4 + 2 * k)%nat, a (5 + 2 * k)%nat)). cbv beta iota in HM.
    apply Z.leb_le, HM. unfold mode_vals. apply in_map_iff. exists (k, m). auto. }
  destruct (multipole_tm a (V 0) (V 1) (V 2) (V 3) (mode_args ms) I I I I HL H) as [O1 O2].
  destruct (multipole_mass_tm a (V 0) (V 1) (V 2) (V 3) (mode_args ms) I I I I HL H) as [O3 O4].
  split; [g2; apply (multipole_ad a (one_of req k)); assumption|split; g1; apply (multipole_ad a (one_of req k)); assumption].
Qed.
Lemma epl_kappa_grad : 0 < a@4 -> 0 < a@6 -> (a@0 <> a@2 \/ a@1 <> a@3) \/ a@8 <> 0 ->
  grad_exact (fun a => convergence_epl a@2 a@3 a@4 a@5 a@6 a@7 a@8 a@0 a@1) (t_convergence_epl (V 2) (V 3) (V 4) (V 5) (V 6) (V 7) (V 0) (V 1) (V 8)) a req.
Proof.
  intros P4 P6 H.
  destruct (epl_kappa_tm a (V 0) (V 1) (V 2) (V 3) (V 4) (V 5) (V 6) (V 7) (V 8) I I I I I I I I I P4 P6 H) as (O1 & O2 & P2).
  g1. apply (epl_kappa_ad a (one_of req k)); assumption.
Qed.
Lemma sersic_grad : 0 < a@4 -> 0 < a@6 -> 0 < a@7 -> 0 <= a@10 -> (a@0 <> a@2 \/ a@1 <> a@3) ->
  grad_exact_opt (fun a => brightness_sersic a@2 a@3 a@4 a@5 a@6 a@7 a@8 a@0 a@1 a@9 a@10) (t_brightness_sersic (V 2) (V 3) (V 4) (V 5) (V 6) (V 7) (V 8) (V 0) (V 1) (V 9) (V 10)) a req.
Proof.
  intros P4 P6 P7 P10 H.
  destruct (sersic_tm a (V 0) (V 1) (V 2) (V 3) (V 4) (V 5) (V 6) (V 7) (V 8) (V 9) (V 10) I I I I I I I I I I I (Rgt_not_eq _ _ P4) (Rgt_not_eq _ _ P6) P7 P10 H) as (O1 & O2 & P2).
  unfold grad_exact_opt. g1. apply (sersic_ad a (one_of req k)); assumption.
Qed.
End Thms.

(** ** The deflection of a lens that only has a potential *)
Lemma bumped0 a h : bumped a 0 h = moved a (a@0 + h) a@1.
Proof. apply FunctionalExtensionality.functional_extensionality. intros [|[|n]]; reflexivity. Qed.
Lemma bumped1 a h : bumped a 1 h = moved a a@0 (a@1 + h).
Proof. apply FunctionalExtensionality.functional_extensionality. intros [|[|n]]; reflexivity. Qed.
Lemma ad_grad_is_gradient F t a : grad_exact F t a position ->
  ad_grad t a = (Fin (fst (default_deflection (fun x y => F (moved a x y)) a@0 a@1)), Fin (snd (default_deflection (fun x y => F (moved a x y)) a@0 a@1))).
Proof.
  intros H. destruct (H 0%nat eq_refl) as (d0 & G0 & D0), (H 1%nat eq_refl) as (d1 & G1 & D1). unfold ad_grad. rewrite G0, G1. unfold default_deflection, LensBase_Model.grad; cbn [fst snd].
  apply pair_equal_spec. split; apply Fin_eq; symmetry; apply is_derive_unique, shift_derive.
  - apply (is_derive_ext (fun h => F (bumped a 0 h))); [intros h; rewrite bumped0; reflexivity|exact D0].
  - apply (is_derive_ext (fun h => F (bumped a 1 h))); [intros h; rewrite bumped1; reflexivity|exact D1].
Qed.

(** ** The centre *)
Lemma bad_not n : bad n <-> (n = NaN \/ n = Unk).
Proof. split; [destruct n as [r| |]; [intros H; destruct (H r eq_refl)|auto|auto]|intros [->| ->] r; discriminate]. Qed.
Lemma bad_l2 f x y : bad x \/ bad y -> bad (lift2 f x y).
Proof. rewrite !bad_not. intros [[->| ->]|[->| ->]]; [destruct y as [q| |]|destruct y as [q| |]|destruct x as [q| |]|destruct x as [q| |]]; cbn [lift2]; auto. Qed.
Lemma bad_l1 f x : bad x -> bad (lift1 f x).
Proof. rewrite !bad_not. intros [->| ->]; cbn [lift1]; auto. Qed.
Lemma bad_div0 b : bad (ndiv b (Fin 0)).
Proof. apply bad_not. destruct b as [r| |]; cbn [ndiv lift2]; [destruct (Req_EM_T 0 0) as [_|N]; [destruct (Req_EM_T r 0); auto|destruct (N eq_refl)]|auto|auto]. Qed.
(** [sub] occurs in the formula other than under a clamp or a where *)
Inductive reaches (sub : expr) : expr -> Prop :=
| reach_here : reaches sub sub
| reach_add1 a b : reaches sub a -> reaches sub (Add a b)
| reach_add2 a b : reaches sub b -> reaches sub (Add a b)
| reach_mul1 a b : reaches sub a -> reaches sub (Mul a b)
| reach_mul2 a b : reaches sub b -> reaches sub (Mul a b)
| reach_div1 a b : reaches sub a -> reaches sub (Div a b)
| reach_div2 a b : reaches sub b -> reaches sub (Div a b)
| reach_pow a n : reaches sub a -> reaches sub (Pow a n).
Lemma reaches_needs a req sub e : needs a req sub = true -> reaches sub e -> needs a req e = true.
Proof. intros N. induction 1; cbn [needs]; rewrite ?IHreaches, ?Bool.orb_true_r; auto. Qed.
Lemma bad_reaches a req sub k : needs a req sub = true -> (forall bar, bad (back a req sub bar k)) -> forall e, reaches sub e -> forall bar, bad (back a req e bar k).
Proof.
  intros N HB e. induction 1 as [|p q H IH|p q H IH|p q H IH|p q H IH|p q H IH|p q H IH|p n H IH]; intros bar; [apply HB|..];
    pose proof (reaches_needs _ _ _ _ N H) as NE; cbn [back needs]; rewrite NE, ?Bool.orb_true_r; cbn [orb]; first [apply IH|apply bad_l2; auto].
Qed.
Section Centre.
Variable a : nat -> R.
Variable req : nat -> bool.
Hypothesis C0 : a@0 = a@2.
Hypothesis C1 : a@1 = a@3.
Hypothesis R0 : req 0%nat = true.
Let r := Sqrt (Add (Pow (Sub (V 0) (V 2)) 2) (Pow (Sub (V 1) (V 3)) 2)).
Lemma root_bad bar : bad (back a req r bar 0).
Proof.
  assert (E : val a (Add (Pow (Sub (V 0) (V 2)) 2) (Pow (Sub (V 1) (V 3)) 2)) = Fin 0).
  { unfold val. cbn [jvp fst snd nsub npow nadd lift1 lift2]. apply Fin_eq. rewrite C0, C1. ring. }
  unfold r. cbn [back]. cbn [needs]. rewrite R0. cbn [orb]. rewrite E. rewrite nsqrt_fin by lra. rewrite sqrt_0. cbn [nmul lift2]. rewrite Rmult_0_r.
  pose proof (bad_div0 bar) as B. set (b := ndiv bar (Fin 0)) in *. clearbody b.
  apply bad_l2. left. apply bad_l2. left. unfold nmul. apply bad_l2. left. exact B.
Qed.
Lemma r_needs : needs a req r = true.
Proof. unfold r. cbn [needs]. rewrite R0. reflexivity. Qed.
Lemma centre_bad e : reaches r e -> bad (grad a req e 0).
Proof. intros H. apply (bad_reaches a req r 0 r_needs root_bad e H). Qed.
End Centre.
Section Centres.
Variable a : nat -> R.
Variable req : nat -> bool.
Hypothesis C0 : a@0 = a@2.
Hypothesis C1 : a@1 = a@3.
Hypothesis R0 : req 0%nat = true.
Ltac reach := repeat match goal with
  | |- reaches ?s ?s => apply reach_here
  | |- reaches ?s (Pow ?p ?n) => apply reach_pow
  | |- reaches ?s (Add ?p ?q) => match p with context [s] => apply reach_add1 | _ => match q with context [s] => apply reach_add2 end end
  | |- reaches ?s (Mul ?p ?q) => match p with context [s] => apply reach_mul1 | _ => match q with context [s] => apply reach_mul2 end end
  | |- reaches ?s (Div ?p ?q) => match q with context [s] => apply reach_div2 | _ => match p with context [s] => apply reach_div1 end end
  end.
Ltac centre := apply centre_bad; try assumption; cbn [t_translate_rotate fst snd]; reach.
Lemma centres_bad :
  bad (grad a req (fst (t_deflection_sis (V 2) (V 3) (V 4) (V 5) (V 0) (V 1))) 0) /\
  bad (grad a req (fst (t_deflection_point (V 2) (V 3) (V 4) (V 5) (V 0) (V 1))) 0) /\
  bad (grad a req (fst (t_deflection_pseudo_jaffe (V 2) (V 3) (V 4) (V 5) (V 6) (V 0) (V 1) (V 7) (V 8) (V 9))) 0) /\
  bad (grad a req (fst (t_deflection_nfw (V 2) (V 3) (V 4) (V 5) (V 6) (V 7) (V 0) (V 1) (V 8) (V 9))) 0) /\
  bad (grad a req (fst (t_deflection_tnfw (V 2) (V 3) (V 4) (V 5) (V 0) (V 1) (V 6) (V 7) (V 8))) 0).
Proof.
  split; [|split; [|split; [|split]]].
  - unfold t_deflection_sis. centre.
  - unfold t_deflection_point. centre.
  - unfold t_deflection_pseudo_jaffe. centre.
  - unfold t_deflection_nfw. centre.
  - unfold t_deflection_tnfw. cbn [t_translate_rotate]. unfold t_deflection_tnfw_at. centre.
Qed.
End Centres.
