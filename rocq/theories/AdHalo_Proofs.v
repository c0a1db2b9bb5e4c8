(** * Halos: their programs compute their formulas, forward and backward *)
From Coq Require Import Reals Lra Lia Arith ZArith List Bool.
From Coquelicot Require Import Coquelicot.
From Verif Require Import RealFun Const_Model Const_Proofs Cosmo_Model LensBase_Model Jaffe_Model Nfw_Model Nfw_Proofs Nfw2_Proofs Tnfw_Model Tnfw3_Proofs Multipole_Model Halo_Model
  Ad_Model Ad_Spec Ad_Proofs AdLens_Model AdLens_Spec AdLens_Proofs Rev_Model Rev_Spec Rev_Proofs RevLens_Proofs AdMulti_Model AdMulti_Spec AdMulti2_Proofs AdCosmo_Spec AdHalo_Model AdHalo_Spec.
Import ListNotations.
Local Open Scope R_scope.
Local Notation env := (nat -> R).

Section Value.
Variables (cd rho : env -> R -> R) (t_cd t_rho : R -> expr) (z_s z : R) (n : nat) (b : env) (dx dy : expr).
Hypothesis C1 : cd b z = ev b (t_cd z).
Hypothesis C2 : cd b z_s = ev b (t_cd z_s).
Hypothesis C3 : rho b z = ev b (t_rho z).
Notation L h := (halo_lens cd rho z_s n h z b).
Notation P h := (halo_program t_cd t_rho z_s n h z).
Lemma fin_div_total u w : match fin_div u w with Some v => v | None => 0 end = u / w.
Proof. unfold fin_div. destruct (Req_EM_T w 0) as [->|]; [|reflexivity]. unfold Rdiv. rewrite Rinv_0. ring. Qed.
Lemma halo_value h : reduced_deflection_angle (L h) (ev b dx) (ev b dy) = (ev b (fst (t_deflection (P h) dx dy)), ev b (snd (t_deflection (P h) dx dy))) /\
  potential (L h) (ev b dx) (ev b dy) = ev b (t_psi (P h) dx dy) /\ convergence (L h) (ev b dx) (ev b dy) = ev b (t_kappa (P h) dx dy).
Proof.
  destruct h as [s|tot s| |ms]; cbn [halo_lens halo_program nfw_lens tnfw_lens jaffe_lens reduced_deflection_angle potential convergence t_deflection t_psi t_kappa].
  - unfold nfw_reduced_deflection_angle, nfw_physical_deflection_angle, nfw_potential, nfw_convergence, critical_surface_density, angular_diameter_distance, angular_diameter_distance_z1z2, comoving_distance_z1z2.
    cbv zeta. rewrite C1, C2, C3. split; [reflexivity|]. split; [reflexivity|]. apply fin_div_total.
  - unfold tnfw_reduced_deflection_angle, tnfw_physical_deflection_angle, tnfw_potential, tnfw_convergence, tnfw_M0, critical_surface_density, angular_diameter_distance, angular_diameter_distance_z1z2, comoving_distance_z1z2.
    cbv zeta. rewrite C1, C2, C3. destruct tot; repeat split; reflexivity.
  - unfold jaffe_reduced_deflection_angle, jaffe_potential, jaffe_convergence, critical_surface_density, angular_diameter_distance, angular_diameter_distance_z1z2, comoving_distance_z1z2.
    cbv zeta. rewrite C1, C2. repeat split; reflexivity.
  - cbv zeta. set (k := combine _ _). set (N := length ms).
    assert (F : forall (f : order -> R) (t : Z -> expr -> expr -> expr), (forall m c p, f (m, ev b c, ev b p) = ev b (t m c p)) ->
      msum f (map (fun '(i, m) => (m, b (n + (2 + i))%nat, b (n + (2 + N + i))%nat)) k) = ev b (fold_right (fun '(m, c, p) s => Add (t m c p) s) (Cst 0) (map (fun '(i, m) => (m, Var (n + (2 + i)), Var (n + (2 + N + i)))) k))).
    { intros f t E. clearbody k N. clear - E. induction k as [|[i m] k IH]; [reflexivity|]. cbn [map msum fold_right ev]. rewrite <- IH. f_equal. exact (E m (Var _) (Var _)). }
    split; [unfold reduced_deflection_angle_multipole; cbn [Geo_Model.translate_rotate]; cbv zeta; f_equal|split; [unfold potential_multipole|unfold convergence_multipole]; cbn [Geo_Model.translate_rotate]; cbv zeta]; (etransitivity; [apply F|reflexivity]); intros m c p; reflexivity.
Qed.
Notation PP h := (halo_physical_program t_cd t_rho z_s n h z).
Lemma physical_value h : halo_physical cd rho z_s n h z b (ev b dx) (ev b dy) = (ev b (fst (PP h dx dy)), ev b (snd (PP h dx dy))).
Proof.
  assert (V := proj1 (halo_value h)). destruct h as [s|tot s| |ms]; cbn [halo_physical halo_physical_program].
  - unfold nfw_physical_deflection_angle, angular_diameter_distance. cbv zeta. rewrite C1, C3. reflexivity.
  - unfold tnfw_physical_deflection_angle, tnfw_M0, angular_diameter_distance. cbv zeta. rewrite C1, C3. destruct tot; reflexivity.
  - unfold physical_deflection_angle, t_physical_deflection. rewrite V. destruct (t_deflection (P Jaffe) dx dy) as [u w]. unfold physical_from_reduced_deflection_angle, angular_diameter_distance, angular_diameter_distance_z1z2, comoving_distance_z1z2.
    cbn [halo_lens jaffe_lens z_l fst snd ev t_add t_add2 t_z halo_program]. rewrite C1, C2. reflexivity.
  - unfold physical_deflection_angle, t_physical_deflection. rewrite V. destruct (t_deflection (P (Multipoles ms)) dx dy) as [u w]. unfold physical_from_reduced_deflection_angle, angular_diameter_distance, angular_diameter_distance_z1z2, comoving_distance_z1z2.
    cbn [halo_lens z_l fst snd ev t_add t_add2 t_z halo_program]. rewrite C1, C2. reflexivity.
Qed.
End Value.
(** the way through the reduced angle gives the same *)
Lemma physical_same cd rho z_s n h z (b : env) x y : 1 + z_s <> 0 -> cd b z_s <> 0 -> cd b z <> cd b z_s -> halo_physical cd rho z_s n h z b x y = physical_deflection_angle (cd b) (halo_lens cd rho z_s n h z b) z_s x y.
Proof.
  intros N1 N2 N3. assert (N4 : cd b z_s - cd b z <> 0) by lra.
  destruct h as [s|tot s| |ms]; try reflexivity; unfold physical_deflection_angle; cbn [halo_physical halo_lens nfw_lens tnfw_lens reduced_deflection_angle z_l];
    [unfold nfw_reduced_deflection_angle|unfold tnfw_reduced_deflection_angle]; cbv zeta;
    [destruct (nfw_physical_deflection_angle _ _ _ _ _ _ _ _ _ _) as [u w]|destruct (tnfw_physical_deflection_angle _ _ _ _ _ _ _ _ _ _ _ _) as [u w]];
    unfold reduced_from_physical_deflection_angle, physical_from_reduced_deflection_angle, angular_diameter_distance, angular_diameter_distance_z1z2, comoving_distance_z1z2; f_equal; field; repeat split; assumption.
Qed.

Section Forward.
Variables (a : env) (seed : nat -> option R) (t_cd t_rho : R -> expr) (z_s z : R) (n : nat) (dx dy : expr).
Notation ok := (Ad_Proofs.ok a seed).
Hypothesis Ox : ok dx.
Hypothesis Oy : ok dy.
Hypothesis O1 : ok (t_cd z).
Hypothesis O2 : ok (t_cd z_s).
Hypothesis O3 : ok (t_rho z).
Hypothesis P1 : -1 < z.
Hypothesis P2 : -1 < z_s.
Hypothesis P3 : 0 < ev a (t_cd z) < ev a (t_cd z_s).
Hypothesis P4 : 0 < ev a (t_rho z).
Notation P h := (halo_program t_cd t_rho z_s n h z).
Let dl := t_add t_cd z.
Let ds := t_add t_cd z_s.
Let dls := t_add2 t_cd z z_s.
Let sg := t_sigma_cr t_cd z z_s.
Lemma fw_distances : ok dl /\ ok ds /\ ok dls /\ ok sg /\ 0 < ev a dl /\ 0 < ev a ds /\ 0 < ev a dls /\ 0 < ev a sg.
Proof.
  assert (A1 : ok dl) by (unfold dl, t_add; oks; lra). assert (A2 : ok ds) by (unfold ds, t_add; oks; lra). assert (A3 : ok dls) by (unfold dls, t_add2; oks; lra).
  assert (B1 : 0 < ev a dl) by (unfold dl, t_add; cbn [ev]; apply Rdiv_lt_0_compat; lra). assert (B2 : 0 < ev a ds) by (unfold ds, t_add; cbn [ev]; apply Rdiv_lt_0_compat; lra).
  assert (B3 : 0 < ev a dls) by (unfold dls, t_add2; cbn [ev]; apply Rdiv_lt_0_compat; lra). assert (G := G_over_c2_pos). assert (PI0 := PI_RGT_0).
  assert (K : 0 < 4 * PI * G_over_c2 * ev a dl * ev a dls) by (apply Rmult_lt_0_compat; [apply Rmult_lt_0_compat; [apply Rmult_lt_0_compat; lra|]|]; assumption).
  assert (A4 : ok sg) by (unfold sg, t_sigma_cr; fold dl ds dls; oks; lra).
  assert (B4 : 0 < ev a sg) by (unfold sg, t_sigma_cr; fold dl ds dls; cbn [ev]; apply Rdiv_lt_0_compat; assumption). tauto.
Qed.
Lemma fw_reduced p : ok (fst p) -> ok (snd p) -> ok (fst (t_reduced_from_physical p ds dls)) /\ ok (snd (t_reduced_from_physical p ds dls)).
Proof. intros A B. destruct fw_distances as (_ & C1 & C2 & _ & _ & D1 & _). unfold t_reduced_from_physical. cbn [fst snd]. split; oks; lra. Qed.
Lemma fw_physical p : ok (fst p) -> ok (snd p) -> ok (Mul (Div ds dls) (fst p)) /\ ok (Mul (Div ds dls) (snd p)).
Proof. intros A B. destruct fw_distances as (_ & C1 & C2 & _ & _ & _ & D1 & _). split; oks; lra. Qed.
Lemma fw_M0 tot mass Rs tau : ok mass -> ok Rs -> ok tau -> 0 < ev a mass -> 0 < ev a Rs -> 0 < ev a tau -> ok (t_tnfw_M0 t_cd t_rho tot z mass Rs tau).
Proof.
  intros Om OR Ot Pm PR Pt. destruct fw_distances as (A1 & _ & _ & _ & B1 & _). destruct tot.
  - unfold t_tnfw_M0, t_M0_totmass_tnfw. assert (K := ktot_pos _ Pt). unfold ktot in K. assert (Q := pow_lt _ 2 Pt). oks; try assumption. apply Rmult_integral_contrapositive_currified; lra.
  - unfold t_tnfw_M0. cbv zeta. fold dl. assert (PA := arcsec_to_rad_pos). assert (PI0 := PI_RGT_0).
    assert (K1 : 0 < ev a Rs * ev a dl * arcsec_to_rad) by (apply Rmult_lt_0_compat; [apply Rmult_lt_0_compat|]; assumption).
    assert (K2 : 0 < 4 * PI * DELTA * ev a (t_rho z)) by (apply Rmult_lt_0_compat; [apply Rmult_lt_0_compat; [lra|unfold DELTA; lra]|exact P4]).
    assert (OC : ok (t_concentration_tnfw mass Rs (t_rho z) dl (Cst DELTA))) by (unfold t_concentration_tnfw; oks; try lra; apply Rdiv_lt_0_compat; lra).
    assert (PC : 0 < ev a (t_concentration_tnfw mass Rs (t_rho z) dl (Cst DELTA))) by (unfold t_concentration_tnfw; cbn [ev]; apply Rdiv_lt_0_compat; [apply exp_pos|exact K1]).
    set (c := t_concentration_tnfw _ _ _ _ _) in *. clearbody c. assert (K := ln_excess _ PC). unfold t_M0_scalemass_tnfw, t_scale_density_tnfw. oks; lra.
Qed.
Lemma fw_halo h (cd rho : env -> R -> R) : cd a z = ev a (t_cd z) -> rho a z = ev a (t_rho z) -> halo_proper n h a -> halo_fine cd rho n h z a (ev a dx) (ev a dy) ->
  ok (fst (t_deflection (P h) dx dy)) /\ ok (snd (t_deflection (P h) dx dy)) /\ ok (t_psi (P h) dx dy) /\ ok (t_kappa (P h) dx dy) /\
  ok (fst (halo_physical_program t_cd t_rho z_s n h z dx dy)) /\ ok (snd (halo_physical_program t_cd t_rho z_s n h z dx dy)).
Proof.
  intros C1 C3 H [HO HF]. destruct fw_distances as (A1 & A2 & A3 & A4 & B1 & B2 & B3 & B4). assert (OV : forall i, ok (Var i)) by (intros i; oks). assert (OC : forall r, ok (Cst r)) by (intros r; oks).
  assert (D0 : 0 < DELTA) by (unfold DELTA; lra).
  destruct h as [s|tot s| |ms]; cbn [halo_program halo_proper t_deflection t_psi t_kappa halo_physical_program] in *.
  - destruct H as (S0 & Pm & Pc).
    assert (HC : clear_of_1 eps_nfw (ev a (Div (Mul (Mul dl (Add (Sqrt (Add (Pow (Sub dx (Var (n + 0))) 2) (Pow (Sub dy (Var (n + 1))) 2))) (Cst s))) (Cst arcsec_to_rad)) (t_scale_radius_nfw (t_rho z) (Var (n + 2)) (Var (n + 3)) (Cst DELTA))))).
    { unfold angular_diameter_distance, nfw_get_scale_radius in HF. rewrite C1, C3 in HF. exact HF. }
    destruct (nfw_ok a seed dx dy (Var (n + 0)) (Var (n + 1)) (Cst s) (t_rho z) (Var (n + 2)) (Var (n + 3)) (Cst DELTA) dl Ox Oy (OV _) (OV _) (OC _) HO S0 O3 (OV _) (OV _) (OC _) A1 P4 Pm Pc D0 B1 HC) as [E1 E2].
    destruct (nfw_mass_ok a seed dx dy (Var (n + 0)) (Var (n + 1)) (Cst s) (t_rho z) (Var (n + 2)) (Var (n + 3)) (Cst DELTA) dl Ox Oy (OV _) (OV _) (OC _) HO S0 O3 (OV _) (OV _) (OC _) A1 P4 Pm Pc D0 B1 HC sg A4 ltac:(lra)) as [E3 E4].
    destruct (fw_reduced _ E1 E2) as [E5 E6]. split; [exact E5|]. split; [exact E6|]. split; [exact E4|]. split; [exact E3|]. split; [exact E1|exact E2].
  - destruct H as (S0 & Pm & PR & Pt). destruct HF as (N0 & N1 & N2 & N3 & N4).
    assert (OM := fw_M0 tot (Var (n + 2)) (Var (n + 3)) (Var (n + 4)) (OV _) (OV _) (OV _) Pm PR Pt). set (M := t_tnfw_M0 _ _ _ _ _ _ _) in OM.
    destruct (tnfw_ok a seed dx dy (Var (n + 0)) (Var (n + 1)) (Cst s) (Var (n + 3)) (Var (n + 4)) M dl Ox Oy (OV _) (OV _) (OC _) HO S0 (OV _) (OV _) OM A1 PR Pt B1 N1 N2) as [E1 E2].
    assert (E3 := tnfw_kappa_ok a seed dx dy (Var (n + 0)) (Var (n + 1)) (Cst s) (Var (n + 3)) (Var (n + 4)) M dl Ox Oy (OV _) (OV _) (OC _) HO S0 (OV _) (OV _) OM A1 PR Pt B1 N1 N2 sg A4 ltac:(lra) N0).
    assert (E4 := tnfw_psi_ok a seed dx dy (Var (n + 0)) (Var (n + 1)) (Cst s) (Var (n + 3)) (Var (n + 4)) M dl Ox Oy (OV _) (OV _) (OC _) HO S0 (OV _) (OV _) OM A1 PR Pt B1 N1 N2 ds dls A2 A3 ltac:(lra) N3 N4).
    destruct (fw_reduced _ E1 E2) as [E5 E6]. split; [exact E5|]. split; [exact E6|]. split; [exact E4|]. split; [exact E3|]. split; [exact E1|exact E2].
  - destruct H as (Pc & Ps & Pn).
    destruct (jaffe_ok a seed dx dy (Var (n + 0)) (Var (n + 1)) (Cst 0) Ox Oy (OV _) (OV _) (OC _) HO (Rle_refl 0) (Var (n + 2)) (Var (n + 3)) (Var (n + 4)) dl sg (OV _) (OV _) (OV _) A1 A4 Pc Ps Pn ltac:(lra) ltac:(lra)) as [E1 E2].
    destruct (jaffe_mass_ok a seed dx dy (Var (n + 0)) (Var (n + 1)) (Cst 0) (Var (n + 2)) (Var (n + 3)) (Var (n + 4)) dl sg ds dls Ox Oy (OV _) (OV _) (OC _) (Rle_refl 0) (OV _) (OV _) (OV _) A1 A4 A2 A3 Pc Ps Pn ltac:(lra) ltac:(lra) ltac:(lra)) as [E3 E4].
    destruct (fw_physical _ E1 E2). tauto.
  - cbv zeta. set (l := map _ _).
    assert (HL : forall m c p, In (m, c, p) l -> (2 <= m)%Z /\ ok c /\ ok p).
    { intros m c p I. unfold l in I. apply in_map_iff in I. destruct I as ([i m'] & E & I). injection E as <- <- <-. apply in_combine_r in I. split; [apply H, I|]. split; apply OV. }
    destruct (multipole_ok a seed dx dy (Var (n + 0)) (Var (n + 1)) l Ox Oy (OV _) (OV _) HL HO) as [E1 E2].
    destruct (multipole_mass_ok a seed dx dy (Var (n + 0)) (Var (n + 1)) l Ox Oy (OV _) (OV _) HL HO) as [E3 E4].
    destruct (fw_physical _ E1 E2). unfold t_physical_deflection. destruct (t_deflection _ dx dy) as [u w] eqn:E in |- *. cbn in E. injection E as <- <-. tauto.
Qed.
End Forward.

Section Backward.
Variables (a : env) (t_cd t_rho : R -> expr) (z_s z : R) (n : nat) (dx dy : expr).
Notation ok := (tame a).
Hypothesis Ox : ok dx.
Hypothesis Oy : ok dy.
Hypothesis O1 : ok (t_cd z).
Hypothesis O2 : ok (t_cd z_s).
Hypothesis O3 : ok (t_rho z).
Hypothesis P1 : -1 < z.
Hypothesis P2 : -1 < z_s.
Hypothesis P3 : 0 < ev a (t_cd z) < ev a (t_cd z_s).
Hypothesis P4 : 0 < ev a (t_rho z).
Notation P h := (halo_program t_cd t_rho z_s n h z).
Let dl := t_add t_cd z.
Let ds := t_add t_cd z_s.
Let dls := t_add2 t_cd z z_s.
Let sg := t_sigma_cr t_cd z z_s.
Lemma bw_distances : ok dl /\ ok ds /\ ok dls /\ ok sg /\ 0 < ev a dl /\ 0 < ev a ds /\ 0 < ev a dls /\ 0 < ev a sg.
Proof.
  assert (A1 : ok dl) by (unfold dl, t_add; tms; lra). assert (A2 : ok ds) by (unfold ds, t_add; tms; lra). assert (A3 : ok dls) by (unfold dls, t_add2; tms; lra).
  assert (B1 : 0 < ev a dl) by (unfold dl, t_add; cbn [ev]; apply Rdiv_lt_0_compat; lra). assert (B2 : 0 < ev a ds) by (unfold ds, t_add; cbn [ev]; apply Rdiv_lt_0_compat; lra).
  assert (B3 : 0 < ev a dls) by (unfold dls, t_add2; cbn [ev]; apply Rdiv_lt_0_compat; lra). assert (G := G_over_c2_pos). assert (PI0 := PI_RGT_0).
  assert (K : 0 < 4 * PI * G_over_c2 * ev a dl * ev a dls) by (apply Rmult_lt_0_compat; [apply Rmult_lt_0_compat; [apply Rmult_lt_0_compat; lra|]|]; assumption).
  assert (A4 : ok sg) by (unfold sg, t_sigma_cr; fold dl ds dls; tms; lra).
  assert (B4 : 0 < ev a sg) by (unfold sg, t_sigma_cr; fold dl ds dls; cbn [ev]; apply Rdiv_lt_0_compat; assumption). tauto.
Qed.
Lemma bw_reduced p : ok (fst p) -> ok (snd p) -> ok (fst (t_reduced_from_physical p ds dls)) /\ ok (snd (t_reduced_from_physical p ds dls)).
Proof. intros A B. destruct bw_distances as (_ & C1 & C2 & _ & _ & D1 & _). unfold t_reduced_from_physical. cbn [fst snd]. split; tms; lra. Qed.
Lemma bw_physical p : ok (fst p) -> ok (snd p) -> ok (Mul (Div ds dls) (fst p)) /\ ok (Mul (Div ds dls) (snd p)).
Proof. intros A B. destruct bw_distances as (_ & C1 & C2 & _ & _ & _ & D1 & _). split; tms; lra. Qed.
Lemma bw_M0 tot mass Rs tau : ok mass -> ok Rs -> ok tau -> 0 < ev a mass -> 0 < ev a Rs -> 0 < ev a tau -> ok (t_tnfw_M0 t_cd t_rho tot z mass Rs tau).
Proof.
  intros Om OR Ot Pm PR Pt. destruct bw_distances as (A1 & _ & _ & _ & B1 & _). destruct tot.
  - unfold t_tnfw_M0, t_M0_totmass_tnfw. assert (K := ktot_pos _ Pt). unfold ktot in K. assert (Q := pow_lt _ 2 Pt). tms; try assumption. apply Rmult_integral_contrapositive_currified; lra.
  - unfold t_tnfw_M0. cbv zeta. fold dl. assert (PA := arcsec_to_rad_pos). assert (PI0 := PI_RGT_0).
    assert (K1 : 0 < ev a Rs * ev a dl * arcsec_to_rad) by (apply Rmult_lt_0_compat; [apply Rmult_lt_0_compat|]; assumption).
    assert (K2 : 0 < 4 * PI * DELTA * ev a (t_rho z)) by (apply Rmult_lt_0_compat; [apply Rmult_lt_0_compat; [lra|unfold DELTA; lra]|exact P4]).
    assert (OC : ok (t_concentration_tnfw mass Rs (t_rho z) dl (Cst DELTA))) by (unfold t_concentration_tnfw; tms; try lra; apply Rdiv_lt_0_compat; lra).
    assert (PC : 0 < ev a (t_concentration_tnfw mass Rs (t_rho z) dl (Cst DELTA))) by (unfold t_concentration_tnfw; cbn [ev]; apply Rdiv_lt_0_compat; [apply exp_pos|exact K1]).
    set (c := t_concentration_tnfw _ _ _ _ _) in *. clearbody c. assert (K := ln_excess _ PC). unfold t_M0_scalemass_tnfw, t_scale_density_tnfw. tms; lra.
Qed.
Lemma bw_halo h (cd rho : env -> R -> R) : cd a z = ev a (t_cd z) -> rho a z = ev a (t_rho z) -> halo_proper n h a -> halo_fine cd rho n h z a (ev a dx) (ev a dy) ->
  ok (fst (t_deflection (P h) dx dy)) /\ ok (snd (t_deflection (P h) dx dy)) /\ ok (t_psi (P h) dx dy) /\ ok (t_kappa (P h) dx dy) /\
  ok (fst (halo_physical_program t_cd t_rho z_s n h z dx dy)) /\ ok (snd (halo_physical_program t_cd t_rho z_s n h z dx dy)).
Proof.
  intros C1 C3 H [HO HF]. destruct bw_distances as (A1 & A2 & A3 & A4 & B1 & B2 & B3 & B4). assert (OV : forall i, ok (Var i)) by (intros i; tms). assert (OC : forall r, ok (Cst r)) by (intros r; tms).
  assert (D0 : 0 < DELTA) by (unfold DELTA; lra).
  destruct h as [s|tot s| |ms]; cbn [halo_program halo_proper t_deflection t_psi t_kappa halo_physical_program] in *.
  - destruct H as (S0 & Pm & Pc).
    assert (HC : clear_of_1 eps_nfw (ev a (Div (Mul (Mul dl (Add (Sqrt (Add (Pow (Sub dx (Var (n + 0))) 2) (Pow (Sub dy (Var (n + 1))) 2))) (Cst s))) (Cst arcsec_to_rad)) (t_scale_radius_nfw (t_rho z) (Var (n + 2)) (Var (n + 3)) (Cst DELTA))))).
    { unfold angular_diameter_distance, nfw_get_scale_radius in HF. rewrite C1, C3 in HF. exact HF. }
    destruct (nfw_tm a dx dy (Var (n + 0)) (Var (n + 1)) (Cst s) (t_rho z) (Var (n + 2)) (Var (n + 3)) (Cst DELTA) dl Ox Oy (OV _) (OV _) (OC _) HO S0 O3 (OV _) (OV _) (OC _) A1 P4 Pm Pc D0 B1) as [E1 E2].
    destruct (nfw_mass_tm a dx dy (Var (n + 0)) (Var (n + 1)) (Cst s) (t_rho z) (Var (n + 2)) (Var (n + 3)) (Cst DELTA) dl Ox Oy (OV _) (OV _) (OC _) HO S0 O3 (OV _) (OV _) (OC _) A1 P4 Pm Pc D0 B1 sg A4 ltac:(lra)) as [E3 E4].
    destruct (bw_reduced _ E1 E2) as [E5 E6]. split; [exact E5|]. split; [exact E6|]. split; [exact E4|]. split; [exact (E3 (proj1 HC))|]. split; [exact E1|exact E2].
  - destruct H as (S0 & Pm & PR & Pt). destruct HF as (N0 & N1 & N2 & N3 & N4).
    assert (OM := bw_M0 tot (Var (n + 2)) (Var (n + 3)) (Var (n + 4)) (OV _) (OV _) (OV _) Pm PR Pt). set (M := t_tnfw_M0 _ _ _ _ _ _ _) in OM.
    destruct (tnfw_tm a dx dy (Var (n + 0)) (Var (n + 1)) (Cst s) (Var (n + 3)) (Var (n + 4)) M dl Ox Oy (OV _) (OV _) (OC _) HO S0 (OV _) (OV _) OM A1 PR Pt B1) as [E1 E2].
    assert (E3 := tnfw_kappa_tm a dx dy (Var (n + 0)) (Var (n + 1)) (Cst s) (Var (n + 3)) (Var (n + 4)) M dl Ox Oy (OV _) (OV _) (OC _) HO S0 (OV _) (OV _) OM A1 PR Pt B1 sg A4 ltac:(lra) N0).
    assert (E4 := tnfw_psi_tm a dx dy (Var (n + 0)) (Var (n + 1)) (Cst s) (Var (n + 3)) (Var (n + 4)) M dl Ox Oy (OV _) (OV _) (OC _) HO S0 (OV _) (OV _) OM A1 PR Pt B1 ds dls A2 A3 ltac:(lra)).
    destruct (bw_reduced _ E1 E2) as [E5 E6]. split; [exact E5|]. split; [exact E6|]. split; [exact E4|]. split; [exact E3|]. split; [exact E1|exact E2].
  - destruct H as (Pc & Ps & Pn).
    destruct (jaffe_tm a dx dy (Var (n + 0)) (Var (n + 1)) (Cst 0) Ox Oy (OV _) (OV _) (OC _) HO (Rle_refl 0) (Var (n + 2)) (Var (n + 3)) (Var (n + 4)) dl sg (OV _) (OV _) (OV _) A1 A4 Pc Ps Pn ltac:(lra) ltac:(lra)) as [E1 E2].
    destruct (jaffe_mass_tm a dx dy (Var (n + 0)) (Var (n + 1)) (Cst 0) (Var (n + 2)) (Var (n + 3)) (Var (n + 4)) dl sg ds dls Ox Oy (OV _) (OV _) (OC _) (Rle_refl 0) (OV _) (OV _) (OV _) A1 A4 A2 A3 Pc Ps Pn ltac:(lra) ltac:(lra) ltac:(lra)) as [E3 E4].
    destruct (bw_physical _ E1 E2). tauto.
  - cbv zeta. set (l := map _ _).
    assert (HL : forall m c p, In (m, c, p) l -> (2 <= m)%Z /\ ok c /\ ok p).
    { intros m c p I. unfold l in I. apply in_map_iff in I. destruct I as ([i m'] & E & I). injection E as <- <- <-. apply in_combine_r in I. split; [apply H, I|]. split; apply OV. }
    destruct (multipole_tm a dx dy (Var (n + 0)) (Var (n + 1)) l Ox Oy (OV _) (OV _) HL HO) as [E1 E2].
    destruct (multipole_mass_tm a dx dy (Var (n + 0)) (Var (n + 1)) l Ox Oy (OV _) (OV _) HL HO) as [E3 E4].
    destruct (bw_physical _ E1 E2). unfold t_physical_deflection. destruct (t_deflection _ dx dy) as [u w] eqn:E in |- *. cbn in E. injection E as <- <-. tauto.
Qed.
End Backward.
