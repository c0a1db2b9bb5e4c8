(** * Distances with dual numbers *)
From Coq Require Import Reals Lra Lia Arith ZArith List Bool.
From Coquelicot Require Import Coquelicot.
From Verif Require Import RealFun Derive1 Const_Model Cosmo_Model Interp1_Model Interp1_Proofs CosmoTable_Model CosmoTable_Proofs Ad_Model Ad_Spec Ad_Proofs AdLens_Model Rev_Model Rev_Spec
  AdMulti_Spec AdMulti2_Proofs AdCosmo_Model AdCosmo_Spec AdCosmo_Proofs.
Import ListNotations.
Local Open Scope R_scope.
Local Notation env := (nat -> R).

Section Mode.
Variables (m : mode) (a : env).
Notation Rel := (follows m a).
Lemma m_cst r : Rel (fun _ => r) (Cst r).
Proof. destruct m; [apply fl_cst|apply fb_cst]. Qed.
Lemma m_var n : Rel (fun b => b n) (Var n).
Proof. destruct m; [apply fl_var|apply fb_var]. Qed.
Lemma m_add f g d e : Rel f d -> Rel g e -> Rel (fun b => f b + g b) (Add d e).
Proof. destruct m; [apply fl_add|apply fb_add]. Qed.
Lemma m_sub f g d e : Rel f d -> Rel g e -> Rel (fun b => f b - g b) (Sub d e).
Proof. destruct m; [apply fl_sub|apply fb_sub]. Qed.
Lemma m_mul f g d e : Rel f d -> Rel g e -> Rel (fun b => f b * g b) (Mul d e).
Proof. destruct m; [apply fl_mul|apply fb_mul]. Qed.
Lemma m_div f g d e : Rel f d -> Rel g e -> g a <> 0 -> Rel (fun b => f b / g b) (Div d e).
Proof. destruct m; [apply fl_div|apply fb_div]. Qed.
Lemma m_pow f d k : Rel f d -> Rel (fun b => f b ^ k) (Pow d k).
Proof. destruct m; [apply fl_pow|apply fb_pow]. Qed.
Lemma m_rpow f d p : Rel f d -> 0 < f a -> Rel (fun b => Rpower (f b) p) (RPow d (Cst p)).
Proof. destruct m; [apply fl_rpow|apply fb_rpow]. Qed.
Lemma m_interp n x y : (2 <= n)%nat -> (forall i j, (i < j < n)%nat -> x i < x j) -> forall f e, Rel f e -> x 0%nat < f a -> Rel (fun b => interp1d n x y Extrapolate (f b)) (t_interp1d n x y e).
Proof. intros Hn Hx. destruct m; [intros f e; apply (fl_interp n x y Hn Hx)|intros f e; apply (fb_interp n x y Hn Hx)]. Qed.
Lemma m_exact F t : Rel F t -> exactly m a F t.
Proof. destruct m; [apply fl_exact|apply fb_exact]. Qed.

Lemma m_helper f e : Rel f e -> / 1000 < f a -> Rel (fun b => comoving_distance_helper (f b)) (t_helper e).
Proof. intros H L. apply (m_interp table_size x_grid y_grid); [unfold table_size; lia|exact grid_increasing|exact H|rewrite x_grid_0; exact L]. Qed.
Lemma m_distance z h0 Om0 dz dh dO : Rel z dz -> Rel h0 dh -> Rel Om0 dO -> h0 a <> 0 -> 0 < Om0 a < 1 -> / 1000 < entry0 (Om0 a) -> / 1000 < (1 + z a) * entry0 (Om0 a) ->
  Rel (fun b => flat_comoving_distance (z b) (h0 b) (Om0 b)) (t_comoving_distance dz dh dO).
Proof.
  intros Hz Hh HO Nh PO L1 L2. unfold flat_comoving_distance, comoving_distance_flat, hubble_distance, t_comoving_distance, t_hubble_distance.
  assert (HE : Rel (fun b => 1 - Om0 b) (Sub (Cst 1) dO)) by (apply m_sub; [apply m_cst|exact HO]).
  assert (HR : Rel (fun b => Rpower (Om0 b / (1 - Om0 b)) (1 / 3)) (RPow (Div dO (Sub (Cst 1) dO)) (Cst (1 / 3)))).
  { apply (m_rpow (fun b => Om0 b / (1 - Om0 b))); [apply (m_div Om0); [exact HO|exact HE|lra]|]. apply Rdiv_lt_0_compat; lra. }
  cbv zeta. apply (m_div (fun b => c_Mpc_s / (100 * km_to_Mpc) / h0 b * (comoving_distance_helper ((1 + z b) * Rpower (Om0 b / (1 - Om0 b)) (1 / 3)) - comoving_distance_helper (Rpower (Om0 b / (1 - Om0 b)) (1 / 3))))
     (fun b => Rpower (Om0 b) (1 / 3) * Rpower (1 - Om0 b) (1 / 6))).
  - apply (m_mul (fun b => c_Mpc_s / (100 * km_to_Mpc) / h0 b)); [apply (m_div (fun _ => c_Mpc_s / (100 * km_to_Mpc))); [apply m_cst|exact Hh|exact Nh]|].
    apply (m_sub (fun b => comoving_distance_helper ((1 + z b) * Rpower (Om0 b / (1 - Om0 b)) (1 / 3)))).
    + apply (m_helper (fun b => (1 + z b) * Rpower (Om0 b / (1 - Om0 b)) (1 / 3))); [|exact L2]. apply (m_mul (fun b => 1 + z b)); [apply (m_add (fun _ => 1)); [apply m_cst|exact Hz]|exact HR].
    + apply (m_helper _ _ HR). exact L1.
  - apply (m_mul (fun b => Rpower (Om0 b) (1 / 3))); [apply m_rpow; [exact HO|lra]|apply (m_rpow (fun b => 1 - Om0 b)); [exact HE|lra]].
  - assert (Q := norm_pos (Om0 a)). lra.
Qed.

(** ** inside the table *)
Section Inside.
Variables (h0 Om0 : env -> R) (dh dO : expr).
Hypotheses (Hh : Rel h0 dh) (HO : Rel Om0 dO).
Notation cd := (fun b z => flat_comoving_distance z (h0 b) (Om0 b)).
Notation t_cd := (fun dz => t_comoving_distance dz dh dO).
Lemma in_distance z_s : tabulated (h0 a) (Om0 a) z_s -> forall z dz, Rel z dz -> 0 <= z a -> Rel (fun b => cd b (z b)) (t_cd dz).
Proof.
  intros (P1 & P2 & P3 & P4) z dz Hz Z. apply m_distance; try assumption; [lra|]. assert (Q : entry0 (Om0 a) * 1 <= entry0 (Om0 a) * (1 + z a)) by (apply Rmult_le_compat_l; lra). lra.
Qed.
Lemma in_z1z2 z_s : tabulated (h0 a) (Om0 a) z_s -> forall z1 dz1 z2 dz2, Rel z1 dz1 -> Rel z2 dz2 -> 0 <= z1 a -> 0 <= z2 a ->
  Rel (fun b => comoving_distance_z1z2 (cd b) (z1 b) (z2 b)) (t_comoving_distance_z1z2 t_cd dz1 dz2).
Proof. intros T z1 dz1 z2 dz2 H1 H2 P1 P2. apply (m_sub (fun b => cd b (z2 b)) (fun b => cd b (z1 b))); apply (in_distance z_s T); assumption. Qed.
Lemma m_1z z dz : Rel z dz -> Rel (fun b => 1 + z b) (Add (Cst 1) dz).
Proof. intros H. apply (m_add (fun _ => 1)); [apply m_cst|exact H]. Qed.
Lemma in_angular z_s : tabulated (h0 a) (Om0 a) z_s -> forall z dz, Rel z dz -> 0 <= z a -> Rel (fun b => angular_diameter_distance (cd b) (z b)) (t_angular_diameter_distance t_cd dz).
Proof. intros T z dz Hz Z. apply (m_div (fun b => cd b (z b)) (fun b => 1 + z b)); [apply (in_distance z_s T); assumption|apply m_1z, Hz|lra]. Qed.
Lemma in_angular2 z_s : tabulated (h0 a) (Om0 a) z_s -> forall z1 dz1 z2 dz2, Rel z1 dz1 -> Rel z2 dz2 -> 0 <= z1 a -> 0 <= z2 a ->
  Rel (fun b => angular_diameter_distance_z1z2 (cd b) (z1 b) (z2 b)) (t_angular_diameter_distance_z1z2 t_cd dz1 dz2).
Proof. intros T z1 dz1 z2 dz2 H1 H2 P1 P2. apply (m_div (fun b => comoving_distance_z1z2 (cd b) (z1 b) (z2 b)) (fun b => 1 + z2 b)); [apply (in_z1z2 z_s T); assumption|apply m_1z, H2|lra]. Qed.
Lemma in_order h O z_s z1 z2 : tabulated h O z_s -> 0 <= z1 -> z1 < z2 -> z2 <= z_s -> flat_comoving_distance z1 h O < flat_comoving_distance z2 h O.
Proof.
  intros (P1 & P2 & P3 & P4) Z1 Z2 Z3. apply distance_increasing; try assumption; [apply Rlt_le, P3|].
  apply (Rle_trans _ ((1 + z_s) * entry0 O)); [|exact P4]. apply Rmult_le_compat_r; [unfold entry0; apply Rlt_le, exp_pos|lra].
Qed.
Lemma in_positive h O z_s z : tabulated h O z_s -> 0 < z -> z <= z_s -> 0 < flat_comoving_distance z h O.
Proof. intros T Z Z'. assert (Q := in_order h O z_s 0 z T ltac:(lra) Z Z'). unfold flat_comoving_distance in *. rewrite flat_zero in Q. exact Q. Qed.
Lemma in_derived z_l dl z_s ds : Rel z_l dl -> Rel z_s ds -> 0 < z_l a -> z_l a < z_s a -> tabulated (h0 a) (Om0 a) (z_s a) ->
  Rel (fun b => comoving_distance_z1z2 (cd b) (z_l b) (z_s b)) (t_comoving_distance_z1z2 t_cd dl ds) /\
  Rel (fun b => angular_diameter_distance (cd b) (z_s b)) (t_angular_diameter_distance t_cd ds) /\
  Rel (fun b => angular_diameter_distance_z1z2 (cd b) (z_l b) (z_s b)) (t_angular_diameter_distance_z1z2 t_cd dl ds) /\
  Rel (fun b => time_delay_distance (cd b) (z_l b) (z_s b)) (t_time_delay_distance t_cd dl ds) /\
  Rel (fun b => critical_surface_density (cd b) (z_l b) (z_s b)) (t_critical_surface_density t_cd dl ds).
Proof.
  intros Hl Hs Z1 Z2 T.
  assert (A1 := in_z1z2 _ T z_l dl z_s ds Hl Hs ltac:(lra) ltac:(lra)). assert (A2 := in_angular _ T z_s ds Hs ltac:(lra)). assert (A3 := in_angular _ T z_l dl Hl ltac:(lra)).
  assert (A4 := in_angular2 _ T z_l dl z_s ds Hl Hs ltac:(lra) ltac:(lra)).
  assert (B1 : 0 < angular_diameter_distance (cd a) (z_l a)) by (apply Rdiv_lt_0_compat; [apply (in_positive _ _ _ _ T); lra|lra]).
  assert (B2 : 0 < angular_diameter_distance_z1z2 (cd a) (z_l a) (z_s a)).
  { apply Rdiv_lt_0_compat; [|lra]. unfold comoving_distance_z1z2. assert (Q := in_order _ _ _ (z_l a) (z_s a) T ltac:(lra) Z2 ltac:(lra)). cbv beta. lra. }
  split; [exact A1|]. split; [exact A2|]. split; [exact A4|]. split.
  - apply (m_div (fun b => (1 + z_l b) * angular_diameter_distance (cd b) (z_l b) * angular_diameter_distance (cd b) (z_s b)) (fun b => angular_diameter_distance_z1z2 (cd b) (z_l b) (z_s b))); [|exact A4|lra].
    apply (m_mul (fun b => (1 + z_l b) * angular_diameter_distance (cd b) (z_l b))); [|exact A2]. apply (m_mul (fun b => 1 + z_l b)); [apply m_1z, Hl|exact A3].
  - apply (m_div (fun b => angular_diameter_distance (cd b) (z_s b)) (fun b => 4 * PI * G_over_c2 * angular_diameter_distance (cd b) (z_l b) * angular_diameter_distance_z1z2 (cd b) (z_l b) (z_s b))); [exact A2| |].
    + apply (m_mul (fun b => 4 * PI * G_over_c2 * angular_diameter_distance (cd b) (z_l b))); [|exact A4]. apply (m_mul (fun _ => 4 * PI * G_over_c2)); [apply m_cst|exact A3].
    + assert (Q : 0 < 4 * PI * G_over_c2) by (assert (PI > 0) by apply PI_RGT_0; assert (G := G_over_c2_pos); nra).
      assert (0 < 4 * PI * G_over_c2 * angular_diameter_distance (cd a) (z_l a)) by (apply Rmult_lt_0_compat; assumption).
      assert (0 < 4 * PI * G_over_c2 * angular_diameter_distance (cd a) (z_l a) * angular_diameter_distance_z1z2 (cd a) (z_l a) (z_s a)) by (apply Rmult_lt_0_compat; assumption). lra.
Qed.
End Inside.
Lemma m_density z rho Om0 dz dr dO : Rel z dz -> Rel rho dr -> Rel Om0 dO -> Rel (fun b => critical_density (z b) (rho b) (Om0 b)) (t_critical_density dz dr dO).
Proof.
  intros Hz Hr HO. unfold critical_density, t_critical_density. cbv zeta. apply (m_mul rho); [exact Hr|]. apply (m_add (fun b => Om0 b * (1 + z b) ^ 3)).
  - apply (m_mul Om0); [exact HO|]. apply (m_pow (fun b => 1 + z b)), (m_1z z), Hz.
  - apply (m_sub (fun _ => 1)); [apply m_cst|exact HO].
Qed.
End Mode.
