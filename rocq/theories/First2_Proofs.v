(** * Sums of lenses, and each of the pieces *)
From Coq Require Import Reals Lra Lia Psatz List FunctionalExtensionality.
From Coquelicot Require Import Coquelicot.
From Verif Require Import RealFun Calc2 Geo_Model Lens_Spec Lens_Lib LensBasic_Model LensBasic_Proofs LensBase_Model LensBase_Proofs Soft_Proofs Project_Proofs First_Spec First_Proofs.
Import ListNotations.
Local Open Scope R_scope.

(** ** Sums *)
Definition lplus (a b : thin_lens) : thin_lens :=
  ThinLens (z_l b) (fun x y => (fst (reduced_deflection_angle a x y) + fst (reduced_deflection_angle b x y), snd (reduced_deflection_angle a x y) + snd (reduced_deflection_angle b x y)))
    (fun x y => potential a x y + potential b x y) (fun x y => convergence a x y + convergence b x y).
Lemma singleplane_cons z t l : singleplane z (t :: l) = lplus t (singleplane z l).
Proof.
  unfold lplus, singleplane. cbn [z_l potential convergence reduced_deflection_angle]. f_equal; apply functional_extensionality; intros x; apply functional_extensionality; intros y;
    destruct (singleplane_sums l x y) as (E1 & E2 & E3); destruct (singleplane_sums (t :: l) x y) as (F1 & F2 & F3); rewrite ?E1, ?E2, ?E3, ?F1, ?F2, ?F3; reflexivity.
Qed.
Lemma smooth_plus a b x y : smooth_at a x y -> smooth_at b x y -> smooth_at (lplus a b) x y.
Proof.
  intros (A1 & (p & q & r & s & A2 & A3 & A4 & A5) & A6) (B1 & (p' & q' & r' & s' & B2 & B3 & B4 & B5) & B6). split; [|split].
  - eapply locally_2d_impl; [|apply (locally_2d_and _ _ _ _ A1 B1)]. apply locally_2d_forall. intros u v [U V]. unfold deflection_is_gradient in *. cbn [lplus reduced_deflection_angle potential fst snd]. apply D2_plus; assumption.
  - exists (p + p'), (q + q'), (r + r'), (s + s'). cbn [lplus reduced_deflection_angle convergence fst snd]. split; [apply D2_plus; assumption|]. split; [apply D2_plus; assumption|]. split; [lra|]. rewrite A5, B5. lra.
  - cbn [lplus convergence]. lra.
Qed.
Lemma no_cap_plus f g x y : no_cap f x y -> no_cap g x y -> no_cap (fun u v => f u v + g u v) x y.
Proof.
  intros A B u v e He. destruct (A u v (e / 2) ltac:(lra)) as (d & Hd & HA). destruct (B u v (e / 2) ltac:(lra)) as (d' & Hd' & HB).
  exists (Rmin d d'). split; [apply Rmin_pos; assumption|]. intros t T. assert (T1 := Rmin_l d d'). assert (T2 := Rmin_r d d').
  assert (A' := HA t ltac:(lra)). assert (B' := HB t ltac:(lra)). unfold rise in *. lra.
Qed.
Lemma cusp_plus f g x y : cusp f x y -> no_cap g x y -> cusp (fun u v => f u v + g u v) x y.
Proof.
  intros (u & v & m & d & Hm & Hd & HA) B. destruct (B u v (m / 2) ltac:(lra)) as (d' & Hd' & HB).
  exists u, v, (m / 2), (Rmin d d'). split; [lra|]. split; [apply Rmin_pos; assumption|]. intros t T. assert (T1 := Rmin_l d d'). assert (T2 := Rmin_r d d').
  assert (A' := HA t ltac:(lra)). assert (B' := HB t ltac:(lra)). unfold rise in *. lra.
Qed.
Lemma cusp_plus_r f g x y : no_cap f x y -> cusp g x y -> cusp (fun u v => f u v + g u v) x y.
Proof.
  intros A B. destruct (cusp_plus g f x y B A) as (u & v & m & d & Hm & Hd & H). exists u, v, m, d. split; [exact Hm|]. split; [exact Hd|]. intros t T. specialize (H t T). unfold rise in *. lra.
Qed.
Lemma weighed_plus a b E F : weighed a E -> weighed b F -> weighed (lplus a b) (fun x y => E x y * F x y).
Proof.
  intros [A1 A2] [B1 B2]. split; [intros x y; apply continuity_2d_pt_mult; auto|]. intros x y.
  destruct (A2 x y) as [Z|[EA PA]]; [left; rewrite Z; ring|]. destruct (B2 x y) as [Z|[EB PB]]; [left; rewrite Z; ring|]. right. split.
  - rewrite EA, EB, <- exp_plus. reflexivity.
  - cbn [lplus potential]. destruct PA as [SA|[NA CA]], PB as [SB|[NB CB]].
    + left. apply smooth_plus; assumption.
    + right. assert (NA := smooth_no_cap a x y SA). split; [apply no_cap_plus|apply cusp_plus_r]; assumption.
    + right. assert (NB := smooth_no_cap b x y SB). split; [apply no_cap_plus|apply cusp_plus]; assumption.
    + right. split; [apply no_cap_plus|apply cusp_plus]; assumption.
Qed.
Lemma grows_plus j k f g : grows j f -> grows k g -> grows (j + k) (fun x y => f x y + g x y).
Proof.
  intros A B e He. destruct (A (e / 2) ltac:(lra)) as [M HM]. destruct (B (e / 2) ltac:(lra)) as [N HN]. exists (M + N). intros x y. specialize (HM x y). specialize (HN x y). lra.
Qed.
Lemma smooth_weighed L : (forall x y, smooth_at L x y) -> weighed L (fun x y => exp (potential L x y)).
Proof.
  intros S. split; [|intros x y; right; split; [reflexivity|left; apply S]]. intros x y. destruct (S x y) as [A _]. assert (D := locally_2d_singleton _ _ _ A).
  eapply D2_continuous. apply D2_exp. exact D.
Qed.
Lemma consistent_smooth L x y : (forall u v, lens_consistent (potential L) (reduced_deflection_angle L) (convergence L) u v) -> 0 <= convergence L x y -> smooth_at L x y.
Proof. intros H K. split; [apply locally_2d_forall; intros u v; apply H|]. split; [apply H|exact K]. Qed.
Lemma empty_weighed z : weighed (singleplane z []) (fun _ _ => 1).
Proof.
  assert (H := smooth_weighed (singleplane z [])). cbn [singleplane potential singleplane_potential fold_left] in H. rewrite <- exp_0. apply H.
  intros x y. apply consistent_smooth; [intros u v; apply singleplane_consistent; intros t []|cbn; lra].
Qed.
Lemma open_off x0 y0 x y : x <> x0 \/ y <> y0 -> locally_2d (fun u v => u <> x0 \/ v <> y0) x y.
Proof.
  intros [H|H].
  - assert (P : 0 < Rabs (x - x0)) by (apply Rabs_pos_lt; lra). exists (mkposreal _ P). intros u v U _. left. intros ->. cbn [pos] in U. rewrite Rabs_minus_sym in U. lra.
  - assert (P : 0 < Rabs (y - y0)) by (apply Rabs_pos_lt; lra). exists (mkposreal _ P). intros u v _ U. right. intros ->. cbn [pos] in U. rewrite Rabs_minus_sym in U. lra.
Qed.
Lemma off_smooth L x0 y0 x y : (forall u v, u <> x0 \/ v <> y0 -> lens_consistent (potential L) (reduced_deflection_angle L) (convergence L) u v) ->
  (forall u v, u <> x0 \/ v <> y0 -> 0 <= convergence L u v) -> x <> x0 \/ y <> y0 -> smooth_at L x y.
Proof.
  intros H K O. split; [|split; [apply H, O|apply K, O]]. eapply locally_2d_impl; [|exact (open_off _ _ _ _ O)]. apply locally_2d_forall. intros u v P. apply H, P.
Qed.
Lemma lipschitz_continuous f x0 y0 K : (forall x y, Rabs (f x y - f x0 y0) <= K * (Rabs (x - x0) + Rabs (y - y0))) -> continuity_2d_pt f x0 y0.
Proof.
  intros H e. assert (Ke : 0 < Rabs K + 1) by (assert (Q := Rabs_pos K); lra). assert (He := cond_pos e). assert (P : 0 < e / (2 * (Rabs K + 1))) by (apply Rdiv_lt_0_compat; lra).
  exists (mkposreal _ P). intros u v U V. cbn [pos] in U, V. eapply Rle_lt_trans; [apply H|].
  assert (A := Rle_abs K). assert (U0 := Rabs_pos (u - x0)). assert (V0 := Rabs_pos (v - y0)).
  assert (S : Rabs (u - x0) + Rabs (v - y0) < e / (Rabs K + 1)) by (replace (e / (Rabs K + 1)) with (e / (2 * (Rabs K + 1)) + e / (2 * (Rabs K + 1))) by (field; lra); lra).
  apply (Rle_lt_trans _ (Rabs K * (Rabs (u - x0) + Rabs (v - y0)))); [apply Rmult_le_compat_r; lra|].
  apply (Rle_lt_trans _ ((Rabs K + 1) * (Rabs (u - x0) + Rabs (v - y0)))); [apply Rmult_le_compat_r; lra|].
  replace (pos e) with ((Rabs K + 1) * (e / (Rabs K + 1))) by (field; lra). apply Rmult_lt_compat_l; lra.
Qed.
(** a lens with the potential of a cone at its centre *)
Lemma cone_weighed L x0 y0 K u v m : (forall x y, x <> x0 \/ y <> y0 -> lens_consistent (potential L) (reduced_deflection_angle L) (convergence L) x y) ->
  (forall x y, x <> x0 \/ y <> y0 -> 0 <= convergence L x y) -> potential L x0 y0 = 0 -> (forall x y, 0 <= potential L x y <= K * (Rabs (x - x0) + Rabs (y - y0))) ->
  0 < m -> (forall t, 0 < t -> m * t <= potential L (x0 + t * u) (y0 + t * v)) -> weighed L (fun x y => exp (potential L x y)).
Proof.
  intros H Ka Z B Hm C. split.
  - intros x y. destruct (Req_dec x x0) as [X|X]; [destruct (Req_dec y y0) as [Y|Y]|].
    + subst. apply continuity_1d_2d_pt_comp; [apply derivable_continuous_pt, derivable_pt_exp|]. apply (lipschitz_continuous _ _ _ K). intros x y. rewrite Z, Rminus_0_r, Rabs_right; [apply B|apply Rle_ge, B].
    + eapply D2_continuous. apply D2_exp. apply (H x y (or_intror Y)).
    + eapply D2_continuous. apply D2_exp. apply (H x y (or_introl X)).
  - intros x y. right. split; [reflexivity|]. destruct (Req_dec x x0) as [X|X]; [destruct (Req_dec y y0) as [Y|Y]|].
    + subst. right. split.
      * intros a b e He. exists 1. split; [lra|]. intros t T. unfold rise. rewrite Z. assert (B1 := B (x0 + t * a) (y0 + t * b)). assert (B2 := B (x0 - t * a) (y0 - t * b)). assert (0 < e * t) by (apply Rmult_lt_0_compat; lra). lra.
      * exists u, v, m, 1. split; [exact Hm|]. split; [lra|]. intros t T. unfold rise. rewrite Z. assert (B2 := B (x0 - t * u) (y0 - t * v)). assert (C' := C t ltac:(lra)). lra.
    + left. apply (off_smooth L x0 y0); auto.
    + left. apply (off_smooth L x0 y0); auto.
Qed.

(** ** Growth *)
Lemma grows_general k K B x0 y0 psi : (forall x y, psi x y <= B + k / 2 * ((x - x0) ^ 2 + (y - y0) ^ 2) + K * (Rabs (x - x0) + Rabs (y - y0))) -> grows k psi.
Proof.
  intros H e He. set (J := Rabs K + Rabs k * (Rabs x0 + Rabs y0)).
  exists (B + k / 2 * (x0 ^ 2 + y0 ^ 2) + Rabs K * (Rabs x0 + Rabs y0) + J ^ 2 / e).
  intros x y. eapply Rle_trans; [apply H|].
  assert (X := Rabs_triang x (- x0)). assert (Y := Rabs_triang y (- y0)). rewrite Rabs_Ropp in X, Y. fold (x - x0) in X. fold (y - y0) in Y.
  assert (KX : K * (Rabs (x - x0) + Rabs (y - y0)) <= Rabs K * (Rabs x + Rabs y) + Rabs K * (Rabs x0 + Rabs y0)).
  { assert (A := Rabs_pos (x - x0)). assert (A' := Rabs_pos (y - y0)). apply (Rle_trans _ (Rabs K * (Rabs (x - x0) + Rabs (y - y0)))); [apply Rmult_le_compat_r; [lra|apply Rle_abs]|].
    rewrite <- Rmult_plus_distr_l. apply Rmult_le_compat_l; [apply Rabs_pos|lra]. }
  assert (C : forall a b, - (k * a * b) <= Rabs k * Rabs a * Rabs b).
  { intros a b. rewrite <- !Rabs_mult. rewrite <- Rabs_Ropp. apply Rle_abs. }
  assert (C1 := C x0 x). assert (C2 := C y0 y).
  assert (Y1 := young (2 * e) J (Rabs x) ltac:(lra)). assert (Y2 := young (2 * e) J (Rabs y) ltac:(lra)).
  assert (S1 : Rabs x ^ 2 = x ^ 2) by (rewrite RPow_abs, Rabs_right; [reflexivity|apply Rle_ge, pow2_ge_0]).
  assert (S2 : Rabs y ^ 2 = y ^ 2) by (rewrite RPow_abs, Rabs_right; [reflexivity|apply Rle_ge, pow2_ge_0]). rewrite S1 in Y1. rewrite S2 in Y2.
  assert (J2 : J ^ 2 / e = J ^ 2 / (2 * e) + J ^ 2 / (2 * e)) by (field; lra).
  assert (P : forall a b, 0 <= Rabs k * Rabs a * Rabs b) by (intros; repeat apply Rmult_le_pos; apply Rabs_pos). assert (P1 := P x0 y). assert (P2 := P y0 x).
  assert (JX : Rabs K * (Rabs x + Rabs y) - k * x0 * x - k * y0 * y <= J * Rabs x + J * Rabs y) by (unfold J; lra).
  nra.
Qed.
