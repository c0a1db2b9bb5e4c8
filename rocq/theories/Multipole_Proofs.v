(** * The multipole lens is consistent *)
From Coq Require Import Reals ZArith List Lia Lra Bool.
From Coquelicot Require Import Coquelicot.
From Verif Require Import Py Calc2 RealFun Geo_Model Lens_Spec Lens_Lib Multipole_Model.
Import ListNotations.
Local Open Scope R_scope.

Section Term.
Variables (m : Z) (a p : R).
Hypothesis Hm : (2 <= m)%Z.
Definition psi1 (x y : R) : R := sqrt (x ^ 2 + y ^ 2) * a / (1 - IZR m ^ 2) * cos (IZR m * (atan2 y x - p)).
Definition al1 (x y : R) : R * R := let phi := atan2 y x in
  (cos phi * a / (1 - IZR m ^ 2) * cos (IZR m * (phi - p)) + sin phi * IZR m * a / (1 - IZR m ^ 2) * sin (IZR m * (phi - p)),
   sin phi * a / (1 - IZR m ^ 2) * cos (IZR m * (phi - p)) - cos phi * IZR m * a / (1 - IZR m ^ 2) * sin (IZR m * (phi - p))).
Definition ka1 (x y : R) : R := 1 / (2 * sqrt (x ^ 2 + y ^ 2)) * a * cos (IZR m * (atan2 y x - p)).
Lemma m_nz : 1 - IZR m ^ 2 <> 0.
Proof. assert (2 <= IZR m) by (apply (IZR_le 2), Hm). nra. Qed.
Lemma branch_trig t k : cos (IZR m * (t + 2 * IZR k * PI - p)) = cos (IZR m * (t - p)) /\ sin (IZR m * (t + 2 * IZR k * PI - p)) = sin (IZR m * (t - p)).
Proof. replace (t + 2 * IZR k * PI - p) with (t - p + 2 * IZR k * PI) by ring. apply cos_sin_Zmult. Qed.
Lemma term_consistent x y : x <> 0 \/ y <> 0 -> lens_consistent psi1 al1 ka1 x y.
Proof.
  intros H. destruct (atan2_branch x y H) as (th & D & L). assert (N := m_nz). assert (Rp := norm_pos x y H). assert (R2 := norm2_pos x y H).
  assert (DN := D2_norm x y H). set (M := IZR m) in *.
  set (psi2 := fun u v => sqrt (u ^ 2 + v ^ 2) * a / (1 - M ^ 2) * cos (M * (th u v - p))).
  set (al2 := fun u v => (cos (th u v) * a / (1 - M ^ 2) * cos (M * (th u v - p)) + sin (th u v) * M * a / (1 - M ^ 2) * sin (M * (th u v - p)),
    sin (th u v) * a / (1 - M ^ 2) * cos (M * (th u v - p)) - cos (th u v) * M * a / (1 - M ^ 2) * sin (M * (th u v - p)))).
  set (ka2 := fun u v => 1 / (2 * sqrt (u ^ 2 + v ^ 2)) * a * cos (M * (th u v - p))).
  assert (L0 := locally_2d_singleton _ _ _ L). destruct L0 as [k0 K0].
  assert (C0 : cos (th x y) = x / sqrt (x ^ 2 + y ^ 2)). { rewrite <- (atan2_cos x y H), K0. destruct (cos_sin_period_Z (th x y) k0) as [E _]. symmetry. exact E. }
  assert (S0 : sin (th x y) = y / sqrt (x ^ 2 + y ^ 2)). { rewrite <- (atan2_sin x y H), K0. destruct (cos_sin_period_Z (th x y) k0) as [_ E]. symmetry. exact E. }
  apply lens_consistent_ext_loc with psi2 al2 ka2.
  - eapply locally_2d_impl; [|exact L]. apply locally_2d_forall. intros u v [k K]. unfold psi2, psi1. rewrite K. destruct (branch_trig (th u v) k) as [E _]. unfold M. rewrite E. reflexivity.
  - eapply locally_2d_impl; [|exact L]. apply locally_2d_forall. intros u v [k K]. unfold al2, al1. cbv zeta. rewrite K. destruct (branch_trig (th u v) k) as [E1 E2].
    destruct (cos_sin_period_Z (th u v) k) as [E3 E4]. unfold M. rewrite E1, E2, E3, E4. reflexivity.
  - unfold ka2, ka1. rewrite K0. destruct (branch_trig (th x y) k0) as [E _]. unfold M. rewrite E. reflexivity.
  - assert (DT : D2 (fun u v => M * (th u v - p)) x y (M * (- y / (x ^ 2 + y ^ 2))) (M * (x / (x ^ 2 + y ^ 2)))).
    { apply D2_scal. eapply D2_eq; [apply D2_minus; [exact D|apply D2_const]| |]; ring. }
    assert (DC := D2_comp1 cos _ x y _ _ _ (is_derive_cos _) DT). assert (DS := D2_comp1 sin _ x y _ _ _ (is_derive_sin _) DT).
    assert (Dc := D2_comp1 cos _ x y _ _ _ (is_derive_cos _) D). assert (Ds := D2_comp1 sin _ x y _ _ _ (is_derive_sin _) D). cbv beta in DC, DS, Dc, Ds.
    set (cc := cos (M * (th x y - p))) in *. set (ss := sin (M * (th x y - p))) in *. rewrite S0 in Dc. rewrite C0 in Ds.
    assert (Q : sqrt (x ^ 2 + y ^ 2) ^ 2 = x ^ 2 + y ^ 2) by (apply sqrt_sq2; lra). set (r := sqrt (x ^ 2 + y ^ 2)) in *.
    split.
    + unfold deflection_is_gradient, psi2, al2. cbn [fst snd]. rewrite C0, S0. fold cc ss.
      eapply D2_eq; [apply D2_mult; [unfold Rdiv; apply D2_mult; [apply D2_mult; [exact DN|apply D2_const]|apply D2_const]|exact DC]| |]; cbv beta; fold cc ss r; rewrite <- Q; field; split; lra.
    + do 4 eexists. split; [|split; [|split]].
      * unfold al2. cbn [fst]. unfold Rdiv. apply D2_plus; (apply D2_mult; [apply D2_mult; [|apply D2_const]|]); [apply D2_mult; [exact Dc|apply D2_const]|exact DC|apply D2_mult; [apply D2_mult; [exact Ds|apply D2_const]|apply D2_const]|exact DS].
      * unfold al2. cbn [snd]. unfold Rdiv. apply D2_minus; (apply D2_mult; [apply D2_mult; [|apply D2_const]|]); [apply D2_mult; [exact Ds|apply D2_const]|exact DC|apply D2_mult; [apply D2_mult; [exact Dc|apply D2_const]|apply D2_const]|exact DS].
      * cbv beta. rewrite C0, S0. fold cc ss r. rewrite <- Q. field. split; lra.
      * unfold ka2. cbv beta. rewrite C0, S0. fold cc ss r. rewrite <- Q.
        transitivity (a / 2 * cc * (x ^ 2 + y ^ 2) / r ^ 3); [rewrite <- Q; field; lra|]. field. split; lra.
Qed.
End Term.
Lemma multipole_consistent x0 y0 l x y : orders_accepted l = true -> x <> x0 \/ y <> y0 ->
  lens_consistent (potential_multipole x0 y0 l) (reduced_deflection_angle_multipole x0 y0 l) (convergence_multipole x0 y0 l) x y.
Proof.
  intros Hl Hxy.
  apply (lens_consistent_shifted (fun u v => msum (fun '(m, a, p) => psi1 m a p u v) l)
     (fun u v => (msum (fun '(m, a, p) => fst (al1 m a p u v)) l, msum (fun '(m, a, p) => snd (al1 m a p u v)) l)) (fun u v => msum (fun '(m, a, p) => ka1 m a p u v) l) x0 y0 x y).
  assert (H : x - x0 <> 0 \/ y - y0 <> 0) by (destruct Hxy; [left|right]; lra). revert Hl H. generalize (x - x0), (y - y0). intros X Y Hl H.
  induction l as [|[[m a] p] l IH]; [apply lens_consistent_zero|]. cbn [orders_accepted forallb] in Hl. apply andb_true_iff in Hl. destruct Hl as [Hm Hl]. apply Z.leb_le in Hm.
  cbn [msum fold_right]. refine (lens_consistent_ext _ _ _ _ _ _ X Y _ _ _ (lens_consistent_plus _ _ _ _ _ _ X Y (term_consistent m a p Hm X Y H) (IH Hl))); reflexivity.
Qed.
Lemma orders_accepted_spec l : orders_accepted l = true <-> (forall m a p, In (m, a, p) l -> (2 <= m)%Z).
Proof.
  unfold orders_accepted. rewrite forallb_forall. split.
  - intros H m a p I. apply Z.leb_le. exact (H (m, a, p) I).
  - intros H [[m a] p] I. apply Z.leb_le, (H m a p I).
Qed.
