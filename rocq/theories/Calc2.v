(** * Calculus in the plane.
    [D2 f x y fx fy]: the function [f] of two real variables is (Frechet)
    differentiable at (x,y) with partial derivatives [fx] and [fy].  It is
    Coquelicot's epsilon/delta definition.  Used as the mathematical meaning of the
    automatic differentiation the library asks of torch/jax. *)
From Coq Require Import Reals Lra Lia.
From Coquelicot Require Import Coquelicot.
Open Scope R_scope.

Definition D2 (f : R -> R -> R) (x y fx fy : R) : Prop :=
  differentiable_pt_lim f x y fx fy.

Lemma D2_unfold f x y fx fy : D2 f x y fx fy <->
  forall eps : posreal, locally_2d (fun u v =>
    Rabs (f u v - f x y - (fx * (u - x) + fy * (v - y)))
      <= eps * Rmax (Rabs (u - x)) (Rabs (v - y))) x y.
Proof. split; intros H; exact H. Qed.

Lemma D2_eq f x y fx fy gx gy :
  D2 f x y gx gy -> gx = fx -> gy = fy -> D2 f x y fx fy.
Proof. intros H -> ->; exact H. Qed.

Lemma D2_ext_loc f g x y fx fy :
  locally_2d (fun u v => f u v = g u v) x y -> D2 f x y fx fy -> D2 g x y fx fy.
Proof. apply differentiable_pt_lim_ext. Qed.

Lemma D2_ext f g x y fx fy :
  (forall u v, f u v = g u v) -> D2 f x y fx fy -> D2 g x y fx fy.
Proof. intros H; apply D2_ext_loc, locally_2d_forall, H. Qed.

Lemma D2_proj1 (f : R -> R) x y l : is_derive f x l -> D2 (fun u _ => f u) x y l 0.
Proof. intros H; apply differentiable_pt_lim_proj1_0, is_derive_Reals, H. Qed.

Lemma D2_swap f x y fx fy : D2 f x y fx fy -> D2 (fun u v => f v u) y x fy fx.
Proof.
  intros H eps; destruct (H eps) as [d Hd]; exists d.
  intros u v Hu Hv; generalize (Hd v u Hv Hu); rewrite Rmax_comm.
  replace (fx * (v - x) + fy * (u - y)) with (fy * (u - y) + fx * (v - x)) by ring. auto.
Qed.

Lemma D2_proj2 (f : R -> R) x y l : is_derive f y l -> D2 (fun _ v => f v) x y 0 l.
Proof. intros H; apply (D2_swap (fun u _ => f u)), D2_proj1, H. Qed.

Lemma D2_fst x y : D2 (fun u _ => u) x y 1 0.
Proof. apply (D2_proj1 (fun u => u)), (is_derive_id (K:=R_AbsRing)). Qed.
Lemma D2_snd x y : D2 (fun _ v => v) x y 0 1.
Proof. apply (D2_proj2 (fun u => u)), (is_derive_id (K:=R_AbsRing)). Qed.
Lemma D2_const c x y : D2 (fun _ _ => c) x y 0 0.
Proof. apply (D2_proj1 (fun _ => c)), (is_derive_const (K:=R_AbsRing) (V:=R_NormedModule)). Qed.

Lemma D2_comp f1 f2 f3 x y l1x l1y l2x l2y l3x l3y :
  D2 f1 (f2 x y) (f3 x y) l1x l1y -> D2 f2 x y l2x l2y -> D2 f3 x y l3x l3y ->
  D2 (fun u v => f1 (f2 u v) (f3 u v)) x y
     (l1x * l2x + l1y * l3x) (l1x * l2y + l1y * l3y).
Proof. apply differentiable_pt_lim_comp. Qed.

Lemma D2_comp1 (g : R -> R) f x y l fx fy :
  is_derive g (f x y) l -> D2 f x y fx fy ->
  D2 (fun u v => g (f u v)) x y (l * fx) (l * fy).
Proof.
  intros Hg Hf.
  eapply D2_eq;
   [ apply (D2_comp (fun u _ => g u) f f); [ apply D2_proj1, Hg | exact Hf | exact Hf ]
   | ring | ring ].
Qed.

Lemma D2_plus f g x y fx fy gx gy :
  D2 f x y fx fy -> D2 g x y gx gy ->
  D2 (fun u v => f u v + g u v) x y (fx + gx) (fy + gy).
Proof.
  intros Hf Hg. eapply D2_eq; [ apply (D2_comp (fun a b => a + b) f g x y 1 1) | | ];
    [ | exact Hf | exact Hg | ring | ring ].
  apply filterdiff_differentiable_pt_lim.
  eapply filterdiff_ext_lin.
  - apply (filterdiff_plus_fct (F := locally (f x y, g x y)) (fun p : R*R => fst p) (fun p : R*R => snd p) fst snd).
    + apply filterdiff_linear, is_linear_fst.
    + apply filterdiff_linear, is_linear_snd.
  - intros [a b]; simpl; unfold plus; simpl; ring.
Qed.

Lemma D2_opp f x y fx fy :
  D2 f x y fx fy -> D2 (fun u v => - f u v) x y (- fx) (- fy).
Proof.
  intros Hf. eapply D2_eq; [ apply (D2_comp1 Ropp f x y (-1)) | | ];
    [ | exact Hf | ring | ring ].
  auto_derive; trivial; ring.
Qed.

Lemma D2_minus f g x y fx fy gx gy :
  D2 f x y fx fy -> D2 g x y gx gy ->
  D2 (fun u v => f u v - g u v) x y (fx - gx) (fy - gy).
Proof. intros Hf Hg; apply D2_plus; [exact Hf | apply D2_opp, Hg]. Qed.

Lemma D2_sqr f x y fx fy :
  D2 f x y fx fy -> D2 (fun u v => f u v ^ 2) x y (2 * f x y * fx) (2 * f x y * fy).
Proof.
  intros Hf. apply (D2_comp1 (fun t => t ^ 2) f x y (2 * f x y)); [ | exact Hf ].
  auto_derive; trivial; ring.
Qed.

Lemma D2_scal c f x y fx fy :
  D2 f x y fx fy -> D2 (fun u v => c * f u v) x y (c * fx) (c * fy).
Proof.
  intros Hf. apply (D2_comp1 (fun t => c * t) f); [ | exact Hf ].
  auto_derive; trivial; ring.
Qed.

Lemma D2_mult f g x y fx fy gx gy :
  D2 f x y fx fy -> D2 g x y gx gy ->
  D2 (fun u v => f u v * g u v) x y (fx * g x y + f x y * gx) (fy * g x y + f x y * gy).
Proof.
  intros Hf Hg.
  apply (D2_ext (fun u v => /4 * ((f u v + g u v) ^ 2 - (f u v - g u v) ^ 2))).
  { intros u v; field. }
  eapply D2_eq.
  - apply D2_scal, D2_minus; apply D2_sqr; [ apply D2_plus | apply D2_minus ]; eassumption.
  - simpl; field.
  - simpl; field.
Qed.

Lemma D2_inv f x y fx fy : f x y <> 0 ->
  D2 f x y fx fy ->
  D2 (fun u v => / f u v) x y (- fx / f x y ^ 2) (- fy / f x y ^ 2).
Proof.
  intros H0 Hf. eapply D2_eq; [ apply (D2_comp1 Rinv f x y (- / f x y ^ 2)) | | ];
    [ | exact Hf | field; exact H0 | field; exact H0 ].
  auto_derive; [ exact H0 | field; exact H0 ].
Qed.

Lemma D2_div f g x y fx fy gx gy : g x y <> 0 ->
  D2 f x y fx fy -> D2 g x y gx gy ->
  D2 (fun u v => f u v / g u v) x y
     ((fx * g x y - f x y * gx) / g x y ^ 2) ((fy * g x y - f x y * gy) / g x y ^ 2).
Proof.
  intros H0 Hf Hg. eapply D2_eq;
   [ apply (D2_mult f (fun u v => / g u v)); [ exact Hf | apply D2_inv; eassumption ] | | ];
   field; exact H0.
Qed.

Lemma D2_sqrt f x y fx fy : 0 < f x y ->
  D2 f x y fx fy ->
  D2 (fun u v => sqrt (f u v)) x y (fx / (2 * sqrt (f x y))) (fy / (2 * sqrt (f x y))).
Proof.
  intros H0 Hf. assert (Hs := sqrt_lt_R0 _ H0).
  eapply D2_eq; [ apply (D2_comp1 sqrt f x y (/ (2 * sqrt (f x y)))) | | ];
    [ | exact Hf | field; lra | field; lra ].
  auto_derive; [ exact H0 | field; lra ].
Qed.

Lemma D2_ln f x y fx fy : 0 < f x y ->
  D2 f x y fx fy ->
  D2 (fun u v => ln (f u v)) x y (fx / f x y) (fy / f x y).
Proof.
  intros H0 Hf.
  eapply D2_eq; [ apply (D2_comp1 ln f x y (/ f x y)) | | ];
    [ | exact Hf | field; lra | field; lra ].
  auto_derive; [ exact H0 | field; lra ].
Qed.

Lemma D2_exp f x y fx fy :
  D2 f x y fx fy ->
  D2 (fun u v => exp (f u v)) x y (exp (f x y) * fx) (exp (f x y) * fy).
Proof.
  intros Hf. apply (D2_comp1 exp f); [ | exact Hf ]. auto_derive; trivial; ring.
Qed.

Lemma D2_sin f x y fx fy :
  D2 f x y fx fy ->
  D2 (fun u v => sin (f u v)) x y (cos (f x y) * fx) (cos (f x y) * fy).
Proof.
  intros Hf. apply (D2_comp1 sin f); [ | exact Hf ]. auto_derive; trivial; ring.
Qed.

Lemma D2_cos f x y fx fy :
  D2 f x y fx fy ->
  D2 (fun u v => cos (f u v)) x y (- sin (f x y) * fx) (- sin (f x y) * fy).
Proof.
  intros Hf. apply (D2_comp1 cos f); [ | exact Hf ]. auto_derive; trivial; ring.
Qed.

Lemma D2_atan f x y fx fy :
  D2 f x y fx fy ->
  D2 (fun u v => atan (f u v)) x y (/ (1 + f x y ^ 2) * fx) (/ (1 + f x y ^ 2) * fy).
Proof.
  intros Hf. apply (D2_comp1 atan f); [ | exact Hf ].
  apply is_derive_Reals, derivable_pt_lim_atan.
Qed.

(** Uniqueness of partial derivatives, and the 1-D partials. *)
Lemma D2_unique f x y fx fy gx gy :
  D2 f x y fx fy -> D2 f x y gx gy -> fx = gx /\ fy = gy.
Proof.
  intros H1 H2.
  destruct (differentiable_pt_lim_unique f x y fx fy H1) as [A B].
  destruct (differentiable_pt_lim_unique f x y gx gy H2) as [C D].
  split; congruence.
Qed.

Lemma D2_is_derive_x f x y fx fy : D2 f x y fx fy -> is_derive (fun t => f t y) x fx.
Proof.
  intros H. apply is_derive_Reals.
  replace fx with (fx * 1 + fy * 0) by ring.
  apply (derivable_pt_lim_comp_2d f (fun t => t) (fun _ => y)).
  - exact H.
  - apply derivable_pt_lim_id.
  - apply derivable_pt_lim_const.
Qed.

Lemma D2_is_derive_y f x y fx fy : D2 f x y fx fy -> is_derive (fun t => f x t) y fy.
Proof. intros H; apply D2_swap, D2_is_derive_x in H; exact H. Qed.

(** Derivative along a curve. *)
Lemma D2_curve f g h t fx fy l m :
  D2 f (g t) (h t) fx fy -> is_derive g t l -> is_derive h t m ->
  is_derive (fun s => f (g s) (h s)) t (fx * l + fy * m).
Proof.
  intros H Hg Hh; apply is_derive_Reals.
  apply derivable_pt_lim_comp_2d; [ exact H | apply is_derive_Reals, Hg | apply is_derive_Reals, Hh ].
Qed.

(** Pulling back a neighbourhood along continuous maps. *)
Lemma D2_locally_gt f x y fx fy c :
  D2 f x y fx fy -> c < f x y -> locally_2d (fun u v => c < f u v) x y.
Proof.
  intros H Hc.
  assert (C : continuity_2d_pt f x y) by (apply differentiable_continuity_pt; exists fx, fy; exact H).
  assert (He : 0 < f x y - c) by lra.
  destruct (C (mkposreal _ He)) as [d Hd]; exists d; intros u v Hu Hv.
  specialize (Hd u v Hu Hv); simpl in Hd. apply Rabs_def2 in Hd. lra.
Qed.

Lemma D2_locally_lt f x y fx fy c :
  D2 f x y fx fy -> f x y < c -> locally_2d (fun u v => f u v < c) x y.
Proof.
  intros H Hc.
  assert (G : locally_2d (fun u v => - c < - f u v) x y)
    by (apply (D2_locally_gt (fun u v => - f u v) x y _ _ (- c) (D2_opp _ _ _ _ _ H)); lra).
  destruct G as [d Hd]; exists d; intros u v Hu Hv; specialize (Hd u v Hu Hv); lra.
Qed.

Lemma D2_locally_comp (P : R -> R -> Prop) f g x y fx fy gx gy :
  D2 f x y fx fy -> D2 g x y gx gy -> locally_2d P (f x y) (g x y) ->
  locally_2d (fun u v => P (f u v) (g u v)) x y.
Proof.
  intros Hf Hg [d Hd].
  destruct (D2_locally_gt f x y fx fy (f x y - d) Hf) as [d1 H1]; [destruct d; simpl; lra|].
  destruct (D2_locally_lt f x y fx fy (f x y + d) Hf) as [d2 H2]; [destruct d; simpl; lra|].
  destruct (D2_locally_gt g x y gx gy (g x y - d) Hg) as [d3 H3]; [destruct d; simpl; lra|].
  destruct (D2_locally_lt g x y gx gy (g x y + d) Hg) as [d4 H4]; [destruct d; simpl; lra|].
  assert (He : 0 < Rmin (Rmin d1 d2) (Rmin d3 d4)).
  { destruct d1, d2, d3, d4; simpl. repeat apply Rmin_glb_lt; assumption. }
  exists (mkposreal _ He); simpl; intros u v Hu Hv.
  assert (A1 := Rmin_l (Rmin d1 d2) (Rmin d3 d4)). assert (A2 := Rmin_r (Rmin d1 d2) (Rmin d3 d4)).
  assert (B1 := Rmin_l d1 d2). assert (B2 := Rmin_r d1 d2).
  assert (B3 := Rmin_l d3 d4). assert (B4 := Rmin_r d3 d4).
  specialize (H1 u v). specialize (H2 u v). specialize (H3 u v). specialize (H4 u v).
  apply Hd; apply Rabs_def1; [ assert (f u v < f x y + d) by (apply H2; lra) | assert (f x y - d < f u v) by (apply H1; lra)
    | assert (g u v < g x y + d) by (apply H4; lra) | assert (g x y - d < g u v) by (apply H3; lra) ]; lra.
Qed.

(** Structural tactic: computes a derivative; leaves side conditions (positivity,
    non-vanishing) and does not touch opaque sub-functions for which a D2 fact is in the context. *)
Ltac d2_step :=
  first [ eassumption | apply D2_const | 
  lazymatch goal with
  | |- D2 (fun u v => u) _ _ _ _ => eapply D2_fst
  | |- D2 (fun u v => v) _ _ _ _ => eapply D2_snd
  | |- D2 (fun u v => @?f u v + @?g u v) _ _ _ _ => eapply (D2_plus f g)
  | |- D2 (fun u v => @?f u v - @?g u v) _ _ _ _ => eapply (D2_minus f g)
  | |- D2 (fun u v => - @?f u v) _ _ _ _ => eapply (D2_opp f)
  | |- D2 (fun u v => @?f u v ^ 2) _ _ _ _ => eapply (D2_sqr f)
  | |- D2 (fun u v => @?f u v * @?g u v) _ _ _ _ => eapply (D2_mult f g)
  | |- D2 (fun u v => @?f u v / @?g u v) _ _ _ _ => eapply (D2_div f g)
  | |- D2 (fun u v => / @?f u v) _ _ _ _ => eapply (D2_inv f)
  | |- D2 (fun u v => sqrt (@?f u v)) _ _ _ _ => eapply (D2_sqrt f)
  | |- D2 (fun u v => ln (@?f u v)) _ _ _ _ => eapply (D2_ln f)
  | |- D2 (fun u v => exp (@?f u v)) _ _ _ _ => eapply (D2_exp f)
  | |- D2 (fun u v => sin (@?f u v)) _ _ _ _ => eapply (D2_sin f)
  | |- D2 (fun u v => cos (@?f u v)) _ _ _ _ => eapply (D2_cos f)
  | |- D2 (fun u v => atan (@?f u v)) _ _ _ _ => eapply (D2_atan f)
  end ].
Ltac d2 := eapply D2_eq; [ repeat d2_step | | ]; cbv beta.

Example D2_test : D2 (fun u v => u * v + sqrt (1 + u ^ 2)) 0 3 3 0.
Proof.
  d2; assert (H : 0 < 1 + 0 ^ 2) by (simpl; lra).
  - exact H.
  - field. apply Rgt_not_eq, sqrt_lt_R0, H.
  - field. apply Rgt_not_eq, sqrt_lt_R0, H.
Qed.

(** ** mixed partial derivatives agree wherever the gradient is differentiable *)
Lemma young_half psi gx gy x y a b :
  locally_2d (fun u v => D2 psi u v (gx u v) (gy u v)) x y -> D2 gx x y a b ->
  forall eps : posreal, exists d : posreal, forall h, 0 < h < d ->
    Rabs (psi (x + h) (y + h) - psi (x + h) y - psi x (y + h) + psi x y - b * (h * h)) <= eps * (h * h).
Proof.
  intros [d1 Hg] Hx eps.
  assert (He : 0 < eps / 2) by (destruct eps; simpl; lra).
  destruct (Hx (mkposreal _ He)) as [d2 Hd2]. simpl in Hd2.
  assert (Hd : 0 < Rmin d1 d2) by (apply Rmin_pos; apply cond_pos).
  exists (mkposreal _ Hd). simpl. intros h [H0 H1].
  assert (h < d1) by (eapply Rlt_le_trans; [exact H1|apply Rmin_l]).
  assert (h < d2) by (eapply Rlt_le_trans; [exact H1|apply Rmin_r]).
  destruct (MVT_gen (fun u => psi u (y + h) - psi u y) x (x + h) (fun u => gx u (y + h) - gx u y)) as (c & Hc & Eq).
  - intros u Hu. rewrite Rmin_left, Rmax_right in Hu by lra.
    apply (is_derive_minus (fun u => psi u (y + h)) (fun u => psi u y)).
    + apply (D2_is_derive_x psi u (y + h) _ (gy u (y + h))). apply Hg; apply Rabs_def1; lra.
    + apply (D2_is_derive_x psi u y _ (gy u y)). apply Hg; apply Rabs_def1; lra.
  - intros u Hu. rewrite Rmin_left, Rmax_right in Hu by lra.
    apply continuity_pt_filterlim. apply (ex_derive_continuous (V:=R_NormedModule) (fun u => psi u (y + h) - psi u y)).
    exists (gx u (y + h) - gx u y). apply (is_derive_minus (fun u => psi u (y + h)) (fun u => psi u y)).
    + apply (D2_is_derive_x psi u (y + h) _ (gy u (y + h))). apply Hg; apply Rabs_def1; lra.
    + apply (D2_is_derive_x psi u y _ (gy u y)). apply Hg; apply Rabs_def1; lra.
  - rewrite Rmin_left, Rmax_right in Hc by lra. cbv beta in Eq.
    assert (Ec : Rabs (c - x) <= h) by (apply Rabs_le; lra).
    assert (A1 := Hd2 c (y + h)). assert (A2 := Hd2 c y).
    assert (B1 : Rabs (gx c (y + h) - gx x y - (a * (c - x) + b * (y + h - y))) <= eps / 2 * h).
    { eapply Rle_trans; [apply A1|].
      - eapply Rle_lt_trans; [exact Ec|lra].
      - rewrite Rabs_right; lra.
      - apply Rmult_le_compat_l; [lra|]. apply Rmax_lub; [exact Ec|]. rewrite Rabs_right; lra. }
    assert (B2 : Rabs (gx c y - gx x y - (a * (c - x) + b * (y - y))) <= eps / 2 * h).
    { eapply Rle_trans; [apply A2|].
      - eapply Rle_lt_trans; [exact Ec|lra].
      - rewrite Rabs_right; [|lra]. replace (y - y) with 0 by ring. apply cond_pos.
      - apply Rmult_le_compat_l; [lra|]. apply Rmax_lub; [exact Ec|]. rewrite Rabs_right; lra. }
    replace (psi (x + h) (y + h) - psi (x + h) y - psi x (y + h) + psi x y - b * (h * h))
      with ((gx c (y + h) - gx c y - b * h) * h).
    2:{ transitivity ((gx c (y + h) - gx c y) * (x + h - x) - b * (h * h)); [ring|].
        rewrite <- Eq; ring. }
    rewrite Rabs_mult, (Rabs_right h) by lra.
    replace (eps * (h * h)) with (eps * h * h) by ring. apply Rmult_le_compat_r; [lra|].
    replace (gx c (y + h) - gx c y - b * h) with
      ((gx c (y + h) - gx x y - (a * (c - x) + b * (y + h - y))) - (gx c y - gx x y - (a * (c - x) + b * (y - y)))) by ring.
    eapply Rle_trans; [apply Rabs_triang|]. rewrite Rabs_Ropp. lra.
Qed.

Lemma mixed_partials psi gx gy x y a b c d :
  locally_2d (fun u v => D2 psi u v (gx u v) (gy u v)) x y ->
  D2 gx x y a b -> D2 gy x y c d -> b = c.
Proof.
  intros Hg Hx Hy.
  assert (Hg' : locally_2d (fun u v => D2 (fun s t => psi t s) u v (gy v u) (gx v u)) y x).
  { destruct Hg as [e He]. exists e. intros u v Hu Hv. apply D2_swap, He; assumption. }
  assert (Hy' := D2_swap _ _ _ _ _ Hy).
  apply cond_eq. intros eps He.
  assert (He' : 0 < eps / 4) by lra.
  destruct (young_half _ _ _ _ _ _ _ Hg Hx (mkposreal _ He')) as [d1 H1].
  destruct (young_half _ (fun u v => gy v u) (fun u v => gx v u) _ _ _ _ Hg' Hy' (mkposreal _ He')) as [d2 H2]. simpl in H1, H2.
  set (h := Rmin d1 d2 / 2).
  assert (P1 := cond_pos d1). assert (P2 := cond_pos d2).
  assert (Hm := Rmin_pos _ _ P1 P2).
  assert (M1 := Rmin_l d1 d2). assert (M2 := Rmin_r d1 d2).
  assert (0 < h) by (unfold h; lra).
  specialize (H1 h ltac:(unfold h; lra)). specialize (H2 h ltac:(unfold h; lra)).
  set (F := psi (x + h) (y + h) - psi (x + h) y - psi x (y + h) + psi x y) in H1.
  replace (psi (x + h) (y + h) - psi x (y + h) - psi (x + h) y + psi x y) with F in H2 by (unfold F; ring).
  assert (Hh : 0 < h * h) by (apply Rmult_lt_0_compat; assumption).
  apply Rmult_lt_reg_r with (h * h); [assumption|].
  rewrite <- (Rabs_right (h * h)) at 1 by lra. rewrite <- Rabs_mult.
  replace ((b - c) * (h * h)) with ((F - c * (h * h)) - (F - b * (h * h))) by ring.
  eapply Rle_lt_trans; [apply Rabs_triang|]. rewrite Rabs_Ropp.
  apply Rle_lt_trans with (eps / 4 * (h * h) + eps / 4 * (h * h)); [lra|].
  apply Rlt_le_trans with (eps / 2 * (h * h) + eps / 4 * (h * h)); [|].
  - assert (0 < eps / 4 * (h * h)) by (apply Rmult_lt_0_compat; lra). lra.
  - assert (0 < eps / 4 * (h * h)) by (apply Rmult_lt_0_compat; lra). lra.
Qed.
