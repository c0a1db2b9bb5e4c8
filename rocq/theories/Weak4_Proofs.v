(** * The image of a nearly affine lens is found *)
From Coq Require Import Reals List Arith ZArith Lia Lra Psatz.
From Coquelicot Require Import Coquelicot.
From Verif Require Import Py Fsum Calc2 LM_Model LM_Spec LM_Proofs Gauss_Model Tri_Model Tri_Spec Tri_Proofs Tri2_Proofs Tri3_Proofs Root_Spec Root_Proofs Root2_Proofs Lost_Proofs Weak_Proofs Weak2_Proofs Weak3_Proofs.
Import ListNotations.
Local Open Scope R_scope.

(** ** a map that stretches distances has a Jacobian that does *)
Lemma quotient_lim (g : R -> R) l : is_derive g 0 l -> is_lim (fun t => (g t - g 0) / t) 0 l.
Proof.
  intros D. apply is_derive_Reals in D. apply is_lim_spec. intros eps. destruct (D eps (cond_pos eps)) as [del Hd]. exists del. intros t Ht Hne.
  assert (Ht' : Rabs t < del) by (rewrite <- (Rminus_0_r t); exact Ht). assert (H := Hd t Hne Ht'). rewrite Rplus_0_l in H. exact H.
Qed.
Definition smooth_at (ray : pt -> pt) (p : pt) : Prop := exists xx xy yx yy, D2 (fun u v => fst (ray (u, v))) (fst p) (snd p) xx xy /\ D2 (fun u v => snd (ray (u, v))) (fst p) (snd p) yx yy.
Lemma line_in c0 x u r : Rabs (x - c0) < r -> locally 0 (fun t => Rabs (x + t * u - c0) <= r).
Proof.
  intros H. assert (U := Rabs_pos u). assert (P : 0 < (r - Rabs (x - c0)) / (Rabs u + 1)) by (apply Rdiv_lt_0_compat; lra).
  exists (mkposreal _ P). intros t Ht. change (Rabs (t - 0) < (r - Rabs (x - c0)) / (Rabs u + 1)) in Ht. rewrite Rminus_0_r in Ht.
  apply (Rmult_lt_compat_r (Rabs u + 1)) in Ht; [|lra]. unfold Rdiv in Ht. rewrite Rmult_assoc, Rinv_l in Ht by lra. rewrite Rmult_1_r in Ht.
  replace (x + t * u - c0) with (x - c0 + t * u) by ring. eapply Rle_trans; [apply Rabs_triang|]. rewrite Rabs_mult. assert (T := Rabs_pos t). nra.
Qed.
Lemma stretch_expands ray x0 y0 rho a (X : vec) : (forall p q, box x0 y0 rho p -> box x0 y0 rho q -> a * distance p q <= distance (ray p) (ray q)) -> 0 < a ->
  smooth_at ray (pt_of X) -> Rabs (X 0%nat - x0) < rho -> Rabs (X 1%nat - y0) < rho -> expands ray X a.
Proof.
  intros HA Ha (xx & xy & yx & yy & D1 & D2') BX BY u v. unfold pt_of in D1, D2'. cbn [fst snd] in D1, D2'. set (x := X 0%nat) in *. set (y := X 1%nat) in *.
  assert (J00 : jacobian (lens_f ray) X 0%nat 0%nat = xx) by (apply is_derive_unique; exact (D2_is_derive_x _ _ _ _ _ D1)).
  assert (J01 : jacobian (lens_f ray) X 0%nat 1%nat = xy) by (apply is_derive_unique; exact (D2_is_derive_y _ _ _ _ _ D1)).
  assert (J10 : jacobian (lens_f ray) X 1%nat 0%nat = yx) by (apply is_derive_unique; exact (D2_is_derive_x _ _ _ _ _ D2')).
  assert (J11 : jacobian (lens_f ray) X 1%nat 1%nat = yy) by (apply is_derive_unique; exact (D2_is_derive_y _ _ _ _ _ D2')).
  rewrite J00, J01, J10, J11.
  assert (C1 : is_derive (fun t => x + t * u) 0 u) by (auto_derive; [exact I|ring]). assert (C2 : is_derive (fun t => y + t * v) 0 v) by (auto_derive; [exact I|ring]).
  assert (E0 : x + 0 * u = x) by ring. assert (E1 : y + 0 * v = y) by ring.
  assert (G1 := D2_curve (fun a b => fst (ray (a, b))) (fun t => x + t * u) (fun t => y + t * v) 0 xx xy u v). cbv beta in G1. rewrite E0, E1 in G1. specialize (G1 D1 C1 C2).
  assert (G2 := D2_curve (fun a b => snd (ray (a, b))) (fun t => x + t * u) (fun t => y + t * v) 0 yx yy u v). cbv beta in G2. rewrite E0, E1 in G2. specialize (G2 D2' C1 C2).
  apply quotient_lim in G1. apply quotient_lim in G2. cbv beta in G1, G2. rewrite E0, E1 in G1, G2.
  set (q1 := fun t => (fst (ray (x + t * u, y + t * v)) - fst (ray (x, y))) / t) in G1. set (q2 := fun t => (snd (ray (x + t * u, y + t * v)) - snd (ray (x, y))) / t) in G2.
  assert (LS := is_lim_plus' _ _ 0 _ _ (is_lim_mult _ _ 0 (Finite _) (Finite _) G1 G1 I) (is_lim_mult _ _ 0 (Finite _) (Finite _) G2 G2 I)).
  assert (LC := is_lim_const (a ^ 2 * (u ^ 2 + v ^ 2)) 0).
  assert (LE := fun lf lg => is_lim_le_loc (fun _ => a ^ 2 * (u ^ 2 + v ^ 2)) (fun t => q1 t * q1 t + q2 t * q2 t) 0 lf lg).
  assert (LOC : Rbar_locally' 0 (fun t => a ^ 2 * (u ^ 2 + v ^ 2) <= q1 t * q1 t + q2 t * q2 t)).
  { assert (N1 := line_in x0 x u rho BX). assert (N2 := line_in y0 y v rho BY). assert (N := filter_and _ _ N1 N2). destruct N as [del Hd]. exists del. intros t Ht Hne. destruct (Hd t Ht) as [B1 B2].
    assert (L := HA (x + t * u, y + t * v) (x, y) (conj B1 B2) (conj (Rlt_le _ _ BX) (Rlt_le _ _ BY))).
    assert (SQ : (a * distance (x + t * u, y + t * v) (x, y)) ^ 2 <= distance (ray (x + t * u, y + t * v)) (ray (x, y)) ^ 2) by (apply pow_incr; split; [apply Rmult_le_pos; [lra|apply dist_nonneg]|exact L]).
    rewrite Rpow_mult_distr, !dist_sq in SQ. cbn [fst snd] in SQ. replace ((x + t * u - x) ^ 2 + (y + t * v - y) ^ 2) with (t ^ 2 * (u ^ 2 + v ^ 2)) in SQ by ring.
    unfold q1, q2. set (z1 := fst (ray (x + t * u, y + t * v)) - fst (ray (x, y))) in *. set (z2 := snd (ray (x + t * u, y + t * v)) - snd (ray (x, y))) in *. clearbody z1 z2.
    assert (T2 : 0 < t ^ 2) by (apply pow2_gt_0; exact Hne). apply Rmult_le_reg_l with (t ^ 2); [exact T2|]. replace (t ^ 2 * (z1 / t * (z1 / t) + z2 / t * (z2 / t))) with (z1 ^ 2 + z2 ^ 2) by (field; exact Hne). lra. }
  specialize (LE _ _ LOC LC LS). cbn [Rbar_le] in LE. eapply Rle_trans; [exact LE|]. apply Req_le. ring.
Qed.

(** ** the root finder from guesses well inside the box *)
Section Root.
Variables (solve : mat -> vec -> vec) (ray : pt -> pt) (b : pt).
Hypothesis Hsolve : solver_ok 2 solve.
Notation f := (lens_f ray).
Notation Y := (vec_of b).
Notation step := (lm_step 2 2 solve f 9 11 (1 / 10) (1 / 10 ^ 9) (10 ^ 9)).
Lemma root_box x0 y0 rho a r0 x1 (guesses : list pt) : 0 < a -> (forall X : vec, Rabs (X 0%nat - x0) < rho -> Rabs (X 1%nat - y0) < rho -> expands ray X a) ->
  (forall g, In g guesses -> distance (ray g) b <= r0 /\ Rabs (fst g - x0) <= x1 /\ Rabs (snd g - y0) <= x1) -> x1 + 50 * (r0 / a) < rho ->
  exists l, forward_raytrace_rootfind solve ray b guesses = Ok l /\ length l = length guesses /\ forall e, In e l -> distance (ray e) b <= r0 /\ Rabs (fst e - x0) < rho /\ Rabs (snd e - y0) < rho.
Proof.
  intros Ha HX Hg Hx. destruct (rootfind_is solve ray b guesses) as (out & E & ->). eexists. split; [reflexivity|]. split; [rewrite map_length, seq_length; reflexivity|]. intros e He. apply in_map_iff in He. destruct He as (k & <- & Hk). apply in_seq in Hk.
  assert (R0 : 0 <= r0). { destruct guesses as [|g t]; [cbn in Hk; lia|]. destruct (Hg g (or_introl eq_refl)) as [D _]. eapply Rle_trans; [apply dist_nonneg|exact D]. }
  assert (RA : 0 <= r0 / a) by (apply Rmult_le_pos; [exact R0|apply Rlt_le, Rinv_0_lt_compat, Ha]).
  set (P := fun (i _ : nat) (X : vec) (L : R) => (i <= 50)%nat -> 0 < L /\ distance (ray (pt_of X)) b <= r0 /\ Rabs (X 0%nat - x0) <= x1 + INR i * (r0 / a) /\ Rabs (X 1%nat - y0) <= x1 + INR i * (r0 / a)).
  destruct (loop_bounded solve ray b P (length guesses)) with (m := 50%nat) (k := 0%nat) (Xs := starts guesses) (Ls := fun _ : nat => 1 * 1) (C := Covariance) (j := k) as (k' & L & Hk' & HP).
  - intros i j X L _ HPi Hi. destruct (HPi ltac:(lia)) as (L0 & D & XX & XY). split; [apply step_L_pos|].
    assert (D' : distance (ray (pt_of (fst (fst (step X Y W2 L))))) b <= r0).
    { eapply Rle_trans; [|exact D]. assert (M := step_chisq 2 2 solve f 9 11 (1 / 10) (1 / 10 ^ 9) (10 ^ 9) X Y W2 L ltac:(lra)). rewrite !chisq_dist in M.
      apply Rsqr_incr_0_var; [unfold Rsqr; lra|apply dist_nonneg]. }
    split; [exact D'|]. rewrite S_INR. assert (I1 : INR i <= 49) by (assert (Hi' : (i <= 49)%nat) by lia; apply le_INR in Hi'; cbn in Hi'; lra).
    assert (Z : INR i * (r0 / a) <= 49 * (r0 / a)) by (apply Rmult_le_compat_r; assumption).
    unfold lm_step. cbn [fst]. destruct (qge _ _); [|split; lra]. unfold moved.
    assert (SS := step_short solve ray b Hsolve X L a L0 Ha (HX X ltac:(lra) ltac:(lra))). cbv zeta in SS. set (h := lm_h 2 solve f X Y W2 L) in *.
    assert (D2 : distance (ray (pt_of X)) b ^ 2 <= r0 ^ 2) by (apply pow_incr; split; [apply dist_nonneg|exact D]).
    assert (HH : forall z z', a ^ 2 * (z ^ 2 + z' ^ 2) <= r0 ^ 2 -> Rabs z <= r0 / a).
    { intros z z' Q. assert (Z1 : 0 <= a ^ 2 * z' ^ 2) by (apply Rmult_le_pos; apply pow2_ge_0). assert (Q' : (a * Rabs z) ^ 2 <= r0 ^ 2) by (rewrite Rpow_mult_distr, pow2_abs; lra).
      apply Rmult_le_reg_l with a; [exact Ha|]. replace (a * (r0 / a)) with r0 by (field; lra). apply Rsqr_incr_0_var; [unfold Rsqr; lra|exact R0]. }
    assert (H0 := HH (h 0%nat) (h 1%nat) ltac:(lra)). assert (H1 := HH (h 1%nat) (h 0%nat) ltac:(lra)).
    split; [replace (X 0%nat + h 0%nat - x0) with (X 0%nat - x0 + h 0%nat) by ring|replace (X 1%nat + h 1%nat - y0) with (X 1%nat - y0 + h 1%nat) by ring]; (eapply Rle_trans; [apply Rabs_triang|]; lra).
  - intros j Hj _. split; [lra|]. destruct (Hg (nth j guesses (0, 0)) (nth_In _ _ Hj)) as (G1 & G2 & G3). unfold starts. rewrite pt_vec. split; [exact G1|]. cbn [vec_of INR]. split; lra.
  - lia.
  - rewrite E in HP. destruct (HP ltac:(lia)) as (_ & DD & XX & XY). split; [exact DD|]. unfold pt_of. cbn [fst snd]. assert (I1 : INR k' <= 50) by (replace 50 with (INR 50) by (cbn; lra); apply le_INR; lia).
    assert (Z : INR k' * (r0 / a) <= 50 * (r0 / a)) by (apply Rmult_le_compat_r; assumption). split; lra.
Qed.
End Root.

(** ** the search *)
Section Search.
Variables (ray : pt -> pt) (n11 n12 n21 n22 : R).
Hypothesis HN : n11 * n22 - n12 * n21 <> 0.
Variables (x0 y0 fov rho : R) (n : nat) (k a b epsilon : R) (xi : pt) (solve : mat -> vec -> vec).
Hypotheses (Hf : 0 < fov) (Hn : (2 <= n)%nat) (Hk : 0 <= k <= 1 / 30) (Ha : 0 < a) (Hb : 0 <= b) (He : 0 < epsilon) (Hsolve : solver_ok 2 solve).
Notation h := (fov / INR (n - 1)).
Notation box := (box x0 y0 rho).
Notation gam := (gam ray n11 n12 n21 n22).
Hypothesis slow : forall p q, box p -> box q -> distance (psub (gam p) p) (psub (gam q) q) <= k * distance p q.
Hypothesis stretch : forall p q, box p -> box q -> a * distance p q <= distance (ray p) (ray q) <= b * distance p q.
Hypothesis smooth : forall p, box p -> smooth_at ray p.
Hypothesis Hrho : fov / 2 + 6 * h + 100 * (b / a) * epsilon < rho.
Hypotheses (Hx : Rabs (fst xi - x0) + h / 2 < fov / 2) (Hy : Rabs (snd xi - y0) + h / 2 < fov / 2).
Notation s := (ray xi).
Notation st := (stage ray s x0 y0 fov n).
Notation wd d := (h / 2 ^ d).
Notation rootfind := (forward_raytrace_rootfind solve ray).
Lemma ba : 0 <= b / a. Proof. apply Rmult_le_pos; [exact Hb|apply Rlt_le, Rinv_0_lt_compat, Ha]. Qed.
Lemma rho1 : fov / 2 + 6 * h <= rho. Proof. assert (B := ba). assert (0 <= 100 * (b / a) * epsilon) by (apply Rmult_le_pos; lra). lra. Qed.
Lemma near_st d p : In p (st d) -> tbox x0 y0 rho p /\ within xi (2 * wd d) p.
Proof. apply (stage_near ray n11 n12 n21 n22 HN x0 y0 fov rho n k xi Hf Hn Hk slow rho1 Hx Hy). Qed.
Lemma centre_in p : in_triangle p (centroid p).
Proof. destruct p as [[p0 p1] p2]. exists (1 / 3), (1 / 3), (1 / 3). unfold centroid, pscale, padd. cbn [fst snd]. repeat split; lra. Qed.
Lemma dist_any u q0 q1 q2 v r : in_triangle (q0, q1, q2) v -> distance q0 u <= r -> distance q1 u <= r -> distance q2 u <= r -> distance v u <= r.
Proof. intros I D0 D1 D2. rewrite dist_sym. apply (dist_convex u q0 q1 q2 v r I); rewrite dist_sym; assumption. Qed.
(** the guess from a triangle *)
Lemma guess d p : In p (st d) -> distance (ray (centroid p)) s <= b * (sqrt 2 * wd d) /\ Rabs (fst (centroid p) - x0) <= fov / 2 + 2 * h /\ Rabs (snd (centroid p) - y0) <= fov / 2 + 2 * h.
Proof.
  intros Hp. destruct (near_st d p Hp) as [TB WI]. assert (X := extent_corner p _ (any_extent ray s x0 y0 fov n Hf Hn d p Hp)). assert (V := any_holds ray s x0 y0 fov n d p Hp). assert (C := centre_in p).
  assert (WP := wd_pos fov n Hf Hn d). assert (WL := wd_le fov n Hf Hn d). set (w := wd d) in *. assert (HP := wh_pos fov n Hf Hn). destruct p as [[p0 p1] p2]. set (c := centroid (p0, p1, p2)) in *. destruct TB as (B0 & B1 & B2). destruct WI as (W0 & W1 & W2). destruct X as (S0 & S1 & S2).
  assert (DC := dist_any xi _ _ _ _ _ C W0 W1 W2). destruct (distance_components c xi) as [DX DY].
  assert (CX : Rabs (fst c - x0) <= fov / 2 + 2 * h). { replace (fst c - x0) with (fst c - fst xi + (fst xi - x0)) by ring. eapply Rle_trans; [apply Rabs_triang|]. lra. }
  assert (CY : Rabs (snd c - y0) <= fov / 2 + 2 * h). { replace (snd c - y0) with (snd c - snd xi + (snd xi - y0)) by ring. eapply Rle_trans; [apply Rabs_triang|]. lra. }
  split; [|split; assumption]. assert (R1 := rho1). assert (BC : box c) by (split; lra). cbn [tmap] in V.
  apply (dist_convex (ray c) (ray p0) (ray p1) (ray p2)); [exact V| | |].
  - eapply Rle_trans; [apply (stretch c p0 BC B0)|]. apply Rmult_le_compat_l; [exact Hb|]. apply span_distance, S0.
  - eapply Rle_trans; [apply (stretch c p1 BC B1)|]. apply Rmult_le_compat_l; [exact Hb|]. apply span_distance, S1.
  - eapply Rle_trans; [apply (stretch c p2 BC B2)|]. apply Rmult_le_compat_l; [exact Hb|]. apply span_distance, S2.
Qed.
Lemma roots d : (exists p, In p (st d) /\ triangle_area p < epsilon ^ 2) -> exists l, rootfind s (map centroid (st d)) = Ok l /\ length l = length (st d) /\
  forall e, In e l -> distance (ray e) s <= b * (sqrt 2 * wd d) /\ distance e xi <= 2 * (b / a) * epsilon.
Proof.
  intros (p & Hp & A). assert (SW := small_width ray s x0 y0 fov n Hf Hn d p epsilon He Hp A). assert (S2 : sqrt 2 * sqrt 2 = 2) by (apply sqrt_sqrt; lra). assert (SP := Rlt_sqrt2_0). assert (WP := wd_pos fov n Hf Hn d). set (w := wd d) in *.
  assert (BA := ba). assert (W2 : sqrt 2 * w <= 2 * epsilon). { replace (2 * epsilon) with (sqrt 2 * (sqrt 2 * epsilon)) by (rewrite <- Rmult_assoc, S2; ring). apply Rmult_le_compat_l; lra. }
  assert (R0 : b * (sqrt 2 * w) / a <= 2 * (b / a) * epsilon). { replace (b * (sqrt 2 * w) / a) with (b / a * (sqrt 2 * w)) by (field; lra). replace (2 * (b / a) * epsilon) with (b / a * (2 * epsilon)) by ring. apply Rmult_le_compat_l; assumption. }
  assert (HP := wh_pos fov n Hf Hn). destruct (root_box solve ray s Hsolve x0 y0 rho a (b * (sqrt 2 * w)) (fov / 2 + 2 * h) (map centroid (st d)) Ha) as (l & E & Ln & HL).
  - intros X B1 B2. apply (stretch_expands ray x0 y0 rho a X (fun p q Bp Bq => proj1 (stretch p q Bp Bq)) Ha); [|exact B1|exact B2]. apply smooth. split; unfold pt_of; cbn [fst snd]; lra.
  - intros g Hg. apply in_map_iff in Hg. destruct Hg as (q & <- & Hq). apply (guess d q Hq).
  - lra.
  - exists l. split; [exact E|]. split; [rewrite Ln, map_length; reflexivity|]. intros e Hin. destruct (HL e Hin) as (D & B1 & B2). split; [exact D|]. destruct (stretch e xi) as [L _]; [split; lra|apply (xi_box x0 y0 fov rho n xi Hf Hn rho1 Hx Hy)|].
    eapply Rle_trans; [|exact R0]. apply Rmult_le_reg_l with a; [exact Ha|]. replace (a * (b * (sqrt 2 * w) / a)) with (b * (sqrt 2 * w)) by (field; lra). lra.
Qed.
Lemma search_weak left first E Emid d : st d = locate ray s (if first : bool then E else refine E) -> wd (d + left) ^ 2 / 2 < epsilon ^ 2 -> b * (sqrt 2 * wd (d + left)) < epsilon -> 1 / 10 ^ 6 <= wd (d + left) ->
  exists x t, search ray rootfind s epsilon left first E Emid = Ok (Some (x :: t)) /\ forall e, In e (x :: t) -> distance e xi <= 2 * (b / a) * epsilon.
Proof.
  revert first E Emid d.
  assert (MON : forall d l, wd (d + l) <= wd d).
  { intros d l. induction l as [|l IH]; [rewrite Nat.add_0_r; lra|]. rewrite Nat.add_succ_r, (wd_S fov n Hn). assert (WP := wd_pos fov n Hf Hn (d + l)). lra. }
  assert (NE : forall d, 1 / 10 ^ 6 <= wd d -> st d <> []).
  { intros d W Z. destruct (stage_never_empty ray n11 n12 n21 n22 HN x0 y0 fov rho n k xi Hf Hn Hk slow rho1 Hx Hy d W) as (p & Hp & _). rewrite Z in Hp. destruct Hp. }
  induction left as [|left IH]; intros first E Emid d Hd HA HB HW; cbn [search]; cbv zeta; rewrite <- Hd.
  all: assert (NEd := NE d ltac:(eapply Rle_trans; [exact HW|apply MON])); assert (RD := roots d); assert (AR : forall p, In p (st d) -> triangle_area p = wd d ^ 2 / 2) by (intros p Hp; rewrite area_orient, (any_orient ray s x0 y0 fov n Hn d p Hp); lra).
  all: destruct (st d) as [|p t] eqn:E0; [contradiction|]; assert (AP := AR p (or_introl eq_refl)).
  all: destruct (rlt (triangle_area p) (epsilon ^ 2)) eqn:EA; cbn [bind].
  1,3: rewrite rlt_true in EA; destruct (RD (ex_intro _ p (conj (or_introl eq_refl) EA))) as (l & -> & Hl & HL); cbn [bind]; rewrite Hl, Nat.eqb_refl; cbn [negb].
  - rewrite Nat.add_0_r in HB. assert (KEEP : filter (fun e => rlt (norm2 (psub (ray e) s)) epsilon) l = l).
    { clear Hl. induction l as [|e l IHl]; [reflexivity|]. cbn [filter]. rewrite IHl by (intros; apply HL; right; assumption). assert (Q : rlt (norm2 (psub (ray e) s)) epsilon = true); [|rewrite Q; reflexivity]. apply rlt_true. rewrite distance_norm. eapply Rle_lt_trans; [apply (HL e (or_introl eq_refl))|exact HB]. }
    rewrite KEEP. destruct l as [|x l]; [discriminate|]. destruct (_ && _)%bool; cbn [bind]; exists x, l; (split; [reflexivity|intros e I; apply HL, I]).
  - destruct (_ && _)%bool; cbn [bind].
    + destruct l as [|x l]; [discriminate|]. exists x, l. split; [reflexivity|intros e I; apply HL, I].
    + apply (IH false (p :: t) _ (S d)); [cbn [stage]; rewrite E0; reflexivity| | |]; rewrite Nat.add_succ_comm; assumption.
  - exfalso. rewrite Nat.add_0_r in HA. apply rlt_false in EA. lra.
  - apply (IH false (p :: t) Emid (S d)); [cbn [stage]; rewrite E0; reflexivity| | |]; rewrite Nat.add_succ_comm; assumption.
Qed.
Lemma weak_found max_depth : wd max_depth ^ 2 / 2 < epsilon ^ 2 -> b * (sqrt 2 * wd max_depth) < epsilon -> 1 / 10 ^ 6 <= wd max_depth ->
  exists x t, forward_raytrace ray rootfind s epsilon x0 y0 fov n max_depth = Ok (x :: t) /\ forall e, In e (x :: t) -> distance e xi <= 2 * (b / a) * epsilon.
Proof.
  intros HA HB HW. destruct (search_weak max_depth true (initial_triangles x0 y0 fov n) None 0 eq_refl HA HB HW) as (x & t & E & H).
  unfold forward_raytrace. rewrite E. cbn [bind]. destruct (dedup_points (x :: t) epsilon) as (SL & HD & _). destruct (HD x t eq_refl) as (t' & EQ). exists x, t'. split; [f_equal; exact EQ|].
  intros e I. apply H. eapply sublist_in; [exact SL|]. rewrite EQ. exact I.
Qed.
End Search.
