(** * What the image search can return, for any lens *)
From Coq Require Import Reals List Arith Lia Lra Psatz.
From Coquelicot Require Import Coquelicot.
From Verif Require Import Py Fsum LM_Model LM_Spec LM_Proofs Gauss_Model Tri_Model Tri_Spec Tri_Proofs Tri2_Proofs Tri3_Proofs Root_Spec Root_Proofs Root2_Proofs.
Import ListNotations.
Local Open Scope R_scope.

(** ** the triangles of every pass *)
Section Stage.
Variables (raytrace : pt -> pt) (s : pt) (x0 y0 fov : R) (n : nat).
Hypotheses (Hf : 0 < fov) (Hn : (2 <= n)%nat).
Notation st := (stage raytrace s x0 y0 fov n).
Lemma any_extent d : forall p, In p (st d) -> extent p (fov / INR (n - 1) / 2 ^ d).
Proof.
  induction d as [|d IH]; intros p Hp; cbn [stage] in Hp; apply filter_In in Hp; destruct Hp as [Hp _].
  - cbn [pow]. unfold Rdiv at 1. rewrite Rinv_1, Rmult_1_r. apply (extent_initial x0 y0); assumption.
  - apply in_refine in Hp. destruct Hp as (q & r & Hq & Hr & Hp). replace (fov / INR (n - 1) / 2 ^ S d) with (fov / INR (n - 1) / 2 ^ d / 2).
    + apply (extent_upsample r); [|exact Hp]. apply (extent_neighbors q); [apply IH, Hq|exact Hr].
    + cbn [pow]. assert (Q := n1_pos n Hn). assert (Q2 : 2 ^ d <> 0) by (apply pow_nonzero; lra). field. split; lra || assumption.
Qed.
Lemma any_orient d : forall p, In p (st d) -> Rabs (orient p) = (fov / INR (n - 1) / 2 ^ d) ^ 2.
Proof.
  induction d as [|d IH]; intros p Hp; cbn [stage] in Hp; apply filter_In in Hp; destruct Hp as [Hp _].
  - rewrite (initial_orient x0 y0 fov n Hn p Hp). unfold h. cbn [pow]. field. assert (Q := n1_pos n Hn). lra.
  - apply in_refine in Hp. destruct Hp as (q & r & Hq & Hr & Hp). rewrite (upsample_orient r p Hp), (neighbors_orient q r Hr).
    unfold Rdiv at 1. rewrite Rabs_mult, (IH q Hq), (Rabs_right (/ 4)) by lra.
    cbn [pow]. assert (Q := n1_pos n Hn). assert (Q2 : 2 ^ d <> 0) by (apply pow_nonzero; lra). field. split; lra || assumption.
Qed.
(** a triangle that holds the source does so as a set *)
Lemma any_holds d : forall p, In p (st d) -> in_triangle (tmap raytrace p) s.
Proof.
  intros p Hp. assert (C : triangle_contains (tmap raytrace p) s = true) by (destruct d; cbn [stage] in Hp; apply filter_In in Hp; apply Hp).
  destruct (Req_dec (orient (tmap raytrace p)) 0) as [Z|NZ]; [rewrite contains_degenerate in C by (intros D; apply D, Z); discriminate|].
  apply contains_iff; assumption.
Qed.
Lemma small_width d p epsilon : 0 < epsilon -> In p (st d) -> triangle_area p < epsilon ^ 2 -> fov / INR (n - 1) / 2 ^ d < sqrt 2 * epsilon.
Proof.
  intros He Hp A. rewrite area_orient, (any_orient d p Hp) in A. set (w := fov / INR (n - 1) / 2 ^ d) in *.
  assert (S2 := sqrt_pos 2). apply Rsqr_incrst_0; [|unfold w; apply Rlt_le, Rdiv_lt_0_compat; [apply (h_pos fov n Hf Hn)|apply pow_lt; lra]|apply Rmult_le_pos; lra].
  unfold Rsqr. replace (sqrt 2 * epsilon * (sqrt 2 * epsilon)) with (sqrt 2 ^ 2 * epsilon ^ 2) by ring. rewrite pow2_sqrt by lra. lra.
Qed.
End Stage.

(** ** whatever the root finder always gives, the search gives *)
Section Given.
Variables (raytrace : pt -> pt) (rootfind : pt -> list pt -> result (list pt)) (s : pt) (epsilon : R) (Q : pt -> Prop).
Lemma search_all (st : nat -> list tri) left : (forall d, st (S d) = locate raytrace s (refine (st d))) ->
  (forall d p l, In p (st d) -> triangle_area p < epsilon ^ 2 -> rootfind s (map centroid (st d)) = Ok l -> forall e, In e l -> Q e) ->
  forall d (first : bool) E Emid r, st d = locate raytrace s (if first then E else refine E) -> (forall l, Emid = Some l -> forall e, In e l -> Q e) ->
  search raytrace rootfind s epsilon left first E Emid = Ok (Some r) -> forall e, In e r -> Q e.
Proof.
  intros HS HQ. induction left as [|left IH]; intros d first E Emid r H0 HE H e He; cbn [search] in H; cbv zeta in H; rewrite <- H0 in H.
  all: assert (Qd := HQ d); assert (Sd := HS d); destruct (st d) as [|p t] eqn:E0; [discriminate|].
  all: destruct (rlt (triangle_area p) (epsilon ^ 2)) eqn:EA; cbn [bind] in H.
  1,3: apply rlt_true in EA; specialize (Qd p); destruct (rootfind s (map centroid (p :: t))) as [Emid1|]; cbn [bind] in H; [|discriminate];
       specialize (Qd Emid1 (or_introl eq_refl) EA eq_refl).
  1,2: destruct (negb (length Emid1 =? length (p :: t))%nat); [discriminate|].
  1,2: destruct (all_inside (p :: t) Emid1 && allclose (map raytrace Emid1) s epsilon)%bool; cbn [bind] in H.
  - injection H as <-. apply Qd, He.
  - injection H as <-. apply filter_In in He. apply Qd, He.
  - injection H as <-. apply Qd, He.
  - eapply (IH (S d) false (p :: t)); [exact Sd| |exact H|exact He]. intros l El. injection El as <-. intros e' He'. apply filter_In in He'. apply Qd, He'.
  - injection H as ->. apply (HE r eq_refl e He).
  - eapply (IH (S d) false (p :: t)); [exact Sd|exact HE|exact H|exact He].
Qed.
Lemma forward_all x0 y0 fov n max_depth r :
  (forall d p l, In p (stage raytrace s x0 y0 fov n d) -> triangle_area p < epsilon ^ 2 -> rootfind s (map centroid (stage raytrace s x0 y0 fov n d)) = Ok l -> forall e, In e l -> Q e) ->
  forward_raytrace raytrace rootfind s epsilon x0 y0 fov n max_depth = Ok r -> forall e, In e r -> Q e.
Proof.
  intros HQ. unfold forward_raytrace. destruct (search _ _ _ _ _ _ _ _) as [[l|]|] eqn:E; cbn [bind]; try discriminate. intros H. injection H as <-.
  destruct (dedup_points l epsilon) as (S & _). intros e He.
  refine (search_all (stage raytrace s x0 y0 fov n) max_depth (fun d => eq_refl) HQ 0 true _ None l eq_refl ltac:(discriminate) E e _). eapply sublist_in; [exact S|exact He].
Qed.
End Given.

(** ** convexity *)
Lemma jensen3 a b c u v w : 0 <= a -> 0 <= b -> 0 <= c -> a + b + c = 1 -> (a * u + b * v + c * w) ^ 2 <= a * u ^ 2 + b * v ^ 2 + c * w ^ 2.
Proof.
  intros Ha Hb Hc S. assert (Q1 := pow2_ge_0 (u - v)). assert (Q2 := pow2_ge_0 (v - w)). assert (Q3 := pow2_ge_0 (u - w)).
  assert (P1 := Rmult_le_pos _ _ (Rmult_le_pos _ _ Ha Hb) Q1). assert (P2 := Rmult_le_pos _ _ (Rmult_le_pos _ _ Hb Hc) Q2). assert (P3 := Rmult_le_pos _ _ (Rmult_le_pos _ _ Ha Hc) Q3).
  assert (E : a * u ^ 2 + b * v ^ 2 + c * w ^ 2 - (a * u + b * v + c * w) ^ 2 = a * b * (u - v) ^ 2 + b * c * (v - w) ^ 2 + a * c * (u - w) ^ 2).
  { replace c with (1 - a - b) by lra. ring. }
  lra.
Qed.
Lemma dist_convex u q0 q1 q2 v r : in_triangle (q0, q1, q2) v -> distance u q0 <= r -> distance u q1 <= r -> distance u q2 <= r -> distance u v <= r.
Proof.
  intros (a & b & c & Ha & Hb & Hc & S & Ex & Ey) D0 D1 D2. assert (P0 := dist_nonneg u q0). apply dist_le; [lra|].
  assert (G : forall q, 0 <= distance u q <= r -> (fst u - fst q) ^ 2 + (snd u - snd q) ^ 2 <= r ^ 2) by (intros q H; rewrite <- dist_sq; apply pow_incr; exact H).
  assert (G0 := G q0 (conj (dist_nonneg _ _) D0)). assert (G1 := G q1 (conj (dist_nonneg _ _) D1)). assert (G2 := G q2 (conj (dist_nonneg _ _) D2)).
  assert (J1 := jensen3 a b c (fst u - fst q0) (fst u - fst q1) (fst u - fst q2) Ha Hb Hc S). assert (J2 := jensen3 a b c (snd u - snd q0) (snd u - snd q1) (snd u - snd q2) Ha Hb Hc S).
  replace (fst u - fst v) with (a * (fst u - fst q0) + b * (fst u - fst q1) + c * (fst u - fst q2)) by (rewrite Ex; replace (fst u - (a * fst q0 + b * fst q1 + c * fst q2)) with ((a + b + c) * fst u - (a * fst q0 + b * fst q1 + c * fst q2)) by (rewrite S; ring); ring).
  replace (snd u - snd v) with (a * (snd u - snd q0) + b * (snd u - snd q1) + c * (snd u - snd q2)) by (rewrite Ey; replace (snd u - (a * snd q0 + b * snd q1 + c * snd q2)) with ((a + b + c) * snd u - (a * snd q0 + b * snd q1 + c * snd q2)) by (rewrite S; ring); ring).
  apply (Rmult_le_compat_l a) in G0; [|exact Ha]. apply (Rmult_le_compat_l b) in G1; [|exact Hb]. apply (Rmult_le_compat_l c) in G2; [|exact Hc].
  assert (T : a * r ^ 2 + b * r ^ 2 + c * r ^ 2 = r ^ 2) by (rewrite <- !Rmult_plus_distr_r, S; ring). lra.
Qed.
Lemma extent_corner p w : extent p w -> let '(p0, p1, p2) := p in span (centroid p) p0 w /\ span (centroid p) p1 w /\ span (centroid p) p2 w.
Proof.
  destruct p as [[[a0 b0] [a1 b1]] [a2 b2]]. unfold extent, span, centroid, pscale, padd. cbn [fst snd]. lra.
Qed.

(** ** the steps of the root finder *)
Section Steps.
Variables (solve : mat -> vec -> vec) (raytrace : pt -> pt) (b : pt).
Hypothesis Hsolve : solver_ok 2 solve.
Notation f := (lens_f raytrace).
Notation Y := (vec_of b).
Notation step := (lm_step 2 2 solve f 9 11 (1 / 10) (1 / 10 ^ 9) (10 ^ 9)).
(** where the Jacobian stretches by a at least, no step is longer than the distance to the source over a *)
Definition expands (X : vec) (a : R) : Prop := forall u v,
  a ^ 2 * (u ^ 2 + v ^ 2) <= (jacobian f X 0%nat 0%nat * u + jacobian f X 0%nat 1%nat * v) ^ 2 + (jacobian f X 1%nat 0%nat * u + jacobian f X 1%nat 1%nat * v) ^ 2.
Lemma step_short X L a : 0 < L -> 0 < a -> expands X a -> let h := lm_h 2 solve f X Y W2 L in
  a ^ 2 * (h 0%nat ^ 2 + h 1%nat ^ 2) <= distance (raytrace (pt_of X)) b ^ 2.
Proof.
  intros HL Ha HX h. assert (S0 := step_solves 2 2 solve f Hsolve X Y W2 L W2_psd HL 0%nat ltac:(lia)). assert (S1 := step_solves 2 2 solve f Hsolve X Y W2 L W2_psd HL 1%nat ltac:(lia)).
  fold h in S0, S1. cbn [fsum] in S0, S1. rewrite dist_sq. specialize (HX (h 0%nat) (h 1%nat)).
  unfold hess_of, grad_of, W2, residual in S0, S1. cbn [fsum Nat.eqb] in S0, S1. rewrite ?Rinv_1 in S0, S1.
  set (j00 := jacobian f X 0%nat 0%nat) in *. set (j01 := jacobian f X 0%nat 1%nat) in *. set (j10 := jacobian f X 1%nat 0%nat) in *. set (j11 := jacobian f X 1%nat 1%nat) in *.
  unfold lens_f in S0, S1. cbn [vec_of] in S0, S1. set (u := h 0%nat) in *. set (v := h 1%nat) in *.
  set (dx := fst b - fst (raytrace (pt_of X))) in *. set (dy := snd b - snd (raytrace (pt_of X))) in *.
  replace ((fst (raytrace (pt_of X)) - fst b) ^ 2) with (dx ^ 2) by (unfold dx; ring). replace ((snd (raytrace (pt_of X)) - snd b) ^ 2) with (dy ^ 2) by (unfold dy; ring).
  clearbody j00 j01 j10 j11 u v dx dy. set (p := j00 * u + j01 * v) in *. set (q := j10 * u + j11 * v) in *.
  assert (E : p ^ 2 + q ^ 2 + L * (u ^ 2 + v ^ 2) = p * dx + q * dy).
  { apply (f_equal (Rmult u)) in S0. apply (f_equal (Rmult v)) in S1. unfold p, q. transitivity (u * (0 + (0 + j00 * (j00 * 1) + j10 * (j10 * 1) + L * 1) * u + (0 + j00 * (j01 * 1) + j10 * (j11 * 1) + L * 0) * v) + v * (0 + (0 + j01 * (j00 * 1) + j11 * (j10 * 1) + L * 0) * u + (0 + j01 * (j01 * 1) + j11 * (j11 * 1) + L * 1) * v)); [ring|].
    rewrite S0, S1. ring. }
  assert (LP : 0 <= L * (u ^ 2 + v ^ 2)) by (apply Rmult_le_pos; [lra|]; assert (Z1 := pow2_ge_0 u); assert (Z2 := pow2_ge_0 v); lra).
  assert (Z : 0 <= (p - dx) ^ 2 + (q - dy) ^ 2) by (assert (Z1 := pow2_ge_0 (p - dx)); assert (Z2 := pow2_ge_0 (q - dy)); lra). nra.
Qed.
(** so that a guess whose image plane neighbourhood is expanding moves a bounded distance *)
Lemma loop_bounded (P : nat -> nat -> vec -> R -> Prop) B : 
  (forall k j X L, (j < B)%nat -> P k j X L -> P (S k) j (fst (fst (step X Y W2 L))) (snd (fst (step X Y W2 L)))) ->
  forall m k Xs Ls C, (forall j, (j < B)%nat -> P k j (Xs j) (Ls j)) -> forall j, (j < B)%nat ->
  exists k' L, (k <= k' <= k + m)%nat /\ P k' j (fst (fst (lm_loop 2 2 solve f 9 11 (1 / 10) (1 / 10 ^ 9) (10 ^ 9) B (fun _ => Y) (fun _ => W2) (1 / 10 ^ 4) m Xs Ls C)) j) L.
Proof.
  intros K m. induction m as [|m IH]; intros k Xs Ls C H j Hj; cbn [lm_loop].
  - exists k, (Ls j). split; [lia|]. apply H, Hj.
  - cbv zeta. destruct (converged _ _ _ _ _ _); [exists k, (Ls j); split; [lia|apply H, Hj]|]. destruct (all_stuck _ _ _); [exists k, (Ls j); split; [lia|apply H, Hj]|].
    destruct (IH (S k) (fun b => fst (fst (step (Xs b) Y W2 (Ls b)))) (fun b => snd (fst (step (Xs b) Y W2 (Ls b)))) (Chi2 (fun b => snd (step (Xs b) Y W2 (Ls b)))) ltac:(intros j' Hj'; apply K; [exact Hj'|apply H, Hj']) j Hj) as (k' & L & Hk & HP).
    exists k', L. split; [lia|exact HP].
Qed.
(** drift of the guesses in the half plane x >= rho on which the Jacobian expands *)
Lemma root_right a rho r0 x1 (guesses : list pt) : 0 < a -> (forall X, rho <= X 0%nat -> expands X a) ->
  (forall g, In g guesses -> distance (raytrace g) b <= r0 /\ x1 <= fst g) -> rho + 50 * (r0 / a) <= x1 ->
  exists l, forward_raytrace_rootfind solve raytrace b guesses = Ok l /\ forall e, In e l -> rho <= fst e.
Proof.
  intros Ha HX Hg Hx. destruct (rootfind_is solve raytrace b guesses) as (out & E & ->). eexists. split; [reflexivity|]. intros e He. apply in_map_iff in He. destruct He as (k & <- & Hk). apply in_seq in Hk.
  assert (R0 : 0 <= r0). { destruct guesses as [|g t]; [cbn in Hk; lia|]. destruct (Hg g (or_introl eq_refl)) as [D _]. eapply Rle_trans; [apply dist_nonneg|exact D]. }
  assert (RA : 0 <= r0 / a) by (apply Rmult_le_pos; [exact R0|apply Rlt_le, Rinv_0_lt_compat, Ha]).
  set (P := fun (i _ : nat) (X : vec) (L : R) => (i <= 50)%nat -> 0 < L /\ distance (raytrace (pt_of X)) b <= r0 /\ x1 - INR i * (r0 / a) <= X 0%nat).
  destruct (loop_bounded P (length guesses)) with (m := 50%nat) (k := 0%nat) (Xs := starts guesses) (Ls := fun _ : nat => 1 * 1) (C := Covariance) (j := k) as (k' & L & Hk' & HP).
  - intros i j X L _ HPi Hi. destruct (HPi ltac:(lia)) as (L0 & D & XX). split; [apply step_L_pos|].
    assert (D' : distance (raytrace (pt_of (fst (fst (step X Y W2 L))))) b <= r0).
    { eapply Rle_trans; [|exact D]. assert (M := step_chisq 2 2 solve f 9 11 (1 / 10) (1 / 10 ^ 9) (10 ^ 9) X Y W2 L ltac:(lra)). rewrite !chisq_dist in M.
      apply Rsqr_incr_0_var; [unfold Rsqr; lra|apply dist_nonneg]. }
    split; [exact D'|]. rewrite S_INR. assert (I1 : INR i <= 49) by (apply (le_INR i 49) in Hi || (assert (Hi' : (i <= 49)%nat) by lia; apply le_INR in Hi'; cbn in Hi'; lra)).
    unfold lm_step. cbn [fst]. destruct (qge _ _); [|lra]. unfold moved.
    assert (XR : rho <= X 0%nat). { assert (Z : INR i * (r0 / a) <= 49 * (r0 / a)) by (apply Rmult_le_compat_r; assumption). lra. }
    assert (SS := step_short X L a L0 Ha (HX X XR)). cbv zeta in SS. set (h := lm_h 2 solve f X Y W2 L) in *.
    assert (HH : - (r0 / a) <= h 0%nat).
    { assert (Q : (a * h 0%nat) ^ 2 <= r0 ^ 2). { assert (Z1 : 0 <= a ^ 2 * h 1%nat ^ 2) by (apply Rmult_le_pos; apply pow2_ge_0). assert (D2 : distance (raytrace (pt_of X)) b ^ 2 <= r0 ^ 2) by (apply pow_incr; split; [apply dist_nonneg|exact D]). rewrite Rpow_mult_distr. lra. }
      assert (Q' : - r0 <= a * h 0%nat). { apply Rnot_lt_le. intros C. assert (r0 ^ 2 < (a * h 0%nat) ^ 2); [|lra]. nra. }
      apply Rmult_le_reg_l with a; [exact Ha|]. replace (a * - (r0 / a)) with (- r0) by (field; lra). exact Q'. }
    lra.
  - intros j Hj _. split; [lra|]. destruct (Hg (nth j guesses (0, 0)) (nth_In _ _ Hj)) as [G1 G2]. unfold starts. rewrite pt_vec. split; [exact G1|]. cbn [vec_of INR]. lra.
  - lia.
  - rewrite E in HP. destruct (HP ltac:(lia)) as (_ & _ & XX). unfold pt_of. cbn [fst]. assert (I1 : INR k' <= 50) by (replace 50 with (INR 50) by (cbn; lra); apply le_INR; lia).
    assert (Z : INR k' * (r0 / a) <= 50 * (r0 / a)) by (apply Rmult_le_compat_r; assumption). lra.
Qed.
End Steps.
