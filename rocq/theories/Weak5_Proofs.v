(** * A Point lens outside the field of view *)
From Coq Require Import Reals List Arith Lia Lra Psatz.
From Coquelicot Require Import Coquelicot.
From Verif Require Import Py Calc2 LensBase_Model LensBasic_Model LM_Model LM_Spec Tri_Model Tri_Spec Tri2_Proofs Tri3_Proofs Root_Spec Root_Proofs Root2_Proofs Lost_Proofs Lost2_Proofs Weak3_Proofs Weak4_Proofs.
Import ListNotations.
Local Open Scope R_scope.

Section Point.
Variables (Rein x0 y0 fov rho : R) (n : nat) (epsilon : R) (xi : pt) (solve : mat -> vec -> vec).
Hypotheses (HR : 0 < Rein) (Hf : 0 < fov) (Hn : (2 <= n)%nat) (He : 0 < epsilon) (Hsolve : solver_ok 2 solve).
Notation h := (fov / INR (n - 1)).
Hypothesis far : forall x y, Rabs (x - x0) <= rho -> Rabs (y - y0) <= rho -> 36 * Rein ^ 2 <= x ^ 2 + y ^ 2.
Lemma far_box p : box x0 y0 rho p -> 36 * Rein ^ 2 <= fst p ^ 2 + snd p ^ 2.
Proof. intros [B1 B2]. apply far; assumption. Qed.
Lemma bend_slow p q : box x0 y0 rho p -> box x0 y0 rho q -> distance (psub (pray Rein p) p) (psub (pray Rein q) q) <= 1 / 36 * distance p q.
Proof.
  intros Bp Bq. apply far_box in Bp. apply far_box in Bq. destruct p as [x y], q as [a b]. cbn [fst snd] in *. assert (R2 : 0 < Rein ^ 2) by (apply pow_lt, HR).
  rewrite !pray_eq by lra. unfold psub. cbn [fst snd]. assert (D0 := dist_nonneg (x, y) (a, b)). apply dist_le; [lra|]. rewrite Rpow_mult_distr, dist_sq. cbn [fst snd].
  assert (G : forall u, 36 * Rein ^ 2 <= u -> 0 <= Rein ^ 2 / u <= 1 / 36).
  { intros u Hu. split; [apply Rlt_le, Rdiv_lt_0_compat; lra|]. apply Rmult_le_reg_r with u; [lra|]. unfold Rdiv at 1. rewrite Rmult_assoc, Rinv_l by lra. lra. }
  assert (K1 := G _ Bp). assert (K2 := G _ Bq).
  replace ((x - Rein ^ 2 * x / (x ^ 2 + y ^ 2) - x - (a - Rein ^ 2 * a / (a ^ 2 + b ^ 2) - a)) ^ 2 + (y - Rein ^ 2 * y / (x ^ 2 + y ^ 2) - y - (b - Rein ^ 2 * b / (a ^ 2 + b ^ 2) - b)) ^ 2)
    with (Rein ^ 2 / (x ^ 2 + y ^ 2) * (Rein ^ 2 / (a ^ 2 + b ^ 2)) * ((x - a) ^ 2 + (y - b) ^ 2)) by (field; lra).
  apply Rmult_le_compat_r; [assert (Z1 := pow2_ge_0 (x - a)); assert (Z2 := pow2_ge_0 (y - b)); lra|]. replace ((1 / 36) ^ 2) with (1 / 36 * (1 / 36)) by ring. apply Rmult_le_compat; lra.
Qed.
Lemma pray_smooth p : box x0 y0 rho p -> smooth_at (pray Rein) p.
Proof.
  intros B. apply far_box in B. destruct p as [x y]. cbn [fst snd] in *. assert (R2 : 0 < Rein ^ 2) by (apply pow_lt, HR). unfold smooth_at. cbn [fst snd].
  assert (DQ : D2 (fun u v => u ^ 2 + v ^ 2) x y (2 * x) (2 * y)).
  { eapply D2_eq; [apply (D2_plus (fun u _ => u ^ 2) (fun _ v => v ^ 2)); [apply (D2_proj1 (fun u => u ^ 2)); auto_derive; [exact I|reflexivity]|apply (D2_proj2 (fun v => v ^ 2)); auto_derive; [exact I|reflexivity]]| |]; ring. }
  assert (LOC : locally_2d (fun u v => 0 < u ^ 2 + v ^ 2) x y) by (apply (D2_locally_gt _ _ _ _ _ 0 DQ); lra).
  assert (NZ : x ^ 2 + y ^ 2 <> 0) by lra.
  eexists _, _, _, _. split.
  - eapply (D2_ext_loc (fun u v => u - Rein ^ 2 * u / (u ^ 2 + v ^ 2))).
    + eapply locally_2d_impl; [|exact LOC]. apply locally_2d_forall. intros u v Huv. rewrite pray_eq by exact Huv. reflexivity.
    + apply (D2_minus (fun u _ => u)); [apply D2_fst|]. apply (D2_div (fun u v => Rein ^ 2 * u) (fun u v => u ^ 2 + v ^ 2)); [exact NZ|apply D2_scal, D2_fst|exact DQ].
  - eapply (D2_ext_loc (fun u v => v - Rein ^ 2 * v / (u ^ 2 + v ^ 2))).
    + eapply locally_2d_impl; [|exact LOC]. apply locally_2d_forall. intros u v Huv. rewrite pray_eq by exact Huv. reflexivity.
    + apply (D2_minus (fun _ v => v)); [apply D2_snd|]. apply (D2_div (fun u v => Rein ^ 2 * v) (fun u v => u ^ 2 + v ^ 2)); [exact NZ|apply D2_scal, D2_snd|exact DQ].
Qed.
Lemma pray_stretch p q : box x0 y0 rho p -> box x0 y0 rho q -> 35 / 36 * distance p q <= distance (pray Rein p) (pray Rein q) <= 37 / 36 * distance p q.
Proof.
  intros Bp Bq. assert (SL := bend_slow p q Bp Bq). rewrite dist_cmod in SL. rewrite (dist_cmod (pray Rein p)). rewrite (dist_cmod p q) in *.
  set (g := pray Rein) in *. assert (E1 : psub (g p) (g q) = Cplus (psub p q) (psub (psub (g p) p) (psub (g q) q))) by (unfold psub, Cplus; cbn [fst snd]; f_equal; ring).
  assert (E2 : psub p q = Cplus (psub (g p) (g q)) (Copp (psub (psub (g p) p) (psub (g q) q)))) by (unfold psub, Cplus, Copp; cbn [fst snd]; f_equal; ring).
  assert (T1 := Cmod_triangle (psub p q) (psub (psub (g p) p) (psub (g q) q))). rewrite <- E1 in T1.
  assert (T2 := Cmod_triangle (psub (g p) (g q)) (Copp (psub (psub (g p) p) (psub (g q) q)))). rewrite <- E2, Cmod_opp in T2. split; lra.
Qed.
Lemma point_found max_depth : fov / 2 + 6 * h + 106 * epsilon <= rho -> Rabs (fst xi - x0) + h / 2 < fov / 2 -> Rabs (snd xi - y0) + h / 2 < fov / 2 ->
  2 * (h / 2 ^ max_depth) <= epsilon -> 1 / 10 ^ 6 <= h / 2 ^ max_depth ->
  exists x t, forward_raytrace (pray Rein) (forward_raytrace_rootfind solve (pray Rein)) (pray Rein xi) epsilon x0 y0 fov n max_depth = Ok (x :: t) /\ forall e, In e (x :: t) -> distance e xi <= 3 * epsilon.
Proof.
  intros Hr Hx Hy HW HD. assert (WP := wd_pos fov n Hf Hn max_depth). set (w := h / 2 ^ max_depth) in *. assert (SQ := sqrt2_le). assert (SP := sqrt_pos 2).
  assert (EA : forall p, gam (pray Rein) 1 0 0 1 p = pray Rein p) by (intros p; unfold gam, affine_map; destruct (pray Rein p); cbn [fst snd]; f_equal; ring).
  destruct (weak_found (pray Rein) 1 0 0 1 ltac:(lra) x0 y0 fov rho n (1 / 36) (35 / 36) (37 / 36) epsilon xi solve Hf Hn ltac:(lra) ltac:(lra) ltac:(lra) He Hsolve
    ltac:(intros p q; rewrite !EA; apply bend_slow) pray_stretch pray_smooth ltac:(lra) Hx Hy max_depth) as (x & t & E & H); fold w; [nra|nra|exact HD|].
  exists x, t. split; [exact E|]. intros e I. eapply Rle_trans; [apply H, I|]. lra.
Qed.
End Point.
