(** * Differentiating a limit of functions of two variables *)
From Coq Require Import Reals Lra Psatz Lia.
From Coquelicot Require Import Coquelicot.
From Verif Require Import Calc2.
Local Open Scope R_scope.

Lemma segment_mvt (F Fx Fy : R -> R -> R) x y u v : (forall s, 0 <= s <= 1 -> D2 F (x + s * (u - x)) (y + s * (v - y)) (Fx (x + s * (u - x)) (y + s * (v - y))) (Fy (x + s * (u - x)) (y + s * (v - y)))) ->
  exists s, 0 <= s <= 1 /\ F u v - F x y = Fx (x + s * (u - x)) (y + s * (v - y)) * (u - x) + Fy (x + s * (u - x)) (y + s * (v - y)) * (v - y).
Proof.
  intros H.
  assert (D : forall s, 0 <= s <= 1 -> is_derive (fun s => F (x + s * (u - x)) (y + s * (v - y))) s
     (Fx (x + s * (u - x)) (y + s * (v - y)) * (u - x) + Fy (x + s * (u - x)) (y + s * (v - y)) * (v - y))).
  { intros s Hs. apply (D2_curve F (fun s => x + s * (u - x)) (fun s => y + s * (v - y))); [apply H, Hs| |]; auto_derive; trivial; ring. }
  destruct (MVT_gen (fun s => F (x + s * (u - x)) (y + s * (v - y))) 0 1
     (fun s => Fx (x + s * (u - x)) (y + s * (v - y)) * (u - x) + Fy (x + s * (u - x)) (y + s * (v - y)) * (v - y))) as (s & Hs & E).
  - intros s. rewrite Rmin_left, Rmax_right by lra. intros Hs. apply D. lra.
  - intros s. rewrite Rmin_left, Rmax_right by lra. intros Hs. apply continuity_pt_filterlim.
    apply (ex_derive_continuous (V := R_NormedModule) (fun s => F (x + s * (u - x)) (y + s * (v - y)))). exists (Fx (x + s * (u - x)) (y + s * (v - y)) * (u - x) + Fy (x + s * (u - x)) (y + s * (v - y)) * (v - y)). apply (D s). lra.
  - rewrite Rmin_left, Rmax_right in Hs by lra. exists s. split; [exact Hs|].
    replace (x + 1 * (u - x)) with u in E by ring. replace (y + 1 * (v - y)) with v in E by ring. replace (x + 0 * (u - x)) with x in E by ring. replace (y + 0 * (v - y)) with y in E by ring.
    lra.
Qed.
Section Limit.
Variables (F Fx Fy : nat -> R -> R -> R) (f : R -> R -> R) (x y gx gy : R) (d : posreal).
Hypothesis HD : forall n u v, Rabs (u - x) < d -> Rabs (v - y) < d -> D2 (F n) u v (Fx n u v) (Fy n u v).
Hypothesis HL : forall u v, Rabs (u - x) < d -> Rabs (v - y) < d -> is_lim_seq (fun n => F n u v) (f u v).
Hypothesis HU : forall eps : posreal, exists N, forall n, (N <= n)%nat -> forall u v, Rabs (u - x) < d -> Rabs (v - y) < d ->
  Rabs (Fx n u v - Fx N u v) <= eps /\ Rabs (Fy n u v - Fy N u v) <= eps.
Hypothesis HC : forall n, continuity_2d_pt (Fx n) x y /\ continuity_2d_pt (Fy n) x y.
Hypothesis Hx : is_lim_seq (fun n => Fx n x y) gx.
Hypothesis Hy : is_lim_seq (fun n => Fy n x y) gy.
Lemma lim_close (a : nat -> R) (l : R) N e : is_lim_seq a l -> (forall n, (N <= n)%nat -> Rabs (a n - a N) <= e) -> Rabs (a N - l) <= e.
Proof.
  intros L H. assert (Lm : is_lim_seq (fun n => Rabs (a n - a N)) (Rabs (l - a N))).
  { apply (is_lim_seq_abs (fun n => a n - a N) (l - a N)). apply is_lim_seq_minus'; [exact L|apply is_lim_seq_const]. }
  rewrite Rabs_minus_sym. change (Rbar_le (Finite (Rabs (l - a N))) (Finite e)).
  apply (is_lim_seq_le_loc (fun n => Rabs (a n - a N)) (fun _ => e)); [|exact Lm|apply is_lim_seq_const]. exists N. exact H.
Qed.
Lemma D2_limit : D2 f x y gx gy.
Proof.
  intros [eps He]. cbn [pos]. assert (He6 : 0 < eps / 6) by lra. destruct (HU (mkposreal _ He6)) as (N & HN). cbn [pos] in HN.
  destruct (HC N) as [C1 C2]. destruct (C1 (mkposreal _ He6)) as (d1 & K1). destruct (C2 (mkposreal _ He6)) as (d2 & K2). cbn [pos] in K1, K2.
  assert (P0 : 0 < Rmin d (Rmin d1 d2)) by (repeat apply Rmin_glb_lt; apply cond_pos).
  exists (mkposreal _ P0). cbn [pos]. intros u v Hu Hv.
  assert (M1 := Rmin_l d (Rmin d1 d2)). assert (M2 := Rmin_r d (Rmin d1 d2)). assert (M3 := Rmin_l d1 d2). assert (M4 := Rmin_r d1 d2). assert (dp := cond_pos d).
  set (du := u - x) in *. set (dv := v - y) in *.
  assert (Z0 : Rabs (x - x) < d) by (replace (x - x) with 0 by ring; rewrite Rabs_R0; exact dp). assert (Z1 : Rabs (y - y) < d) by (replace (y - y) with 0 by ring; rewrite Rabs_R0; exact dp).
  assert (L1 : Rabs (Fx N x y - gx) <= eps / 6) by (apply (lim_close (fun n => Fx n x y)); [exact Hx|]; intros n Hn; apply (HN n Hn x y Z0 Z1)).
  assert (L2 : Rabs (Fy N x y - gy) <= eps / 6) by (apply (lim_close (fun n => Fy n x y)); [exact Hy|]; intros n Hn; apply (HN n Hn x y Z0 Z1)).
  assert (Main : forall n, (N <= n)%nat -> Rabs (F n u v - F n x y - (gx * du + gy * dv)) <= eps * Rmax (Rabs du) (Rabs dv)).
  { intros n Hn.
    assert (Sm : forall s, 0 <= s <= 1 -> Rabs (x + s * du - x) <= Rabs du /\ Rabs (y + s * dv - y) <= Rabs dv).
    { intros s Hs. replace (x + s * du - x) with (s * du) by ring. replace (y + s * dv - y) with (s * dv) by ring. rewrite !Rabs_mult, (Rabs_pos_eq s) by lra.
      assert (A1 := Rabs_pos du). assert (A2 := Rabs_pos dv). split; nra. }
    destruct (segment_mvt (F n) (Fx n) (Fy n) x y u v) as (s & Hs & E).
    { intros s Hs. fold du dv. destruct (Sm s Hs) as [S1 S2]. apply HD; lra. }
    fold du dv in E. destruct (Sm s Hs) as [S1 S2]. set (X := x + s * du) in *. set (Y := y + s * dv) in *.
    destruct (HN n Hn X Y ltac:(lra) ltac:(lra)) as [U1 U2]. assert (V1 := K1 X Y ltac:(lra) ltac:(lra)). assert (V2 := K2 X Y ltac:(lra) ltac:(lra)).
    assert (Q1 : Rabs (Fx n X Y - gx) <= eps / 2).
    { replace (Fx n X Y - gx) with ((Fx n X Y - Fx N X Y) + (Fx N X Y - Fx N x y) + (Fx N x y - gx)) by ring.
      eapply Rle_trans; [apply Rabs_triang|]. assert (T := Rabs_triang (Fx n X Y - Fx N X Y) (Fx N X Y - Fx N x y)). lra. }
    assert (Q2 : Rabs (Fy n X Y - gy) <= eps / 2).
    { replace (Fy n X Y - gy) with ((Fy n X Y - Fy N X Y) + (Fy N X Y - Fy N x y) + (Fy N x y - gy)) by ring.
      eapply Rle_trans; [apply Rabs_triang|]. assert (T := Rabs_triang (Fy n X Y - Fy N X Y) (Fy N X Y - Fy N x y)). lra. }
    rewrite E. replace (Fx n X Y * du + Fy n X Y * dv - (gx * du + gy * dv)) with ((Fx n X Y - gx) * du + (Fy n X Y - gy) * dv) by ring.
    eapply Rle_trans; [apply Rabs_triang|]. rewrite !Rabs_mult. assert (B1 := Rmax_l (Rabs du) (Rabs dv)). assert (B2 := Rmax_r (Rabs du) (Rabs dv)).
    assert (A1 := Rabs_pos du). assert (A2 := Rabs_pos dv). set (m := Rmax (Rabs du) (Rabs dv)) in *.
    assert (Rabs (Fx n X Y - gx) * Rabs du <= eps / 2 * m) by (apply Rmult_le_compat; [apply Rabs_pos|exact A1|exact Q1|exact B1]).
    assert (Rabs (Fy n X Y - gy) * Rabs dv <= eps / 2 * m) by (apply Rmult_le_compat; [apply Rabs_pos|exact A2|exact Q2|exact B2]). lra. }
  assert (Lm : is_lim_seq (fun n => Rabs (F n u v - F n x y - (gx * du + gy * dv))) (Rabs (f u v - f x y - (gx * du + gy * dv)))).
  { apply (is_lim_seq_abs (fun n => F n u v - F n x y - (gx * du + gy * dv)) (f u v - f x y - (gx * du + gy * dv))).
    apply is_lim_seq_minus'; [|apply is_lim_seq_const]. apply is_lim_seq_minus'; apply HL; try assumption; fold du dv; lra. }
  change (Rbar_le (Finite (Rabs (f u v - f x y - (gx * du + gy * dv)))) (Finite (eps * Rmax (Rabs du) (Rabs dv)))).
  apply (is_lim_seq_le_loc _ (fun _ => eps * Rmax (Rabs du) (Rabs dv)) _ _ (ex_intro _ N Main) Lm (is_lim_seq_const _)).
Qed.
End Limit.
