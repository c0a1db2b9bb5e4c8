(** * The elliptical power law at its position and angle *)
From Coq Require Import Reals List Arith Lia Lra Psatz.
From Coquelicot Require Import Coquelicot.
From Verif Require Import Py Fsum Calc2 RealFun Geo_Model Lens_Spec Lens_Lib LensBasic_Model Wirtinger Epl_Model Epl_Spec Epl_Proofs Epl2_Proofs Epl3_Proofs.
Local Open Scope R_scope.

Lemma framed_general psi0 alpha0 x0 y0 p x y :
  let X := fst (translate_rotate x y x0 y0 (Some p)) in let Y := snd (translate_rotate x y x0 y0 (Some p)) in
  forall g1 g2 j11 j12 j21 j22, D2 psi0 X Y g1 g2 -> D2 (fun u v => fst (alpha0 u v)) X Y j11 j12 -> D2 (fun u v => snd (alpha0 u v)) X Y j21 j22 ->
  D2 (framed psi0 x0 y0 p) x y (g1 * cos p - g2 * sin p) (g1 * sin p + g2 * cos p) /\
  exists axx axy ayx ayy, D2 (fun u v => fst (framed_alpha alpha0 x0 y0 p u v)) x y axx axy /\ D2 (fun u v => snd (framed_alpha alpha0 x0 y0 p u v)) x y ayx ayy /\
    axx + ayy = j11 + j22 /\ ayx - axy = j21 - j12.
Proof.
  cbv zeta. intros g1 g2 j11 j12 j21 j22 HG H1 H2.
  assert (T1 := D2_tr_fst x y x0 y0 p). assert (T2 := D2_tr_snd x y x0 y0 p).
  set (X := fun u v => fst (translate_rotate u v x0 y0 (Some p))) in *.
  set (Y := fun u v => snd (translate_rotate u v x0 y0 (Some p))) in *.
  change (D2 psi0 (X x y) (Y x y) g1 g2) in HG. change (D2 (fun u v => fst (alpha0 u v)) (X x y) (Y x y) j11 j12) in H1. change (D2 (fun u v => snd (alpha0 u v)) (X x y) (Y x y) j21 j22) in H2.
  assert (Hcs : cos p * cos p + sin p * sin p = 1) by (generalize (sin2_cos2 p); unfold Rsqr; lra).
  assert (Ef : forall u v, framed_alpha alpha0 x0 y0 p u v =
     (fst (alpha0 (X u v) (Y u v)) * cos p - snd (alpha0 (X u v) (Y u v)) * sin p,
      fst (alpha0 (X u v) (Y u v)) * sin p + snd (alpha0 (X u v) (Y u v)) * cos p)).
  { intros u v. unfold framed_alpha, X, Y. simpl. match goal with |- context [alpha0 ?a ?b] => destruct (alpha0 a b) end. reflexivity. }
  split.
  - eapply D2_eq; [apply (D2_comp psi0 X Y); eassumption| |]; ring.
  - assert (HX := D2_comp (fun u v => fst (alpha0 u v)) X Y x y _ _ _ _ _ _ H1 T1 T2).
    assert (HY := D2_comp (fun u v => snd (alpha0 u v)) X Y x y _ _ _ _ _ _ H2 T1 T2).
    do 4 eexists. split; [|split; [|split]].
    + eapply D2_ext; [intros u v; rewrite Ef; cbn [fst]; reflexivity|]. apply D2_minus; apply D2_mult; try apply D2_const; eassumption.
    + eapply D2_ext; [intros u v; rewrite Ef; cbn [snd]; reflexivity|]. apply D2_plus; apply D2_mult; try apply D2_const; eassumption.
    + cbv beta. transitivity ((j11 + j22) * (cos p * cos p + sin p * sin p)); [ring|rewrite Hcs; ring].
    + cbv beta. transitivity ((j21 - j12) * (cos p * cos p + sin p * sin p)); [ring|rewrite Hcs; ring].
Qed.
Lemma good_chunk_sum z t q n c : (1 <= n)%nat -> good_chunk n c -> r_omega z t q n c = Ok (psum z t q n).
Proof.
  intros Hn. destruct c as [c|]; [|intros _; apply r_omega_none, Hn]. intros [->|[H1 H2]]; [apply r_omega_one, Hn|apply single_chunk; assumption].
Qed.
Section Epl.
Variables (x0 y0 q phi Rein t : R) (n : nat) (c : option nat).
Hypotheses (Hn : (1 <= n)%nat) (Hc : good_chunk n c).
Lemma deflection_framed x y : reduced_deflection_angle_epl x0 y0 q phi Rein t n c x y = Ok (framed_alpha (alpha0 q Rein t n) x0 y0 phi x y).
Proof.
  unfold reduced_deflection_angle_epl, framed_alpha. cbn [translate_rotate]. cbv zeta. rewrite good_chunk_sum by assumption. cbn [bind].
  unfold alpha0, g, K0. destruct (Req_EM_T _ 0) as [E|E]; [reflexivity|].
  set (w := (_ * psum _ _ _ _)%C). destruct w as [w1 w2]. reflexivity.
Qed.
Lemma potential_framed x y : potential_epl x0 y0 q phi Rein t n c x y = Ok (framed (psi0 q Rein t n) x0 y0 phi x y).
Proof.
  unfold potential_epl. rewrite deflection_framed. cbn [bind]. unfold framed_alpha, framed, psi0. cbn [translate_rotate]. cbv zeta.
  set (X := _ + _). set (Y := _ - _). destruct (alpha0 q Rein t n X Y) as [w1 w2]. cbn [derotate fst snd]. rewrite cos_neg, sin_neg.
  assert (Hcs : cos phi * cos phi + sin phi * sin phi = 1) by (generalize (sin2_cos2 phi); unfold Rsqr; lra).
  f_equal. f_equal.
  transitivity (X * (w1 * (cos phi * cos phi + sin phi * sin phi)) + Y * (w2 * (cos phi * cos phi + sin phi * sin phi))); [ring|rewrite Hcs; ring].
Qed.
Hypotheses (Hq : 0 < q <= 1) (HR : 0 < Rein) (Ht : 0 < t < 2).
Lemma kappa_framed x y : convergence_epl x0 y0 q phi Rein t 0 x y = framed (kappa0 q Rein t) x0 y0 phi x y.
Proof.
  unfold convergence_epl, framed, kappa0. cbn [translate_rotate]. cbv zeta. unfold g, K0, Cmod. cbn [fst snd]. 
  do 4 f_equal. ring.
Qed.
Variables (x y : R).
Hypothesis Hxy : x <> x0 \/ y <> y0.
Notation X := (fst (translate_rotate x y x0 y0 (Some phi))). Notation Y := (snd (translate_rotate x y x0 y0 (Some phi))).
Lemma off_centre : X <> 0 \/ Y <> 0.
Proof.
  cbn [translate_rotate fst snd]. destruct (Req_dec ((x - x0) * cos phi + (y - y0) * sin phi) 0) as [E1|]; [|left; assumption].
  destruct (Req_dec ((y - y0) * cos phi - (x - x0) * sin phi) 0) as [E2|]; [|right; assumption]. exfalso.
  assert (Hcs : cos phi * cos phi + sin phi * sin phi = 1) by (generalize (sin2_cos2 phi); unfold Rsqr; lra).
  assert (U : x - x0 = 0). { transitivity (((x - x0) * cos phi + (y - y0) * sin phi) * cos phi - ((y - y0) * cos phi - (x - x0) * sin phi) * sin phi); [|rewrite E1, E2; ring].
    transitivity ((x - x0) * (cos phi * cos phi + sin phi * sin phi)); [rewrite Hcs|]; ring. }
  assert (V : y - y0 = 0). { transitivity (((x - x0) * cos phi + (y - y0) * sin phi) * sin phi + ((y - y0) * cos phi - (x - x0) * sin phi) * cos phi); [|rewrite E1, E2; ring].
    transitivity ((y - y0) * (cos phi * cos phi + sin phi * sin phi)); [rewrite Hcs|]; ring. }
  destruct Hxy; lra.
Qed.
Lemma kappa_pos : 0 < convergence_epl x0 y0 q phi Rein t 0 x y.
Proof.
  rewrite kappa_framed. unfold framed. assert (O := off_centre). destruct (translate_rotate x y x0 y0 (Some phi)) as [a b]. cbn [fst snd] in O.
  unfold kappa0, g, power. destruct (Req_EM_T _ 0) as [E|_].
  - exfalso. assert (P := Rdiv_lt_0_compat _ _ (K0_pos q Rein Hq HR) (mod_pos q Hq a b O)). lra.
  - apply Rmult_lt_0_compat; [lra|apply exp_pos].
Qed.
(** the remainder after n terms: size rem and phase 2 n th *)
Definition rem : R := 2 / (2 - t) * neglected t n * (- ((1 - q) / (1 + q))) ^ n.
Lemma epl_derivatives : exists alpha psi th,
  (forall u v, reduced_deflection_angle_epl x0 y0 q phi Rein t n c u v = Ok (alpha u v)) /\
  (forall u v, potential_epl x0 y0 q phi Rein t n c u v = Ok (psi u v)) /\
  q * X = sqrt ((q * X) ^ 2 + Y ^ 2) * cos th /\ Y = sqrt ((q * X) ^ 2 + Y ^ 2) * sin th /\
  let kappa := convergence_epl x0 y0 q phi Rein t 0 x y in
  (exists axx axy ayx ayy, D2 (fun u v => fst (alpha u v)) x y axx axy /\ D2 (fun u v => snd (alpha u v)) x y ayx ayy /\
    (axx + ayy) / 2 = kappa * (1 - rem * cos (2 * INR n * th)) /\ (ayx - axy) / 2 = - (kappa * rem * sin (2 * INR n * th))) /\
  gradient psi x y (fst (alpha x y) - 2 * (kappa * rem * sin (2 * INR n * th)) / (2 - t) * (y - y0),
                    snd (alpha x y) + 2 * (kappa * rem * sin (2 * INR n * th)) / (2 - t) * (x - x0)).
Proof.
  exists (framed_alpha (alpha0 q Rein t n) x0 y0 phi), (framed (psi0 q Rein t n) x0 y0 phi), (atan2 Y (q * X)).
  split; [apply deflection_framed|]. split; [apply potential_framed|].
  assert (O := off_centre). destruct (atan2_polar (q * X) Y) as [P1 P2]. split; [exact P1|]. split; [exact P2|].
  cbv zeta. set (th := atan2 Y (q * X)) in *.
  destruct (alpha0_D2 q Rein t n Hq HR X Y O) as [A1 A2].
  destruct (framed_general (psi0 q Rein t n) (alpha0 q Rein t n) x0 y0 phi x y _ _ _ _ _ _ (psi0_D2 q Rein t n Hq HR Ht X Y O) A1 A2)
    as (HG & axx & axy & ayx & ayy & D1 & D2' & Tr & Cu).
  destruct (trace_curl q Rein t n Hq Ht X Y O) as [TR CU].
  rewrite (dz0 q Rein t Hq X Y O), (dzn q Rein t n Hq Ht X Y O th P1 P2) in TR, CU.
  assert (KF : convergence_epl x0 y0 q phi Rein t 0 x y = kappa0 q Rein t X Y) by (rewrite kappa_framed; reflexivity).
  rewrite KF.
  assert (RR : kappa0 q Rein t X Y * (2 / (2 - t)) * neglected t n * (- ellf q) ^ n = kappa0 q Rein t X Y * rem) by (unfold rem, ellf; ring).
  rewrite RR in TR, CU. set (k := kappa0 q Rein t X Y) in *.
  unfold Cminus, Cplus, Copp, Cmult, RtoC in TR, CU. cbn [fst snd] in TR, CU.
  split.
  - exists axx, axy, ayx, ayy. split; [exact D1|]. split; [exact D2'|]. rewrite Tr, Cu, TR, CU. split; field.
  - unfold gradient. cbn [fst snd]. rewrite CU in HG.
    set (F := framed_alpha (alpha0 q Rein t n) x0 y0 phi x y) in *.
    assert (FA : F = (fst (alpha0 q Rein t n X Y) * cos phi - snd (alpha0 q Rein t n X Y) * sin phi, fst (alpha0 q Rein t n X Y) * sin phi + snd (alpha0 q Rein t n X Y) * cos phi)).
    { unfold F, framed_alpha. cbn [translate_rotate fst snd]. set (Xv := _ + _). set (Yv := _ - _). destruct (alpha0 q Rein t n Xv Yv). reflexivity. }
    rewrite FA. cbn [fst snd]. 
    assert (Hcs : cos phi * cos phi + sin phi * sin phi = 1) by (generalize (sin2_cos2 phi); unfold Rsqr; lra).
    assert (EX : y - y0 = X * sin phi + Y * cos phi). { cbn [translate_rotate fst snd]. transitivity ((y - y0) * (cos phi * cos phi + sin phi * sin phi)); [rewrite Hcs|]; ring. }
    assert (EY : x - x0 = X * cos phi - Y * sin phi). { cbn [translate_rotate fst snd]. transitivity ((x - x0) * (cos phi * cos phi + sin phi * sin phi)); [rewrite Hcs|]; ring. }
    rewrite EX, EY. eapply D2_eq; [exact HG| |]; field; lra.
Qed.
End Epl.
