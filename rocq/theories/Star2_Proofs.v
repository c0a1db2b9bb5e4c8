(** * Stars behind lenses, and limb darkening (C140) *)
From Coq Require Import Reals Lra Lia Psatz String.
From Coquelicot Require Import Coquelicot.
From Verif Require Import Py Geo_Model LensBase_Model LensBasic_Model Light_Model Micro_Model PixMean_Spec MicroStat_Spec MicroStat_Proofs Star_Spec Star_Proofs.
Local Open Scope R_scope.

Lemma sq_sqrt t : 0 <= t -> sqrt t ^ 2 = t.
Proof. intros H. rewrite <- Rsqr_pow2. apply Rsqr_sqrt. exact H. Qed.
Lemma sqrt_le_iff t r : 0 <= t -> 0 <= r -> (sqrt t <= r <-> t <= r ^ 2).
Proof.
  intros T H. split; intros Q.
  - rewrite <- (sq_sqrt t T). assert (P := sqrt_pos t). nra.
  - rewrite <- (sqrt_pow2 r H). apply sqrt_le_1_alt. exact Q.
Qed.
(** what a star shows *)
Lemma star_value x0 y0 th Ie x y gamma : 0 <= th <= 1 ->
  brightness_star x0 y0 th Ie x y gamma = Some (if Rle_dec ((x - x0) ^ 2 + (y - y0) ^ 2) (th ^ 2) then Ie * (1 - gamma * (1 - sqrt (1 - ((x - x0) ^ 2 + (y - y0) ^ 2)))) else 0).
Proof.
  intros T. unfold brightness_star, translate_rotate. set (d := (x - x0) ^ 2 + (y - y0) ^ 2).
  assert (D : 0 <= d) by (apply Rplus_le_le_0_compat; apply pow2_ge_0). unfold half_pow at 1. destruct (Rlt_dec d 0) as [N | _]; [lra|].
  rewrite (sq_sqrt d D). assert (K := sqrt_le_iff d th D (proj1 T)).
  destruct (Rle_dec (sqrt d) th) as [A | A]; destruct (Rle_dec d (th ^ 2)) as [B | B]; try tauto.
  unfold half_pow. destruct (Rlt_dec (1 - d) 0) as [N | _]; [nra|]. reflexivity.
Qed.
Lemma star_shown x0 y0 th Ie gamma : 0 <= th <= 1 -> always_shown (fun x y => brightness_star x0 y0 th Ie x y gamma).
Proof. intros T x y. rewrite (star_value _ _ _ _ _ _ _ T). discriminate. Qed.
Lemma sq_ring (F : R -> R -> R) x y k : F x y = k -> F x y ^ 2 = k ^ 2.
Proof. intros ->. reflexivity. Qed.

(** ** Uniform stars *)
Section Uniform.
Variables (ray : R -> R -> R * R) (x0 y0 th Ie cx cy r1 r2 : R).
Hypotheses (T : 0 <= th <= 1) (H1 : 0 <= r1) (H2 : r1 <= r2).
Let d2 x y := (x - cx) ^ 2 + (y - cy) ^ 2.
Let b2 x y := (fst (ray x y) - x0) ^ 2 + (snd (ray x y) - y0) ^ 2.
Hypothesis hit : forall x y, r1 ^ 2 < d2 x y < r2 ^ 2 -> d2 x y <> 0 -> b2 x y <= th ^ 2.
Hypothesis miss : forall x y, d2 x y < r1 ^ 2 \/ r2 ^ 2 < d2 x y -> d2 x y <> 0 -> th ^ 2 < b2 x y.
Let F := lensed ray (shown (fun x y => brightness_star x0 y0 th Ie x y 0)).
Lemma uniform_bright x y : r1 ^ 2 < d2 x y < r2 ^ 2 -> d2 x y <> 0 -> F x y = Ie.
Proof.
  intros A B. unfold F, lensed, shown. rewrite (star_value _ _ _ _ _ _ _ T). assert (Q := hit x y A B). unfold b2 in Q.
  destruct (Rle_dec _ _) as [_ | N]; [ring|tauto].
Qed.
Lemma uniform_dark x y : d2 x y < r1 ^ 2 \/ r2 ^ 2 < d2 x y -> d2 x y <> 0 -> F x y = 0.
Proof.
  intros A B. unfold F, lensed, shown. rewrite (star_value _ _ _ _ _ _ _ T). assert (Q := miss x y A B). unfold b2 in Q.
  destruct (Rle_dec _ _) as [N | _]; [lra|reflexivity].
Qed.
Lemma uniform_light f0 f1 f2 f3 : holds_disc f0 f1 f2 f3 cx cy r2 -> light_is F f0 f1 f2 f3 (Ie * (PI * r2 ^ 2 - PI * r1 ^ 2)).
Proof. intros H. exact (ring_light F cx cy r1 r2 Ie H1 H2 uniform_bright uniform_dark f0 f1 f2 f3 H). Qed.
Lemma uniform_micro f0 f1 f2 f3 N Ng : f0 < f1 -> f2 < f3 -> (1 <= N)%nat -> holds_disc f0 f1 f2 f3 cx cy r2 ->
  expect N (fun rx ry => flux_of (microlens ray (shown (fun x y => brightness_star x0 y0 th Ie x y 0)) rx ry (f0, f1, f2, f3) "mcmc" N Ng)) = Ie * (PI * r2 ^ 2 - PI * r1 ^ 2).
Proof.
  intros A B n H. destruct (uniform_light f0 f1 f2 f3 H) as [I1 E]. rewrite <- E. apply unbiased; try assumption.
  refine (proj1 (ring_light (fun x y => F x y ^ 2) cx cy r1 r2 (Ie ^ 2) H1 H2 _ _ f0 f1 f2 f3 H)).
  - intros x y P Q. rewrite (uniform_bright x y P Q). reflexivity.
  - intros x y P Q. rewrite (uniform_dark x y P Q). ring.
Qed.
End Uniform.

(** no lens *)
Lemma star_alone x0 y0 th Ie f0 f1 f2 f3 N Ng : 0 <= th <= 1 -> f0 < f1 -> f2 < f3 -> (1 <= N)%nat -> holds_disc f0 f1 f2 f3 x0 y0 th ->
  expect N (fun rx ry => flux_of (microlens straight (shown (fun x y => brightness_star x0 y0 th Ie x y 0)) rx ry (f0, f1, f2, f3) "mcmc" N Ng)) = PI * th ^ 2 * Ie.
Proof.
  intros T A B n H. rewrite (uniform_micro straight x0 y0 th Ie x0 y0 0 th T); try assumption; try lra.
  - intros x y P _. unfold straight. cbn [fst snd]. lra.
  - intros x y P _. unfold straight. cbn [fst snd]. assert (0 <= (x - x0) ^ 2 + (y - y0) ^ 2) by (apply Rplus_le_le_0_compat; apply pow2_ge_0). destruct P as [P | P]; lra.
Qed.
(** a mass sheet, wherever its centre is *)
Lemma star_sheet lx ly kappa x0 y0 th Ie f0 f1 f2 f3 N Ng : kappa < 1 -> 0 < th <= 1 -> f0 < f1 -> f2 < f3 -> (1 <= N)%nat ->
  holds_disc f0 f1 f2 f3 (lx + (x0 - lx) / (1 - kappa)) (ly + (y0 - ly) / (1 - kappa)) (th / (1 - kappa)) ->
  expect N (fun rx ry => flux_of (microlens (raytrace (reduced_deflection_angle_mass_sheet lx ly kappa)) (shown (fun x y => brightness_star x0 y0 th Ie x y 0)) rx ry (f0, f1, f2, f3) "mcmc" N Ng))
  = PI * th ^ 2 * Ie * (1 / (1 - kappa) ^ 2).
Proof.
  intros K T A B n H. assert (R0 : 0 < th / (1 - kappa)) by (apply Rdiv_lt_0_compat; lra).
  assert (E : forall x y, (fst (raytrace (reduced_deflection_angle_mass_sheet lx ly kappa) x y) - x0) ^ 2 + (snd (raytrace (reduced_deflection_angle_mass_sheet lx ly kappa) x y) - y0) ^ 2 =
    (1 - kappa) ^ 2 * ((x - (lx + (x0 - lx) / (1 - kappa))) ^ 2 + (y - (ly + (y0 - ly) / (1 - kappa))) ^ 2)).
  { intros x y. unfold raytrace, reduced_deflection_angle_mass_sheet, translate_rotate. cbn [fst snd]. field. lra. }
  assert (M : (1 - kappa) ^ 2 * (th / (1 - kappa)) ^ 2 = th ^ 2) by (field; lra).
  assert (C : 0 < (1 - kappa) ^ 2) by nra.
  rewrite (uniform_micro _ x0 y0 th Ie (lx + (x0 - lx) / (1 - kappa)) (ly + (y0 - ly) / (1 - kappa)) 0 (th / (1 - kappa))); try assumption; try lra.
  - field. lra.
  - intros x y P _. rewrite E, <- M. apply Rmult_le_compat_l; lra.
  - intros x y P _. rewrite E, <- M. apply Rmult_lt_compat_l; [lra|]. destruct P as [P | P]; [|lra].
    exfalso. assert (Q1 := pow2_ge_0 (x - (lx + (x0 - lx) / (1 - kappa)))). assert (Q2 := pow2_ge_0 (y - (ly + (y0 - ly) / (1 - kappa)))). lra.
Qed.
Lemma radial_sq a X Y r : r <> 0 -> r ^ 2 = X ^ 2 + Y ^ 2 -> (X - a * X / r) ^ 2 + (Y - a * Y / r) ^ 2 = (r - a) ^ 2.
Proof.
  intros N E. transitivity ((1 - a / r) ^ 2 * (X ^ 2 + Y ^ 2)); [field; exact N|]. rewrite <- E. field. exact N.
Qed.
Lemma sis_b2 x0 y0 Rein x y : (x - x0) ^ 2 + (y - y0) ^ 2 <> 0 -> let r := sqrt ((x - x0) ^ 2 + (y - y0) ^ 2) in
  0 < r /\ r ^ 2 = (x - x0) ^ 2 + (y - y0) ^ 2 /\
  (fst (raytrace (reduced_deflection_angle_sis x0 y0 Rein 0) x y) - x0) ^ 2 + (snd (raytrace (reduced_deflection_angle_sis x0 y0 Rein 0) x y) - y0) ^ 2 = (r - Rein) ^ 2.
Proof.
  intros N r. assert (P : 0 < (x - x0) ^ 2 + (y - y0) ^ 2) by (assert (Q1 := pow2_ge_0 (x - x0)); assert (Q2 := pow2_ge_0 (y - y0)); lra).
  assert (R0 : 0 < r) by (apply sqrt_lt_R0; exact P). assert (S : r ^ 2 = (x - x0) ^ 2 + (y - y0) ^ 2) by (apply sq_sqrt; lra).
  split; [exact R0|]. split; [exact S|]. unfold raytrace, reduced_deflection_angle_sis, translate_rotate. cbn [fst snd]. rewrite Rplus_0_r. fold r.
  rewrite <- (radial_sq Rein (x - x0) (y - y0) r) by (try lra; exact S). field. lra.
Qed.
Lemma point_b2 x0 y0 Rein x y : (x - x0) ^ 2 + (y - y0) ^ 2 <> 0 -> let r := sqrt ((x - x0) ^ 2 + (y - y0) ^ 2) in
  0 < r /\ r ^ 2 = (x - x0) ^ 2 + (y - y0) ^ 2 /\
  (fst (raytrace (reduced_deflection_angle_point x0 y0 Rein 0) x y) - x0) ^ 2 + (snd (raytrace (reduced_deflection_angle_point x0 y0 Rein 0) x y) - y0) ^ 2 = (r - Rein ^ 2 / r) ^ 2.
Proof.
  intros N r. assert (P : 0 < (x - x0) ^ 2 + (y - y0) ^ 2) by (assert (Q1 := pow2_ge_0 (x - x0)); assert (Q2 := pow2_ge_0 (y - y0)); lra).
  assert (R0 : 0 < r) by (apply sqrt_lt_R0; exact P). assert (S : r ^ 2 = (x - x0) ^ 2 + (y - y0) ^ 2) by (apply sq_sqrt; lra).
  split; [exact R0|]. split; [exact S|]. unfold raytrace, reduced_deflection_angle_point, translate_rotate. cbn [fst snd]. rewrite Rplus_0_r. fold r.
  rewrite <- (radial_sq (Rein ^ 2 / r) (x - x0) (y - y0) r) by (try lra; exact S). field. lra.
Qed.
(** right behind an SIS *)
Lemma star_sis x0 y0 Rein th Ie f0 f1 f2 f3 N Ng : 0 < Rein -> 0 < th <= 1 -> f0 < f1 -> f2 < f3 -> (1 <= N)%nat -> holds_disc f0 f1 f2 f3 x0 y0 (Rein + th) ->
  expect N (fun rx ry => flux_of (microlens (raytrace (reduced_deflection_angle_sis x0 y0 Rein 0)) (shown (fun x y => brightness_star x0 y0 th Ie x y 0)) rx ry (f0, f1, f2, f3) "mcmc" N Ng))
  = PI * th ^ 2 * Ie * (if Rle_dec th Rein then 4 * Rein / th else (1 + Rein / th) ^ 2).
Proof.
  intros E T A B n H.
  rewrite (uniform_micro _ x0 y0 th Ie x0 y0 (Rmax 0 (Rein - th)) (Rein + th)); try assumption; try lra.
  - destruct (Rle_dec th Rein) as [L | L]; [rewrite Rmax_right by lra|rewrite Rmax_left by lra]; field; lra.
  - apply Rmax_l.
  - apply Rmax_lub; lra.
  - intros x y P Q. destruct (sis_b2 x0 y0 Rein x y Q) as (R0 & S & ->). rewrite <- S in P. set (r := sqrt ((x - x0) ^ 2 + (y - y0) ^ 2)) in *.
    assert (r < Rein + th) by nra. assert (Rein - th < r) by (assert (M := Rmax_l 0 (Rein - th)); assert (M' := Rmax_r 0 (Rein - th)); nra). nra.
  - intros x y P Q. destruct (sis_b2 x0 y0 Rein x y Q) as (R0 & S & ->). rewrite <- S in P. set (r := sqrt ((x - x0) ^ 2 + (y - y0) ^ 2)) in *.
    destruct P as [P | P].
    + assert (M := Rmax_l 0 (Rein - th)). assert (M' := Rmax_r 0 (Rein - th)). assert (L : r < Rmax 0 (Rein - th)) by nra.
      assert (r < Rein - th) by (destruct (Rle_dec (Rein - th) 0) as [Z | Z]; [rewrite Rmax_left in L by lra; lra|rewrite Rmax_right in L by lra; lra]). nra.
    + assert (Rein + th < r) by nra. nra.
Qed.
(** right behind a point mass *)
Lemma star_point x0 y0 Rein th Ie f0 f1 f2 f3 N Ng : 0 < Rein -> 0 < th <= 1 -> f0 < f1 -> f2 < f3 -> (1 <= N)%nat ->
  holds_disc f0 f1 f2 f3 x0 y0 ((sqrt (th ^ 2 + 4 * Rein ^ 2) + th) / 2) ->
  expect N (fun rx ry => flux_of (microlens (raytrace (reduced_deflection_angle_point x0 y0 Rein 0)) (shown (fun x y => brightness_star x0 y0 th Ie x y 0)) rx ry (f0, f1, f2, f3) "mcmc" N Ng))
  = PI * th ^ 2 * Ie * sqrt (1 + 4 * (Rein / th) ^ 2).
Proof.
  intros E T A B n H. set (w := sqrt (th ^ 2 + 4 * Rein ^ 2)) in *.
  assert (W : w ^ 2 = th ^ 2 + 4 * Rein ^ 2) by (apply sq_sqrt; nra). assert (W0 : 0 <= w) by apply sqrt_pos.
  assert (WT : th < w) by nra.
  assert (V : sqrt (1 + 4 * (Rein / th) ^ 2) = w / th).
  { replace (1 + 4 * (Rein / th) ^ 2) with ((w / th) ^ 2) by (replace ((w / th) ^ 2) with (w ^ 2 / th ^ 2) by (field; lra); rewrite W; field; lra). apply sqrt_pow2. apply Rmult_le_pos; [exact W0|]. apply Rlt_le, Rinv_0_lt_compat; lra. }
  rewrite V.
  assert (KEY : forall r, 0 < r -> (r - Rein ^ 2 / r) ^ 2 - th ^ 2 = (r ^ 2 - ((w - th) / 2) ^ 2) * (r ^ 2 - ((w + th) / 2) ^ 2) / r ^ 2).
  { intros r r0. assert (S1 : ((w - th) / 2) ^ 2 + ((w + th) / 2) ^ 2 = th ^ 2 + 2 * Rein ^ 2) by (replace (((w - th) / 2) ^ 2 + ((w + th) / 2) ^ 2) with ((w ^ 2 + th ^ 2) / 2) by field; rewrite W; field).
    assert (S2 : ((w - th) / 2) ^ 2 * ((w + th) / 2) ^ 2 = Rein ^ 4) by (replace (((w - th) / 2) ^ 2 * ((w + th) / 2) ^ 2) with (((w ^ 2 - th ^ 2) / 4) ^ 2) by field; rewrite W; field).
    replace ((r ^ 2 - ((w - th) / 2) ^ 2) * (r ^ 2 - ((w + th) / 2) ^ 2)) with (r ^ 4 - (((w - th) / 2) ^ 2 + ((w + th) / 2) ^ 2) * r ^ 2 + ((w - th) / 2) ^ 2 * ((w + th) / 2) ^ 2) by ring.
    rewrite S1, S2. field. lra. }
  assert (L12 : ((w - th) / 2) ^ 2 <= ((w + th) / 2) ^ 2) by nra.
  rewrite (uniform_micro _ x0 y0 th Ie x0 y0 ((w - th) / 2) ((w + th) / 2)); try assumption; try lra.
  - field. lra.
  - intros x y P Q. destruct (point_b2 x0 y0 Rein x y Q) as (R0 & S & ->). rewrite <- S in P. set (r := sqrt ((x - x0) ^ 2 + (y - y0) ^ 2)) in *. assert (K := KEY r R0).
    assert (((r ^ 2 - ((w - th) / 2) ^ 2) * (r ^ 2 - ((w + th) / 2) ^ 2)) / r ^ 2 < 0); [|lra].
    apply Ropp_lt_cancel. rewrite Ropp_0, <- Ropp_div. apply Rdiv_lt_0_compat; [|nra].
    assert (0 < (r ^ 2 - ((w - th) / 2) ^ 2) * (((w + th) / 2) ^ 2 - r ^ 2)) by (apply Rmult_lt_0_compat; lra). lra.
  - intros x y P Q. destruct (point_b2 x0 y0 Rein x y Q) as (R0 & S & ->). rewrite <- S in P. set (r := sqrt ((x - x0) ^ 2 + (y - y0) ^ 2)) in *. assert (K := KEY r R0).
    assert (0 < ((r ^ 2 - ((w - th) / 2) ^ 2) * (r ^ 2 - ((w + th) / 2) ^ 2)) / r ^ 2); [|lra].
    apply Rdiv_lt_0_compat; [|nra]. destruct P as [P | P].
    + assert (0 < (((w - th) / 2) ^ 2 - r ^ 2) * (((w + th) / 2) ^ 2 - r ^ 2)) by (apply Rmult_lt_0_compat; lra). lra.
    + apply Rmult_lt_0_compat; lra.
Qed.
