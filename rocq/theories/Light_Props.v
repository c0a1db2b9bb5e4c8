(** * C61, C62, C64: light *)
From Coq Require Import Reals Lra List Permutation.
From Verif Require Import Py Light_Model Light_Spec Light_Proofs.
Import ListNotations.
Local Open Scope R_scope.

(** [b] selects the formula for k; the softening is 0 unless the user asks for one *)
Theorem C61_effective_radius : forall b x0 y0 q phi n Re Ie x y, 0 < Re -> ell_radius x0 y0 q phi x y = Re ->
  sersic_brightness b 0 x0 y0 q phi n Re Ie x y = Some Ie.
Proof. exact sersic_at_Re. Qed.
Print Assumptions C61_effective_radius.
Theorem C61_positive : forall b s x0 y0 q phi n Re Ie x y, 0 <= s -> 0 < Re -> 0 < Ie ->
  exists v, sersic_brightness b s x0 y0 q phi n Re Ie x y = Some v /\ 0 < v.
Proof. exact sersic_positive. Qed.
Print Assumptions C61_positive.
Theorem C61_decreasing : forall b s x0 y0 q phi n Re Ie x y x' y', 0 <= s -> 0 < Re -> 0 < Ie -> 36 / 100 <= n <= 10 ->
  ell_radius x0 y0 q phi x y < ell_radius x0 y0 q phi x' y' -> exists v v',
  sersic_brightness b s x0 y0 q phi n Re Ie x y = Some v /\ sersic_brightness b s x0 y0 q phi n Re Ie x' y' = Some v' /\ v' < v.
Proof. exact sersic_decreasing. Qed.
Print Assumptions C61_decreasing.
Theorem C61_level_sets : forall b s x0 y0 q phi n Re Ie x y x' y', ell_radius x0 y0 q phi x y = ell_radius x0 y0 q phi x' y' ->
  sersic_brightness b s x0 y0 q phi n Re Ie x y = sersic_brightness b s x0 y0 q phi n Re Ie x' y'.
Proof. exact sersic_level. Qed.
Print Assumptions C61_level_sets.
Theorem C61_k_positive : forall n, 36 / 100 <= n <= 10 -> 0 < k_sersic n /\ 0 < k_lenstronomy n.
Proof. exact k_positive. Qed.
Print Assumptions C61_k_positive.
Example C61_hyps : ell_radius 0 0 (1 / 2) 0 2 0 = 2 /\ ell_radius 0 0 (1 / 2) 0 0 1 = 2 /\ ell_radius 0 0 (1 / 2) 0 1 0 < ell_radius 0 0 (1 / 2) 0 2 0.
Proof.
  assert (A : forall u v w, 0 <= w -> u ^ 2 + (v * 2) ^ 2 = w ^ 2 -> ell_radius 0 0 (1 / 2) 0 u v = w).
  { intros u v w W H. unfold ell_radius. rewrite cos_0, sin_0. replace (_ + _) with (w ^ 2) by (rewrite <- H; field). apply sqrt_pow2, W. }
  rewrite (A 2 0 2), (A 0 1 2), (A 1 0 1) by lra. lra.
Qed.

(** for every radius above one arcsecond, whatever the limb darkening: NaN at the rim *)
Theorem C62_refuted : forall theta_s Ie gamma, 1 < theta_s -> brightness_star 0 0 theta_s Ie theta_s 0 gamma = None.
Proof. exact star_nan_exists. Qed.
Print Assumptions C62_refuted.
(** the ring where it happens *)
Theorem C62_ring_refuted : forall x0 y0 theta_s Ie x y gamma, 1 < distance x0 y0 x y <= theta_s -> brightness_star x0 y0 theta_s Ie x y gamma = None.
Proof. exact star_nan. Qed.
Print Assumptions C62_ring_refuted.
Theorem C62_outside : forall x0 y0 theta_s Ie x y gamma, theta_s < distance x0 y0 x y -> brightness_star x0 y0 theta_s Ie x y gamma = Some 0.
Proof. exact star_outside. Qed.
Print Assumptions C62_outside.
Theorem C62_centre : forall x0 y0 theta_s Ie gamma, 0 <= theta_s -> brightness_star x0 y0 theta_s Ie x0 y0 gamma = Some Ie.
Proof. exact star_centre. Qed.
Print Assumptions C62_centre.
(** missing: stars with theta_s > 1 *)
Theorem C62_disc_partial : forall x0 y0 theta_s Ie x y gamma, theta_s <= 1 -> 0 <= Ie -> 0 <= gamma <= 1 -> distance x0 y0 x y <= theta_s ->
  exists v, brightness_star x0 y0 theta_s Ie x y gamma = Some v /\ (1 - gamma) * Ie <= v <= Ie.
Proof. exact star_disc. Qed.
Print Assumptions C62_disc_partial.
Example C62_hyps : distance 0 0 (3 / 5) (4 / 5) = 1 /\ 1 < distance 0 0 3 4 <= 6.
Proof.
  unfold distance. replace ((3 / 5 - 0) ^ 2 + (4 / 5 - 0) ^ 2) with 1 by field. replace ((3 - 0) ^ 2 + (4 - 0) ^ 2) with (5 ^ 2) by ring. rewrite sqrt_1, sqrt_pow2; lra.
Qed.

(** [kw]: the extra arguments passed on to every member *)
Theorem C64_sum : forall K (kw : K) x y l vs, Forall2 (fun m v => m kw x y = Ok v) l vs -> light_stack l kw x y = Ok (total vs).
Proof. exact @stack_sum. Qed.
Print Assumptions C64_sum.
(** a stack has a value only when every member has *)
Theorem C64_members : forall K (kw : K) x y l r, light_stack l kw x y = Ok r -> exists vs, Forall2 (fun m v => m kw x y = Ok v) l vs /\ r = total vs.
Proof. exact @stack_inv. Qed.
Print Assumptions C64_members.
Theorem C64_order : forall K (kw : K) x y (l l' : list (source K)) r, Permutation l l' -> light_stack l kw x y = Ok r -> light_stack l' kw x y = Ok r.
Proof. exact @stack_perm. Qed.
Print Assumptions C64_order.
Theorem C64_flatten : forall K (kw : K) x y (l1 l2 l3 : list (source K)), light_stack (l1 ++ light_stack l2 :: l3) kw x y = light_stack (l1 ++ l2 ++ l3) kw x y.
Proof. exact @stack_flatten. Qed.
Print Assumptions C64_flatten.
Theorem C64_empty : forall K (kw : K) x y, light_stack [] kw x y = Ok 0.
Proof. exact @stack_empty. Qed.
Print Assumptions C64_empty.
Example C64_hyps : exists (a b : source unit), Forall2 (fun m v => m tt 1 2 = Ok v) [a; b; light_stack [a; b]] [1; 2; 3].
Proof.
  exists (fun _ x _ => Ok x), (fun _ _ y => Ok y). repeat constructor. unfold light_stack. cbn. f_equal. lra.
Qed.
