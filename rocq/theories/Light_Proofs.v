(** * Light profiles and stacks *)
From Coq Require Import Reals Lra Lia Psatz List Permutation.
From Coquelicot Require Import Coquelicot.
From Verif Require Import Py RealFun Geo_Model Light_Model Light_Spec.
Import ListNotations.
Local Open Scope R_scope.

(** ** Sersic *)
Lemma sersic_radius x0 y0 q phi n Re Ie x y k s : brightness_sersic x0 y0 q phi n Re Ie x y k s =
  match real_pow ((ell_radius x0 y0 q phi x y + s) / Re) (1 / n) with Some p => Some (Ie * exp (- k * (p - 1))) | None => None end.
Proof.
  unfold brightness_sersic, translate_rotate, to_elliptical, ell_radius.
  match goal with |- context [sqrt ?a + s] => match goal with |- _ = match real_pow ((sqrt ?b + s) / Re) _ with _ => _ end => replace a with b by (unfold Rdiv; ring) end end. reflexivity.
Qed.
Lemma ell_radius_nonneg x0 y0 q phi x y : 0 <= ell_radius x0 y0 q phi x y.
Proof. apply sqrt_pos. Qed.
Lemma real_pow_mono a b t : 0 <= a < b -> 0 < t -> exists p r, real_pow a t = Some p /\ real_pow b t = Some r /\ p < r.
Proof.
  intros [A B] T. unfold real_pow. destruct (Rlt_dec a 0); [lra|]. destruct (Rlt_dec b 0); [lra|]. destruct (Req_EM_T b 0); [lra|]. destruct (Req_EM_T a 0) as [Z|Z].
  - eexists. eexists. split; [reflexivity|]. split; [reflexivity|]. apply exp_pos.
  - eexists. eexists. split; [reflexivity|]. split; [reflexivity|]. unfold Rpower. apply exp_increasing. apply Rmult_lt_compat_l; [exact T|]. apply ln_increasing; lra.
Qed.
Lemma sersic_at_Re b x0 y0 q phi n Re Ie x y : 0 < Re -> ell_radius x0 y0 q phi x y = Re -> sersic_brightness b 0 x0 y0 q phi n Re Ie x y = Some Ie.
Proof.
  intros R0 E. unfold sersic_brightness. rewrite sersic_radius, E. replace ((Re + 0) / Re) with 1 by (field; lra). unfold real_pow.
  destruct (Rlt_dec 1 0); [lra|]. destruct (Req_EM_T 1 0); [lra|]. unfold Rpower. rewrite ln_1, Rmult_0_r, exp_0. f_equal. replace (- _ * (1 - 1)) with 0 by ring. rewrite exp_0. ring.
Qed.
Lemma sersic_positive b s x0 y0 q phi n Re Ie x y : 0 <= s -> 0 < Re -> 0 < Ie -> exists v, sersic_brightness b s x0 y0 q phi n Re Ie x y = Some v /\ 0 < v.
Proof.
  intros S R0 I. unfold sersic_brightness. rewrite sersic_radius. assert (E := ell_radius_nonneg x0 y0 q phi x y). assert (Q : 0 <= (ell_radius x0 y0 q phi x y + s) / Re) by (apply Rle_mult_inv_pos; lra).
  unfold real_pow. destruct (Rlt_dec _ 0); [lra|]. destruct (Req_EM_T _ 0); (eexists; split; [reflexivity|]; apply Rmult_lt_0_compat; [exact I|apply exp_pos]).
Qed.
Lemma k_positive n : 36 / 100 <= n <= 10 -> 0 < k_sersic n /\ 0 < k_lenstronomy n.
Proof.
  intros H. split; [|unfold k_lenstronomy; lra]. unfold k_sersic. assert (X : 0 < 1 / n <= 100 / 36).
  { split; [apply Rdiv_lt_0_compat; lra|]. apply Rmult_le_reg_r with n; [lra|]. replace (1 / n * n) with 1 by (field; lra). lra. }
  set (x := 1 / n) in *.
  assert (A : - (1 / 10000) <= 131 / 1148175 - x * (2194697 / 30690717750)) by lra.
  set (a := 131 / 1148175 - x * (2194697 / 30690717750)) in *. assert (B : 0 <= 46 / 25515 + x * a) by nra.
  set (b := 46 / 25515 + x * a) in *. assert (C : 0 <= x * b) by nra. assert (D : 0 <= x * (4 / 405 + x * b)) by nra. lra.
Qed.
Lemma sersic_decreasing b s x0 y0 q phi n Re Ie x y x' y' : 0 <= s -> 0 < Re -> 0 < Ie -> 36 / 100 <= n <= 10 ->
  ell_radius x0 y0 q phi x y < ell_radius x0 y0 q phi x' y' -> exists v v',
  sersic_brightness b s x0 y0 q phi n Re Ie x y = Some v /\ sersic_brightness b s x0 y0 q phi n Re Ie x' y' = Some v' /\ v' < v.
Proof.
  intros S R0 I N L. unfold sersic_brightness. rewrite !sersic_radius. assert (E := ell_radius_nonneg x0 y0 q phi x y). set (r := ell_radius x0 y0 q phi x y) in *. set (r' := ell_radius x0 y0 q phi x' y') in *.
  assert (K : 0 < (if b then k_lenstronomy n else k_sersic n)) by (destruct b; apply (k_positive n N)). set (k := if b then k_lenstronomy n else k_sersic n) in *.
  destruct (real_pow_mono ((r + s) / Re) ((r' + s) / Re) (1 / n)) as (p & p' & -> & -> & P).
  - split; [apply Rle_mult_inv_pos; lra|]. apply Rmult_lt_compat_r; [apply Rinv_0_lt_compat, R0|lra].
  - apply Rdiv_lt_0_compat; lra.
  - eexists. eexists. split; [reflexivity|]. split; [reflexivity|]. apply Rmult_lt_compat_l; [exact I|]. apply exp_increasing. nra.
Qed.
Lemma sersic_level b s x0 y0 q phi n Re Ie x y x' y' : ell_radius x0 y0 q phi x y = ell_radius x0 y0 q phi x' y' ->
  sersic_brightness b s x0 y0 q phi n Re Ie x y = sersic_brightness b s x0 y0 q phi n Re Ie x' y'.
Proof. intros E. unfold sersic_brightness. rewrite !sersic_radius, E. reflexivity. Qed.
(** ** StarSource *)
Lemma star_radius x0 y0 th Ie x y g : brightness_star x0 y0 th Ie x y g =
  let b := distance x0 y0 x y in if Rle_dec b th then match half_pow (1 - b ^ 2) with None => None | Some m => Some (Ie * (1 - g * (1 - m))) end else Some 0.
Proof.
  unfold brightness_star, translate_rotate, half_pow at 1, distance. destruct (Rlt_dec ((x - x0) ^ 2 + (y - y0) ^ 2) 0) as [H|_]; [|reflexivity].
  exfalso. assert (0 <= (x - x0) ^ 2) by apply pow2_ge_0. assert (0 <= (y - y0) ^ 2) by apply pow2_ge_0. lra.
Qed.
Lemma star_outside x0 y0 th Ie x y g : th < distance x0 y0 x y -> brightness_star x0 y0 th Ie x y g = Some 0.
Proof. intros H. rewrite star_radius. cbv zeta. destruct (Rle_dec _ _); [lra|reflexivity]. Qed.
Lemma star_centre x0 y0 th Ie g : 0 <= th -> brightness_star x0 y0 th Ie x0 y0 g = Some Ie.
Proof.
  intros H. rewrite star_radius. cbv zeta. assert (D : distance x0 y0 x0 y0 = 0) by (unfold distance; replace ((x0 - x0) ^ 2 + (y0 - y0) ^ 2) with 0 by ring; apply sqrt_0). rewrite D.
  destruct (Rle_dec 0 th); [|lra]. unfold half_pow. replace (1 - 0 ^ 2) with 1 by ring. destruct (Rlt_dec 1 0); [lra|]. rewrite sqrt_1. f_equal. ring.
Qed.
Lemma star_nan x0 y0 th Ie x y g : 1 < distance x0 y0 x y <= th -> brightness_star x0 y0 th Ie x y g = None.
Proof.
  intros [A B]. rewrite star_radius. cbv zeta. destruct (Rle_dec _ _); [|lra]. unfold half_pow. destruct (Rlt_dec _ _) as [_|N]; [reflexivity|]. exfalso. apply N. nra.
Qed.
Lemma star_nan_exists th Ie g : 1 < th -> brightness_star 0 0 th Ie th 0 g = None.
Proof.
  intros H. apply star_nan. assert (D : distance 0 0 th 0 = th). { unfold distance. replace ((th - 0) ^ 2 + (0 - 0) ^ 2) with (th ^ 2) by ring. apply sqrt_pow2. lra. } rewrite D. lra.
Qed.
Lemma star_disc x0 y0 th Ie x y g : th <= 1 -> 0 <= Ie -> 0 <= g <= 1 -> distance x0 y0 x y <= th -> exists v, brightness_star x0 y0 th Ie x y g = Some v /\ (1 - g) * Ie <= v <= Ie.
Proof.
  intros T I G D. rewrite star_radius. cbv zeta. destruct (Rle_dec _ _); [|lra]. assert (P : 0 <= distance x0 y0 x y) by apply sqrt_pos. set (b := distance x0 y0 x y) in *.
  assert (B : 0 <= 1 - b ^ 2 <= 1) by nra. unfold half_pow. destruct (Rlt_dec _ _); [lra|]. eexists. split; [reflexivity|].
  assert (M0 := sqrt_pos (1 - b ^ 2)). assert (M1 : sqrt (1 - b ^ 2) <= 1) by (rewrite <- sqrt_1 at 2; apply sqrt_le_1_alt; lra). set (m := sqrt (1 - b ^ 2)) in *.
  assert (0 <= g * (1 - m) <= g) by nra. nra.
Qed.
(** ** LightStack *)
Section Stack.
Context {K : Type} (kw : K) (x y : R).
Definition step (m : source K) (b : R) : result R := bind (m kw x y) (fun v => Ok (b + v)).
Lemma loop_shift l a c : for_loop step l (a + c) = bind (for_loop step l c) (fun v => Ok (a + v)).
Proof.
  revert a c. induction l as [|m l IH]; intros a c; [reflexivity|]. cbn [for_loop]. unfold step at 1 3. destruct (m kw x y) as [v|e]; [|reflexivity]. cbn [bind].
  rewrite Rplus_assoc. apply IH.
Qed.
Lemma stack_cons (m : source K) l : light_stack (m :: l) kw x y = bind (m kw x y) (fun v => bind (light_stack l kw x y) (fun w => Ok (v + w))).
Proof.
  unfold light_stack. change (for_loop step (m :: l) 0 = bind (m kw x y) (fun v => bind (for_loop step l 0) (fun w => Ok (v + w)))). cbn [for_loop]. unfold step at 1. destruct (m kw x y) as [v|e]; [|reflexivity]. cbn [bind].
  rewrite Rplus_0_l. replace v with (v + 0) at 1 by ring. apply loop_shift.
Qed.
Lemma stack_sum l vs : Forall2 (fun m v => m kw x y = Ok v) l vs -> light_stack l kw x y = Ok (total vs).
Proof. induction 1 as [|m v l vs H F IH]; [reflexivity|]. rewrite stack_cons, H, IH. reflexivity. Qed.
Lemma stack_inv l r : light_stack l kw x y = Ok r -> exists vs, Forall2 (fun m v => m kw x y = Ok v) l vs /\ r = total vs.
Proof.
  revert r. induction l as [|m l IH]; intros r H; [injection H as <-; exists []; split; [constructor|reflexivity]|].
  rewrite stack_cons in H. destruct (m kw x y) as [v|] eqn:M; [|discriminate]. cbn [bind] in H. destruct (light_stack l kw x y) as [w|]; [|discriminate]. cbn [bind] in H. injection H as <-.
  destruct (IH w eq_refl) as (vs & F & ->). exists (v :: vs). split; [constructor; assumption|reflexivity].
Qed.
Lemma total_perm l l' : Permutation l l' -> total l = total l'.
Proof. induction 1; cbn; lra. Qed.
Lemma stack_perm (l l' : list (source K)) r : Permutation l l' -> light_stack l kw x y = Ok r -> light_stack l' kw x y = Ok r.
Proof.
  intros P. revert r. induction P as [|m l l' P IH|m m' l|l l' l'' P IH P' IH']; intros r H; [exact H| | |auto].
  - rewrite stack_cons in *. destruct (m kw x y) as [v|]; [|discriminate]. cbn [bind] in *. destruct (light_stack l kw x y) as [w|]; [|discriminate]. rewrite (IH w eq_refl). exact H.
  - rewrite !stack_cons in *. destruct (m kw x y) as [v|], (m' kw x y) as [v'|]; cbn [bind] in *; try discriminate. destruct (light_stack l kw x y) as [w|]; [|discriminate]. cbn [bind] in *. injection H as <-. f_equal. ring.
Qed.
Lemma stack_app (l l' : list (source K)) : light_stack (l ++ l') kw x y = bind (light_stack l kw x y) (fun v => bind (light_stack l' kw x y) (fun w => Ok (v + w))).
Proof.
  induction l as [|m l IH]; cbn [app].
  - unfold light_stack at 2. cbn [for_loop bind]. destruct (light_stack l' kw x y); cbn [bind]; [f_equal; ring|reflexivity].
  - rewrite !stack_cons. destruct (m kw x y) as [v|]; cbn [bind]; [|reflexivity]. rewrite IH. destruct (light_stack l kw x y); cbn [bind]; [|reflexivity]. destruct (light_stack l' kw x y); cbn [bind]; [f_equal; ring|reflexivity].
Qed.
Lemma stack_flatten (l1 l2 l3 : list (source K)) : light_stack (l1 ++ light_stack l2 :: l3) kw x y = light_stack (l1 ++ l2 ++ l3) kw x y.
Proof.
  rewrite !stack_app, stack_cons. destruct (light_stack l1 kw x y); cbn [bind]; [|reflexivity]. destruct (light_stack l2 kw x y); reflexivity.
Qed.
End Stack.
Lemma stack_empty {K} (kw : K) x y : light_stack [] kw x y = Ok 0.
Proof. reflexivity. Qed.
