(** * The elliptical power law at its centre *)
From Coq Require Import Reals Lra Lia List Arith.
From Coquelicot Require Import Coquelicot.
From Verif Require Import Py RealFun Epl_Model Ad_Model Ad_Spec Ad_Proofs AdLens_Model AdLens_Spec AdLens_Proofs AdLens3_Proofs AdEpl_Model AdEpl_Spec AdEpl_Proofs.
Import ListNotations.
Local Open Scope R_scope.
Local Notation "a @ n" := (a n%nat) (at level 9, only parsing).
Local Notation V n := (Var n%nat).

Section Nan.
Variable a : nat -> R.
Variable seed : nat -> option R.
Notation J e := (jvp a seed e).
Definition nn (e : expr) : Prop := fst (J e) = NaN.
Lemma l2_l f y : lift2 f NaN y = NaN. Proof. reflexivity. Qed.
Lemma l2_r f x : lift2 f x NaN = NaN. Proof. destruct x; reflexivity. Qed.
Lemma nn_add_l u w : nn u -> nn (Add u w). Proof. unfold nn. cbn [jvp fst]. intros ->. reflexivity. Qed.
Lemma nn_add_r u w : nn w -> nn (Add u w). Proof. unfold nn. cbn [jvp fst]. intros ->. apply l2_r. Qed.
Lemma nn_sub_l u w : nn u -> nn (Sub u w). Proof. unfold nn. cbn [jvp fst]. intros ->. reflexivity. Qed.
Lemma nn_mul_l u w : nn u -> nn (Mul u w). Proof. unfold nn. cbn [jvp fst]. intros ->. reflexivity. Qed.
Lemma nn_mul_r u w : nn w -> nn (Mul u w). Proof. unfold nn. cbn [jvp fst]. intros ->. apply l2_r. Qed.
Definition nc (c : cexpr) : Prop := nn (fst c) /\ nn (snd c).
Lemma nc_add_l c d : nc c -> nc (t_cadd c d). Proof. intros []; split; apply nn_add_l; assumption. Qed.
Lemma nc_add_r c d : nc d -> nc (t_cadd c d). Proof. intros []; split; apply nn_add_r; assumption. Qed.
Lemma nc_mul_l c d : nc c -> nc (t_cmul c d). Proof. intros []; split; cbn [t_cmul fst snd]; [apply nn_sub_l|apply nn_add_l]; apply nn_mul_l; assumption. Qed.
Lemma nc_mul_r c d : nc d -> nc (t_cmul c d). Proof. intros []; split; cbn [t_cmul fst snd]; [apply nn_sub_l|apply nn_add_l]; apply nn_mul_r; assumption. Qed.
Lemma nc_scale s c : nc c -> nc (t_cscale s c). Proof. intros []; split; apply nn_mul_r; assumption. Qed.

Lemma nc_r_omega z t q n c w : fst (J (fst z)) = Fin 0 -> fst (J (snd z)) = Fin 0 -> (2 <= n)%nat -> t_r_omega z t q n c = Ok w -> nc w.
Proof.
  intros Z1 Z2 Hn. unfold t_r_omega. cbv zeta. set (cs := match c with Some c => c | None => n end). set (phi := t_cscale _ _).
  assert (Hphi : nc phi).
  { apply nc_scale, nc_mul_r. split; cbn [t_cinv t_conj fst snd]; unfold nn; cbn [jvp fst]; rewrite Z1, Z2; cbn [npow nneg nadd lift1 lift2];
      unfold ndiv; cbn [lift2]; (destruct (Req_EM_T _ 0) as [_|N]; [|destruct N; ring]); (destruct (Req_EM_T _ 0) as [_|N]; [reflexivity|destruct N; ring]). }
  clearbody phi. destruct (Nat.eqb cs 1); [|destruct (Nat.eqb cs 0) eqn:EC; [discriminate|]].
  - intros E. injection E as <-.
    assert (G : forall l o s, nc s -> nc (snd (fold_left (fun st i => let omega_i := t_cmul (t_cscale (t_factor t i) phi) (fst st) in (omega_i, t_cadd (snd st) omega_i)) l (o, s)))).
    { induction l as [|i l IH]; intros o s Hs; [exact Hs|]. cbn [fold_left fst snd]. apply IH, nc_add_l, Hs. }
    destruct n as [|[|m]]; [lia|lia|]. cbn [Nat.sub seq fold_left fst snd]. apply G, nc_add_r, nc_mul_l, nc_scale, Hphi.
  - match goal with |- bind (for_loop ?b ?l None) _ = _ -> _ => destruct (for_loop b l None) as [st|] eqn:E; [|discriminate] end. cbn [bind].
    destruct st as [[l r]|]; [|discriminate]. intros K. injection K as <-. apply nc_mul_r, nc_add_r.
    destruct (n / cs)%nat as [|m]; [discriminate|]. cbn [seq for_loop bind] in E.
    refine (for_loop_inv (fun st => match st with Some (_, r) => nc r | None => False end) _ _ _ _ _ _ E).
    + intros i s s' _ Hs. destruct s as [[l0 r0]|]; [|destruct Hs]. destruct (py_last l0) as [x|]; cbn [bind]; [|discriminate]. intros K. injection K as <-. apply nc_add_l, Hs.
    + assert (EF : exists fs, slice (0 * cs) (Nat.max ((0 + 1) * cs) n) (map (t_factor t) (seq 1 (n - 1))) = t_factor t 1 :: fs).
      { destruct n as [|[|k]]; [lia|lia|]. unfold slice. cbn [Nat.mul skipn Nat.sub seq map]. destruct (Nat.max ((0 + 1) * cs) (S (S k)) - 0)%nat eqn:EM; [lia|]. cbn [firstn]. eauto. }
      destruct EF as [fs ->]. cbn [map t_cumprod]. change (t_csum (?x :: ?l)) with (t_cadd x (t_csum l)). apply nc_add_l, nc_scale, Hphi.
Qed.
End Nan.

Section Centre.
Variable a : nat -> R.
Variable n : nat.
Variable c : option nat.
Hypothesis C0 : a@0 = a@2.
Hypothesis C1 : a@1 = a@3.
Hypothesis Hn : (2 <= n)%nat.
Let z := epl_z (V 2) (V 3) (V 4) (V 5) (V 0) (V 1).
Lemma z_zero seed : fst (jvp a seed (fst z)) = Fin 0 /\ fst (jvp a seed (snd z)) = Fin 0.
Proof. split; cbn [z epl_z t_translate_rotate fst snd jvp]; unfold nsub, nmul, nadd, ncos, nsin, lift1, lift2; apply Fin_eq; rewrite C0, C1; ring. Qed.
Lemma epl_centre w : t_deflection_epl (V 2) (V 3) (V 4) (V 5) (V 6) (V 7) (V 0) (V 1) n c = Ok w ->
  (forall seed, fst (jvp a seed (fst w)) = Fin 0 /\ fst (jvp a seed (snd w)) = Fin 0) /\ all_nan (ad_jacfwd w a).
Proof.
  rewrite deflection_unfold. fold z. destruct (t_r_omega z (V 7) (V 4) n c) as [om|] eqn:E; cbn [bind]; [|discriminate]. cbv zeta. intros K. injection K as <-.
  assert (HN : forall seed, nc a seed om) by (intros seed; destruct (z_zero seed); exact (nc_r_omega a seed z (V 7) (V 4) n c om H H0 Hn E)).
  set (sc := epl_scale (V 2) (V 3) (V 4) (V 5) (V 6) (V 7) (V 0) (V 1)). 
  assert (HT : forall k, k = 0%nat \/ k = 1%nat -> exists t, snd (jvp a (unit_seed k) sc) = Some t).
  { intros k [-> | ->]; cbn [sc epl_scale epl_r epl_z t_translate_rotate fst snd jvp unit_seed Nat.eqb tan1 tan2]; eauto. }
  clearbody sc. split.
  - intros seed. destruct (HN seed) as [N1 N2]. unfold nn in N1, N2. cbn [t_cscale t_derotate fst snd jvp]. rewrite N1, N2.
    assert (M : nmul (fst (jvp a seed sc)) NaN = NaN) by apply l2_r. rewrite M. cbn [ndenan]. split; unfold nsub, nadd, nmul, ncos, nsin, lift1, lift2; apply Fin_eq; ring.
  - assert (HB : forall k (e : expr), k = 0%nat \/ k = 1%nat -> fst (jvp a (unit_seed k) e) = NaN -> snd (jvp a (unit_seed k) (NanToNum (Mul sc e))) = Some NaN).
    { intros k e Hk He. destruct (HT k Hk) as [t Et]. cbn [jvp snd]. rewrite He, Et.
      assert (M : nmul (fst (jvp a (unit_seed k) sc)) NaN = NaN) by apply l2_r. rewrite ?M.
      destruct (snd (jvp a (unit_seed k) e)) as [te|]; cbn [tan1 tan2 nisfinite]; unfold nmul, nadd; rewrite ?l2_r, ?l2_l; reflexivity. }
    assert (HD : forall k, k = 0%nat \/ k = 1%nat -> forall u w, snd (jvp a (unit_seed k) u) = Some NaN -> snd (jvp a (unit_seed k) w) = Some NaN ->
      snd (jvp a (unit_seed k) (fst (t_derotate u w (Some (V 5))))) = Some NaN /\ snd (jvp a (unit_seed k) (snd (t_derotate u w (Some (V 5))))) = Some NaN).
    { intros k Hk u w Hu Hw. assert (E5 : unit_seed k 5 = None) by (destruct Hk as [-> | ->]; reflexivity).
      split; cbn [t_derotate fst snd jvp]; rewrite Hu, Hw, E5; cbn [tan1 tan2]; unfold nmul, nadd, nneg; rewrite ?l2_l; reflexivity. }
    assert (HA : forall k, k = 0%nat \/ k = 1%nat -> let al := t_cscale sc om in
      snd (jvp a (unit_seed k) (fst (t_derotate (NanToNum (fst al)) (NanToNum (snd al)) (Some (V 5))))) = Some NaN /\ snd (jvp a (unit_seed k) (snd (t_derotate (NanToNum (fst al)) (NanToNum (snd al)) (Some (V 5))))) = Some NaN).
    { intros k Hk al. destruct (HN (unit_seed k)) as [N1 N2]. apply (HD k Hk); apply (HB k); assumption. }
    apply all_bad. intros k Hk. exact (HA k Hk).
Qed.
End Centre.
