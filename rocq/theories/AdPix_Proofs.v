(** * Automatic differentiation of interpolated maps *)
From Coq Require Import Reals Lra Lia ZArith List String Bool.
From Coquelicot Require Import Coquelicot.
From Verif Require Import Py RealFun Derive1 Interp2_Model PixMap_Model PixMap_Spec Ad_Model Ad_Spec Ad_Proofs AdLens_Model AdLens_Proofs AdLens2_Proofs AdLens3_Proofs
  Rev_Model Rev_Spec Rev_Proofs RevLens_Proofs AdEpl_Spec AdEpl_Proofs AdPix_Model AdPix_Spec.
Import ListNotations.
Local Open Scope R_scope.

(** ** The expressions have the values of the functions *)
Lemma linear2_ev a h w im x y : linear2 h w (fun i j => ev a (im i j)) (ev a x) (ev a y) = ev a (t_linear2 h w im x y).
Proof. unfold linear2, t_linear2. cbv zeta. cbn [ev t_int]. rewrite !Z.add_0_r. reflexivity. Qed.
Lemma zero_outside_ev a c res : ev a (t_zero_outside c res) = if outside (ev a c) then 0 else ev a res.
Proof. unfold t_zero_outside, outside. cbn [ev]. destruct (Rlt_dec (ev a c) (-1)); [reflexivity|]. destruct (Rlt_dec 1 (ev a c)); reflexivity. Qed.
Lemma interp2d_ev a nd h w im x y pad : interp2d nd h w (fun i j => ev a (im i j)) (ev a x) (ev a y) "linear" pad = rmap (ev a) (t_interp2d nd h w im x y pad).
Proof.
  destruct nd as [[di dx] dy]. unfold interp2d, t_interp2d. destruct (negb (Nat.eqb di 2)); [reflexivity|]. destruct (Nat.ltb 1 dx); [reflexivity|]. destruct (Nat.ltb 1 dy); [reflexivity|].
  destruct (negb (mem_str pad _)); [reflexivity|]. cbv zeta. change (String.eqb "linear" "nearest") with false. change (String.eqb "linear" "linear") with true. cbv iota.
  destruct (String.eqb pad "clamp") eqn:EC.
  - apply String.eqb_eq in EC. subst pad. change (String.eqb "clamp" "zeros") with false. cbv iota. cbn [bind rmap]. f_equal. exact (linear2_ev a h w im (t_to_pixel w (t_clamp11 x)) (t_to_pixel h (t_clamp11 y))).
  - cbn [bind]. destruct (String.eqb pad "zeros"); cbn [rmap]; f_equal.
    + rewrite !zero_outside_ev. destruct (outside (ev a y)); [reflexivity|]. destruct (outside (ev a x)); [reflexivity|]. exact (linear2_ev a h w im (t_to_pixel w x) (t_to_pixel h y)).
    + exact (linear2_ev a h w im (t_to_pixel w x) (t_to_pixel h y)).
Qed.
Lemma linear3_ev a d h w cu x y t : linear3 d h w (fun k i j => ev a (cu k i j)) (ev a x) (ev a y) (ev a t) = ev a (t_linear3 d h w cu x y t).
Proof. unfold linear3, t_linear3. cbv zeta. cbn [ev t_int]. rewrite !Z.add_0_r. reflexivity. Qed.
Lemma interp3d_ev a nd d h w cu x y t pad : interp3d nd d h w (fun k i j => ev a (cu k i j)) (ev a x) (ev a y) (ev a t) "linear" pad = rmap (ev a) (t_interp3d nd d h w cu x y t pad).
Proof.
  destruct nd as [di dt]. unfold interp3d, t_interp3d. destruct (negb (Nat.eqb di 3)); [reflexivity|]. destruct (Nat.ltb 1 dt); [reflexivity|].
  destruct (negb (mem_str pad _)); [reflexivity|]. cbv zeta. change (String.eqb "linear" "nearest") with false. change (String.eqb "linear" "linear") with true. cbv iota.
  cbn [bind]. destruct (String.eqb pad "zeros"); cbn [rmap]; f_equal.
  - rewrite !zero_outside_ev. destruct (outside (ev a y)); [reflexivity|]. destruct (outside (ev a x)); [reflexivity|]. destruct (outside (ev a t)); [reflexivity|].
    exact (linear3_ev a d h w cu (t_to_pixel w x) (t_to_pixel h y) (t_to_pixel d t)).
  - exact (linear3_ev a d h w cu (t_to_pixel w x) (t_to_pixel h y) (t_to_pixel d t)).
Qed.

(** ** The cell does not change near a point that is not the centre of an inner pixel *)
Definition inner_free (n : nat) (u : R) : Prop := forall i, (1 <= i <= n - 2)%nat -> u <> INR i.
Lemma cell_locally n u : inner_free n u -> locally u (fun v => cell n v = cell n u).
Proof.
  intros H. unfold cell, clampZ. destruct (Nat.le_gt_cases n 2) as [L|L].
  { apply filter_forall. intros v. assert (Z.of_nat n - 2 <= 0)%Z by lia. rewrite !Z.min_r by lia. reflexivity. }
  destruct (rfloor_spec u) as [A B]. set (k := rfloor u) in *. destruct (Req_dec u (IZR k)) as [E|E].
  - assert (K : (k <= 0 \/ Z.of_nat n - 1 <= k)%Z).
    { destruct (Z_le_gt_dec k 0) as [K|K]; [left; exact K|right]. destruct (Z_le_gt_dec (Z.of_nat n - 1) k) as [K'|K']; [exact K'|exfalso].
      apply (H (Z.to_nat k)); [lia|]. rewrite INR_IZR_INZ, Z2Nat.id by lia. exact E. }
    apply (locally_interval _ u (u - 1) (u + 1)); cbn; [lra|lra|]. intros v Hv1 Hv2. cbn in Hv1, Hv2.
    assert (FV : (k - 1 <= rfloor v <= k)%Z).
    { destruct (rfloor_spec v) as [A' B']. split.
      - assert (IZR (k - 1) < IZR (rfloor v + 1)) by (rewrite plus_IZR, minus_IZR; lra). apply lt_IZR in H0. lia.
      - assert (IZR (rfloor v) < IZR (k + 1)) by (rewrite plus_IZR; lra). apply lt_IZR in H0. lia. }
    lia.
  - apply (locally_interval _ u (IZR k) (IZR k + 1)); cbn; [lra|lra|]. intros v Hv1 Hv2. cbn in Hv1, Hv2.
    rewrite (rfloor_unique v k) by lra. reflexivity.
Qed.

Section Ok.
Variable a : nat -> R.
Variable seed : nat -> option R.
Notation ok := (ok a seed).
Notation J e := (jvp a seed e).
Notation F e := (fun h => ev (along a seed h) e).
(** the pixel coordinate does not move or is not at the centre of an inner pixel *)
Definition steady (n : nat) (u : expr) : Prop := snd (J u) = None \/ inner_free n (ev a u).
Lemma cell_steady n u : ok u -> steady n u -> locally 0 (fun h => cell n (F u h) = cell n (ev a u)).
Proof.
  intros [d G] [H|H].
  - destruct G as (_ & _ & _ & C). generalize (C H). apply filter_imp. intros h ->. reflexivity.
  - pose proof (good_continuous _ _ _ _ G) as C. pose proof (cell_locally n _ H) as L. rewrite <- (F0 a seed) in L. specialize (C _ L). unfold filtermap in C.
    revert C. apply filter_imp. intros h C. rewrite C, F0. reflexivity.
Qed.
Lemma ok_int n (g : Z -> Z) u : ok u -> steady n u -> ok (t_int (fun u => g (cell n u)) u).
Proof.
  intros O S. apply ok_pick_loc; [exact O|exact O| |apply ok_cst]. generalize (cell_steady n u O S). apply filter_imp. intros h L. cbv beta in *. rewrite L. reflexivity.
Qed.
Lemma ok_linear2 h w im x y : ok x -> ok y -> steady w x -> steady h y -> (forall i j, ok (im i j)) -> ok (t_linear2 h w im x y).
Proof.
  intros Ox Oy Sx Sy Oi. unfold t_linear2. cbv zeta.
  pose proof (ok_int w (fun k => k) x Ox Sx) as X0. pose proof (ok_int h (fun k => k) y Oy Sy) as Y0.
  pose proof (ok_int w (fun k => (k + 1)%Z) x Ox Sx) as X1. pose proof (ok_int h (fun k => (k + 1)%Z) y Oy Sy) as Y1.
  assert (E : forall dy dx, ok (Pick (fun u v => im (ax h (cell h v + dy)) (ax w (cell w u + dx))) x y)).
  { intros dy dx. apply ok_pick_loc; [exact Ox|exact Oy| |apply Oi]. generalize (filter_and _ _ (cell_steady w x Ox Sx) (cell_steady h y Oy Sy)).
    apply filter_imp. intros t [L1 L2]. cbv beta in *. rewrite L1, L2. reflexivity. }
  repeat (apply ok_add || apply ok_mul || apply ok_sub); first [apply E|assumption].
Qed.
Lemma ok_linear3 d h w cu x y t : ok x -> ok y -> ok t -> steady w x -> steady h y -> steady d t -> (forall k i j, ok (cu k i j)) -> ok (t_linear3 d h w cu x y t).
Proof.
  intros Ox Oy Ot Sx Sy St Oi. unfold t_linear3. cbv zeta.
  pose proof (ok_int w (fun k => k) x Ox Sx) as X0. pose proof (ok_int h (fun k => k) y Oy Sy) as Y0. pose proof (ok_int d (fun k => k) t Ot St) as T0.
  assert (E : forall dt dy dx, ok (Pick (fun u v => Pick (fun s _ => cu (ax d (cell d s + dt)) (ax h (cell h v + dy)) (ax w (cell w u + dx))) t t) x y)).
  { intros dt dy dx. apply ok_pick_loc; [exact Ox|exact Oy| |].
    - generalize (filter_and _ _ (cell_steady w x Ox Sx) (cell_steady h y Oy Sy)). apply filter_imp. intros s [L1 L2]. cbv beta in *. rewrite L1, L2. reflexivity.
    - apply ok_pick_loc; [exact Ot|exact Ot| |apply Oi]. generalize (cell_steady d t Ot St). apply filter_imp. intros s L. cbv beta in *. rewrite L. reflexivity. }
  repeat (apply ok_add || apply ok_mul || apply ok_sub); first [apply E|apply ok_cst|assumption].
Qed.
(** normalised coordinates: still, or off the border and off the inner centres *)
Definition settled_at (n : nat) (c : expr) : Prop :=
  snd (J c) = None \/ ev a c <> -1 /\ ev a c <> 1 /\ inner_free n (to_pixel n (ev a c)).
Lemma ok_to_pixel n c : ok c -> ok (t_to_pixel n c).
Proof. intros O. unfold t_to_pixel. oks. Qed.
Lemma steady_pixel n c : settled_at n c -> steady n (t_to_pixel n c).
Proof.
  intros [H|(_ & _ & H)]; [left|right; exact H]. unfold t_to_pixel. cbn [jvp snd]. rewrite H. reflexivity.
Qed.
Lemma ok_zero_outside n c res : ok c -> settled_at n c -> ok res -> ok (t_zero_outside c res).
Proof.
  intros O S R. unfold t_zero_outside. assert (OC : forall r, ok (Cst r)) by (intros; apply ok_cst).
  assert (SC : forall r, r = -1 \/ r = 1 -> snd (J c) = None \/ ev a c <> r).
  { intros r [-> | ->]; destruct S as [S|(S1 & S2 & _)]; auto. }
  apply ok_where; cbn [lhs rhs]; auto.
  - unfold settled. cbn [lhs rhs]. destruct (SC (-1) (or_introl eq_refl)); [left; split; [assumption|reflexivity]|right; assumption].
  - destruct (holds _ _); [apply OC|]. apply ok_where; cbn [lhs rhs]; auto.
    + unfold settled. cbn [lhs rhs]. destruct (SC 1 (or_intror eq_refl)); [left; split; [reflexivity|assumption]|right; cbn [ev]; auto].
    + destruct (holds _ _); [apply OC|exact R].
Qed.
Lemma ok_clamp11 n c : ok c -> settled_at n c -> ok (t_clamp11 c) /\ steady n (t_to_pixel n (t_clamp11 c)).
Proof.
  intros O S. assert (OL : ok (AtLeast (-1) c)) by (apply ok_atleast; [exact O|destruct S as [S|(S & _)]; auto]).
  assert (SN : snd (J c) = None -> snd (J (AtLeast (-1) c)) = None).
  { intros K. rewrite jvp_atleast. unfold clamped. destruct (fst (J c)) as [r| |]; [destruct (Rle_dec (-1) r); [exact K|]|..]; cbn [snd]; rewrite K; reflexivity. }
  split.
  - apply ok_atmost; [exact OL|]. destruct S as [S|(S1 & S2 & _)]; [left; apply SN, S|right]. cbn [ev]. unfold Rmax. destruct (Rle_dec (ev a c) (-1)); lra.
  - destruct S as [S|(S1 & S2 & S3)].
    + left. unfold t_to_pixel, t_clamp11. cbn [jvp snd]. fold (jvp a seed). apply SN in S. cbn [jvp] in S.
      assert (SM : snd (J (AtMost 1 (AtLeast (-1) c))) = None).
      { rewrite jvp_atmost. unfold clamped. destruct (fst (J (AtLeast (-1) c))) as [r| |]; [destruct (Rle_dec r 1); [exact S|]|..]; cbn [snd]; (cbn [jvp]; rewrite S; reflexivity). }
      cbn [jvp] in SM. rewrite SM. reflexivity.
    + right. cbn [t_to_pixel t_clamp11 ev]. unfold Rmax, Rmin. destruct (Rle_dec (ev a c) (-1)) as [L|L]; [|destruct (Rle_dec (ev a c) 1) as [M|M]; [exact S3|]].
      * destruct (Rle_dec (-1) 1) as [_|K]; [|lra]. intros i Hi. pose proof (pos_INR i). lra.
      * intros i Hi E. assert (Q : 2 * INR i = 2 * INR n - 1) by lra. rewrite !INR_IZR_INZ in Q. assert (Q2 : IZR (2 * Z.of_nat i) = IZR (2 * Z.of_nat n - 1)) by (rewrite minus_IZR, !mult_IZR; lra).
        apply eq_IZR in Q2. lia.
Qed.
Lemma ok_interp2d nd h w im x y pad e : ok x -> ok y -> settled_at w x -> settled_at h y -> (forall i j, ok (im i j)) ->
  t_interp2d nd h w im x y pad = Ok e -> ok e.
Proof.
  intros Ox Oy Sx Sy Oi. destruct nd as [[di dx] dy]. unfold t_interp2d. destruct (negb (Nat.eqb di 2)); [discriminate|]. destruct (Nat.ltb 1 dx); [discriminate|]. destruct (Nat.ltb 1 dy); [discriminate|].
  destruct (negb (mem_str pad _)); [discriminate|]. cbv zeta. destruct (ok_clamp11 w x Ox Sx) as [Ox' Sx'], (ok_clamp11 h y Oy Sy) as [Oy' Sy'].
  assert (OL : ok (t_linear2 h w im (t_to_pixel w (if String.eqb pad "clamp" then t_clamp11 x else x)) (t_to_pixel h (if String.eqb pad "clamp" then t_clamp11 y else y)))).
  { destruct (String.eqb pad "clamp"); apply ok_linear2; auto using ok_to_pixel, steady_pixel. }
  intros E. injection E as <-. destruct (String.eqb pad "zeros"); [|exact OL].
  apply (ok_zero_outside h); auto. apply (ok_zero_outside w); auto.
Qed.
Lemma ok_interp3d nd d h w cu x y t pad e : ok x -> ok y -> ok t -> settled_at w x -> settled_at h y -> settled_at d t -> (forall k i j, ok (cu k i j)) ->
  t_interp3d nd d h w cu x y t pad = Ok e -> ok e.
Proof.
  intros Ox Oy Ot Sx Sy St Oi. destruct nd as [di dt]. unfold t_interp3d. destruct (negb (Nat.eqb di 3)); [discriminate|]. destruct (Nat.ltb 1 dt); [discriminate|].
  destruct (negb (mem_str pad _)); [discriminate|]. cbv zeta.
  assert (OL : ok (t_linear3 d h w cu (t_to_pixel w x) (t_to_pixel h y) (t_to_pixel d t))) by (apply ok_linear3; auto using ok_to_pixel, steady_pixel).
  intros E. injection E as <-. destruct (String.eqb pad "zeros"); [|exact OL].
  apply (ok_zero_outside h); auto. apply (ok_zero_outside w); auto. apply (ok_zero_outside d); auto.
Qed.
End Ok.

Section Tame.
Variable a : nat -> R.
Notation tm := (tame a).
Lemma tm_linear2 h w im x y : tm x -> tm y -> (forall i j, tm (im i j)) -> tm (t_linear2 h w im x y).
Proof. intros; unfold t_linear2; cbv zeta; cbn [tame t_int]; repeat split; auto. Qed.
Lemma tm_linear3 d h w cu x y t : tm x -> tm y -> tm t -> (forall k i j, tm (cu k i j)) -> tm (t_linear3 d h w cu x y t).
Proof. intros; unfold t_linear3; cbv zeta; cbn [tame t_int]; repeat split; auto. Qed.
Lemma tm_interp2d nd h w im x y pad e : tm x -> tm y -> (forall i j, tm (im i j)) -> t_interp2d nd h w im x y pad = Ok e -> tm e.
Proof.
  intros Ox Oy Oi. destruct nd as [[di dx] dy]. unfold t_interp2d. destruct (negb (Nat.eqb di 2)); [discriminate|]. destruct (Nat.ltb 1 dx); [discriminate|]. destruct (Nat.ltb 1 dy); [discriminate|].
  destruct (negb (mem_str pad _)); [discriminate|]. cbv zeta.
  assert (OL : tm (t_linear2 h w im (t_to_pixel w (if String.eqb pad "clamp" then t_clamp11 x else x)) (t_to_pixel h (if String.eqb pad "clamp" then t_clamp11 y else y)))).
  { destruct (String.eqb pad "clamp"); apply tm_linear2; auto; unfold t_to_pixel, t_clamp11; cbn [tame]; auto. }
  intros E. injection E as <-. destruct (String.eqb pad "zeros"); [|exact OL]. unfold t_zero_outside. cbn [tame]. revert OL. match goal with |- tm ?l -> _ => generalize l end. intros; repeat split; auto.
Qed.
Lemma tm_interp3d nd d h w cu x y t pad e : tm x -> tm y -> tm t -> (forall k i j, tm (cu k i j)) -> t_interp3d nd d h w cu x y t pad = Ok e -> tm e.
Proof.
  intros Ox Oy Ot Oi. destruct nd as [di dt]. unfold t_interp3d. destruct (negb (Nat.eqb di 3)); [discriminate|]. destruct (Nat.ltb 1 dt); [discriminate|].
  destruct (negb (mem_str pad _)); [discriminate|]. cbv zeta.
  assert (OL : tm (t_linear3 d h w cu (t_to_pixel w x) (t_to_pixel h y) (t_to_pixel d t))) by (apply tm_linear3; auto; unfold t_to_pixel; cbn [tame]; auto).
  intros E. injection E as <-. destruct (String.eqb pad "zeros"); [|exact OL]. unfold t_zero_outside. cbn [tame]. revert OL. match goal with |- tm ?l -> _ => generalize l end. intros; repeat split; auto.
Qed.
End Tame.

(** ** Positions in the units of the caller *)
Lemma normal_pixel n x x0 ps : (0 < n)%nat -> ps <> 0 -> to_pixel n ((x - x0) / (ps * INR n) * 2) = (x - x0) / ps + (INR n - 1) / 2.
Proof. intros Hn Hp. pose proof (lt_0_INR n Hn). unfold to_pixel. field. lra. Qed.
Lemma smooth_settled n x x0 ps : (0 < n)%nat -> ps <> 0 -> smooth_at x0 ps n x ->
  let c := (x - x0) / (ps * INR n) * 2 in c <> -1 /\ c <> 1 /\ inner_free n (to_pixel n c).
Proof.
  intros Hn Hp (S1 & S2 & S3) c. pose proof (lt_0_INR n Hn) as Pn.
  assert (EX : x = x0 + c * (INR n * ps / 2)) by (unfold c; field; lra).
  repeat split.
  - intros E. apply S2. rewrite EX, E. lra.
  - intros E. apply S3. rewrite EX, E. lra.
  - intros i Hi E. apply (S1 i Hi). unfold c in E. rewrite normal_pixel in E by assumption. unfold pixel_centre. rewrite <- E. field. exact Hp.
Qed.
Lemma returned_rmap {A B} (f : A -> B) d r e : r = Ok e -> returned d (rmap f r) = f e.
Proof. intros ->. reflexivity. Qed.

Local Notation "a @ n" := (a n%nat) (at level 9, only parsing).
Local Notation V n := (Var n%nat).
Section Thms.
Variable a : nat -> R.
Lemma settled_axis seed n p c s m :
  (0 < n)%nat -> a s <> 0 -> m = Mul (Var s) (Cst (INR n)) \/ m = Mul (Cst (INR n)) (Var s) ->
  quiet None seed p c s \/ smooth_at (a c) (a s) n (a p) ->
  ok a seed (Mul (Div (Sub (Var p) (Var c)) m) (Cst 2)) /\ settled_at a seed n (Mul (Div (Sub (Var p) (Var c)) m) (Cst 2)).
Proof.
  intros Hn Hs Em H. pose proof (lt_0_INR n Hn) as Pn.
  assert (Ev : ev a m = a s * INR n) by (destruct Em; subst m; cbn [ev]; ring).
  assert (Om : ok a seed m) by (destruct Em; subst m; oks).
  split.
  - apply ok_mul; [|apply ok_cst]. apply ok_div; [oks|exact Om|]. rewrite Ev. apply Rmult_integral_contrapositive_currified; lra.
  - destruct H as [(S1 & S2 & S3)|H].
    + left. destruct Em; subst m; cbn [jvp snd]; rewrite S1, S2, S3; reflexivity.
    + right. cbn [ev]. rewrite Ev. apply smooth_settled; assumption.
Qed.
Lemma one_of_quiet req k p c s : quiet false req p c s -> quiet None (one_of req k) p c s.
Proof. intros (A & B & C). unfold quiet, one_of. rewrite A, B, C. auto. Qed.

Section Image.
Variables h w : nat.
Hypothesis Hh : (0 < h)%nat.
Hypothesis Hw : (0 < w)%nat.
Hypothesis Hs : a@4 <> 0.
Notation defl := (fun a : nat -> R => pd_reduced_deflection_angle h w (cube_args a 5 h w) a@2 a@3 a@4 a@0 a@1).
Notation tdefl := (t_pd_deflection h w (cube_args Var 5 h w) (V 2) (V 3) (V 4) (V 0) (V 1)).
Lemma pd_ev b : defl b = rmap (evc b) tdefl.
Proof.
  unfold pd_reduced_deflection_angle, t_pd_deflection. cbv zeta.
  pose proof (interp2d_ev b (2, 1, 1)%nat h w (cube_args Var 5 h w 0%nat) (Mul (Div (Sub (V 0) (V 2)) (Mul (Cst (INR w)) (V 4))) (Cst 2)) (Mul (Div (Sub (V 1) (V 3)) (Mul (Cst (INR h)) (V 4))) (Cst 2)) "zeros") as E0.
  pose proof (interp2d_ev b (2, 1, 1)%nat h w (cube_args Var 5 h w 1%nat) (Mul (Div (Sub (V 0) (V 2)) (Mul (Cst (INR w)) (V 4))) (Cst 2)) (Mul (Div (Sub (V 1) (V 3)) (Mul (Cst (INR h)) (V 4))) (Cst 2)) "zeros") as E1.
  transitivity (bind (rmap (ev b) (t_interp2d (2, 1, 1)%nat h w (cube_args Var 5 h w 0%nat) (Mul (Div (Sub (V 0) (V 2)) (Mul (Cst (INR w)) (V 4))) (Cst 2)) (Mul (Div (Sub (V 1) (V 3)) (Mul (Cst (INR h)) (V 4))) (Cst 2)) "zeros"))
    (fun ax => bind (rmap (ev b) (t_interp2d (2, 1, 1)%nat h w (cube_args Var 5 h w 1%nat) (Mul (Div (Sub (V 0) (V 2)) (Mul (Cst (INR w)) (V 4))) (Cst 2)) (Mul (Div (Sub (V 1) (V 3)) (Mul (Cst (INR h)) (V 4))) (Cst 2)) "zeros")) (fun ay => Ok (ax, ay)))).
  - rewrite <- E0, <- E1. reflexivity.
  - destruct (t_interp2d _ _ _ _ _ _ _); [|reflexivity]. destruct (t_interp2d _ _ _ _ _ _ _); reflexivity.
Qed.
Lemma pd_ok seed : quiet None seed 0 2 4 \/ smooth_at a@2 a@4 w a@0 -> quiet None seed 1 3 4 \/ smooth_at a@3 a@4 h a@1 ->
  ad_exact2_ret defl tdefl a seed.
Proof.
  intros Kx Ky. destruct (settled_axis seed w 0 2 4 (Mul (Cst (INR w)) (V 4)) Hw Hs (or_intror eq_refl) Kx) as [Ox Sx].
  destruct (settled_axis seed h 1 3 4 (Mul (Cst (INR h)) (V 4)) Hh Hs (or_intror eq_refl) Ky) as [Oy Sy].
  assert (OI : forall c i j, ok a seed (cube_args Var 5 h w c i j)) by (intros; apply ok_var).
  destruct tdefl as [e|] eqn:ET; [|discriminate ET].
  exists e, (evc a e). split; [reflexivity|]. split; [rewrite pd_ev, ET; reflexivity|].
  unfold t_pd_deflection in ET. cbv zeta in ET. cbn [bind] in ET.
  destruct (t_interp2d (2, 1, 1)%nat h w (cube_args Var 5 h w 0%nat) _ _ "zeros") as [e0|] eqn:EE0; [|discriminate]. cbn [bind] in ET.
  destruct (t_interp2d (2, 1, 1)%nat h w (cube_args Var 5 h w 1%nat) _ _ "zeros") as [e1|] eqn:EE1; [|discriminate]. cbn [bind] in ET.
  pose proof (ok_interp2d a seed _ _ _ _ _ _ _ _ Ox Oy Sx Sy (OI 0%nat) EE0) as O0. pose proof (ok_interp2d a seed _ _ _ _ _ _ _ _ Ox Oy Sx Sy (OI 1%nat) EE1) as O1.
  injection ET as <-.
  assert (ER : forall b, defl b = Ok (evc b (e0, e1))).
  { intros b. rewrite pd_ev. unfold t_pd_deflection. cbv zeta. rewrite EE0. cbn [bind]. rewrite EE1. reflexivity. }
  split; (apply ad_of_loc; [assumption|]); apply filter_forall; intros t; rewrite ER; reflexivity.
Qed.
Lemma pd_tm e : tdefl = Ok e -> tame a (fst e) /\ tame a (snd e).
Proof.
  unfold t_pd_deflection. cbv zeta. pose proof (lt_0_INR w Hw) as Pw. pose proof (lt_0_INR h Hh) as Ph.
  assert (Tx : tame a (Mul (Div (Sub (V 0) (V 2)) (Mul (Cst (INR w)) (V 4))) (Cst 2))).
  { cbn [tame ev]. repeat split; auto. apply Rmult_integral_contrapositive_currified; [lra|exact Hs]. }
  assert (Ty : tame a (Mul (Div (Sub (V 1) (V 3)) (Mul (Cst (INR h)) (V 4))) (Cst 2))).
  { cbn [tame ev]. repeat split; auto. apply Rmult_integral_contrapositive_currified; [lra|exact Hs]. }
  destruct (t_interp2d (2, 1, 1)%nat h w (cube_args Var 5 h w 0%nat) _ _ "zeros") as [e0|] eqn:EE0; [|discriminate]. cbn [bind].
  destruct (t_interp2d (2, 1, 1)%nat h w (cube_args Var 5 h w 1%nat) _ _ "zeros") as [e1|] eqn:EE1; [|discriminate]. cbn [bind].
  intros E. injection E as <-. split; cbn [fst snd].
  - refine (tm_interp2d a _ _ _ _ _ _ _ _ Tx Ty _ EE0). intros; exact Logic.I.
  - refine (tm_interp2d a _ _ _ _ _ _ _ _ Tx Ty _ EE1). intros; exact Logic.I.
Qed.
Lemma pd_grad req : quiet false req 0 2 4 \/ smooth_at a@2 a@4 w a@0 -> quiet false req 1 3 4 \/ smooth_at a@3 a@4 h a@1 ->
  grad_exact2_ret defl tdefl a req.
Proof.
  intros Kx Ky.
  assert (A : forall k, ad_exact2_ret defl tdefl a (one_of req k)).
  { intros k. apply pd_ok; [destruct Kx|destruct Ky]; auto using one_of_quiet. }
  destruct (A 0%nat) as (w0 & v' & ET & EV & _). exists w0, v'. split; [exact ET|split; [exact EV|]].
  destruct (pd_tm w0 ET) as [T1 T2].
  split; (apply grad_exact_of; [assumption|]); intros k _; destruct (A k) as (w2 & v2 & ET2 & _ & A1 & A2); rewrite ET in ET2; injection ET2 as <-; assumption.
Qed.

(** light/pixelated.py *)
Variable ndim : nat.
Variable pad : string.
Notation br := (fun a : nat -> R => px_brightness ndim h w (image_args a 6 w) a@2 a@3 a@4 a@5 pad a@0 a@1).
Notation tbr := (t_px_brightness ndim h w (image_args Var 6 w) (V 2) (V 3) (V 4) (V 5) pad (V 0) (V 1)).
Lemma px_ev b : br b = rmap (ev b) tbr.
Proof.
  exact (interp2d_ev b (ndim, 1, 1)%nat h w (fun i j => Mul (image_args Var 6 w i j) (V 5)) (Mul (Div (Sub (V 0) (V 2)) (Mul (V 4) (Cst (INR w)))) (Cst 2))
    (Mul (Div (Sub (V 1) (V 3)) (Mul (V 4) (Cst (INR h)))) (Cst 2)) pad).
Qed.
Lemma px_ad seed v : br a = Ok v -> quiet None seed 0 2 4 \/ smooth_at a@2 a@4 w a@0 -> quiet None seed 1 3 4 \/ smooth_at a@3 a@4 h a@1 ->
  ad_exact_ret br tbr a seed.
Proof.
  intros EV Kx Ky. destruct (settled_axis seed w 0 2 4 (Mul (V 4) (Cst (INR w))) Hw Hs (or_introl eq_refl) Kx) as [Ox Sx].
  destruct (settled_axis seed h 1 3 4 (Mul (V 4) (Cst (INR h))) Hh Hs (or_introl eq_refl) Ky) as [Oy Sy].
  pose proof (px_ev a) as EA. cbv beta in EA, EV. rewrite EV in EA. destruct tbr as [e|] eqn:ET; [|discriminate EA].
  exists e, v. split; [reflexivity|]. split; [exact EV|].
  assert (O : ok a seed e).
  { unfold t_px_brightness in ET. cbv zeta in ET. refine (ok_interp2d a seed _ _ _ _ _ _ _ _ Ox Oy Sx Sy _ ET). intros i j. apply ok_mul; apply ok_var. }
  apply ad_of_loc; [exact O|]. apply filter_forall. intros t. rewrite px_ev, ET. reflexivity.
Qed.
Lemma px_grad req v : br a = Ok v -> quiet false req 0 2 4 \/ smooth_at a@2 a@4 w a@0 -> quiet false req 1 3 4 \/ smooth_at a@3 a@4 h a@1 ->
  grad_exact_ret br tbr a req.
Proof.
  intros EV Kx Ky.
  assert (A : forall k, ad_exact_ret br tbr a (one_of req k)).
  { intros k. apply (px_ad _ v EV); [destruct Kx|destruct Ky]; auto using one_of_quiet. }
  destruct (A 0%nat) as (w0 & v' & ET & EV' & _). exists w0, v'. split; [exact ET|split; [exact EV'|]].
  apply grad_exact_of.
  - unfold t_px_brightness in ET. cbv zeta in ET. pose proof (lt_0_INR w Hw) as Pw. pose proof (lt_0_INR h Hh) as Ph. refine (tm_interp2d a _ _ _ _ _ _ _ _ _ _ _ ET).
    + cbn [tame ev]. repeat split; auto. apply Rmult_integral_contrapositive_currified; [exact Hs|lra].
    + cbn [tame ev]. repeat split; auto. apply Rmult_integral_contrapositive_currified; [exact Hs|lra].
    + intros i j. split; exact Logic.I.
  - intros k _. destruct (A k) as (w2 & v2 & ET2 & _ & D). rewrite ET in ET2. injection ET2 as <-. exact D.
Qed.
End Image.

Section Cube.
Variables ndim d h w : nat.
Hypothesis Hd : (0 < d)%nat.
Hypothesis Hh : (0 < h)%nat.
Hypothesis Hw : (0 < w)%nat.
Hypothesis Hs : a@5 <> 0.
Hypothesis He : a@6 <> 0.
Notation br := (fun a : nat -> R => pt_brightness ndim d h w (cube_args a 8 h w) a@3 a@4 a@5 a@6 a@7 a@0 a@1 a@2).
Notation tbr := (t_pt_brightness ndim d h w (cube_args Var 8 h w) (V 3) (V 4) (V 5) (V 6) (V 7) (V 0) (V 1) (V 2)).
Notation tn := (Mul (Div (Sub (V 2) (Div (V 6) (Cst 2))) (V 6)) (Cst 2)).
Lemma pt_ev b : br b = rmap (ev b) tbr.
Proof.
  exact (interp3d_ev b (ndim, 1)%nat d h w (fun k i j => Mul (cube_args Var 8 h w k i j) (V 7)) (Mul (Div (Sub (V 0) (V 3)) (Mul (V 5) (Cst (INR w)))) (Cst 2))
    (Mul (Div (Sub (V 1) (V 4)) (Mul (V 5) (Cst (INR h)))) (Cst 2)) tn "zeros").
Qed.
Lemma time_axis seed : quiet None seed 2 6 6 \/ smooth_at (a@6 / 2) (a@6 / INR d) d a@2 -> ok a seed tn /\ settled_at a seed d tn.
Proof.
  intros H. pose proof (lt_0_INR d Hd) as Pd. split.
  - apply ok_mul; [|apply ok_cst]. apply ok_div; [apply ok_sub; [apply ok_var|apply ok_div; [apply ok_var|apply ok_cst|cbn [ev]; lra]]|apply ok_var|exact He].
  - destruct H as [(S1 & S2 & _)|H]; [left; cbn [jvp snd]; rewrite S1, S2; reflexivity|right].
    assert (Ht : a@6 / INR d <> 0) by (intros K; apply He; transitivity (a@6 / INR d * INR d); [field; lra|rewrite K; ring]).
    pose proof (smooth_settled d a@2 (a@6 / 2) (a@6 / INR d) Hd Ht H) as K. cbv zeta in K. replace (a@6 / INR d * INR d) with (a@6) in K by (field; lra). exact K.
Qed.
Lemma pt_ad seed v : br a = Ok v -> quiet None seed 0 3 5 \/ smooth_at a@3 a@5 w a@0 -> quiet None seed 1 4 5 \/ smooth_at a@4 a@5 h a@1 ->
  quiet None seed 2 6 6 \/ smooth_at (a@6 / 2) (a@6 / INR d) d a@2 -> ad_exact_ret br tbr a seed.
Proof.
  intros EV Kx Ky Kt. destruct (settled_axis seed w 0 3 5 (Mul (V 5) (Cst (INR w))) Hw Hs (or_introl eq_refl) Kx) as [Ox Sx].
  destruct (settled_axis seed h 1 4 5 (Mul (V 5) (Cst (INR h))) Hh Hs (or_introl eq_refl) Ky) as [Oy Sy]. destruct (time_axis seed Kt) as [Ot St].
  pose proof (pt_ev a) as EA. cbv beta in EA, EV. rewrite EV in EA. destruct tbr as [e|] eqn:ET; [|discriminate EA].
  exists e, v. split; [reflexivity|]. split; [exact EV|].
  assert (O : ok a seed e).
  { unfold t_pt_brightness in ET. cbv zeta in ET. refine (ok_interp3d a seed _ _ _ _ _ _ _ _ _ _ Ox Oy Ot Sx Sy St _ ET). intros k i j. apply ok_mul; apply ok_var. }
  apply ad_of_loc; [exact O|]. apply filter_forall. intros t. rewrite pt_ev, ET. reflexivity.
Qed.
Lemma pt_grad req v : br a = Ok v -> quiet false req 0 3 5 \/ smooth_at a@3 a@5 w a@0 -> quiet false req 1 4 5 \/ smooth_at a@4 a@5 h a@1 ->
  quiet false req 2 6 6 \/ smooth_at (a@6 / 2) (a@6 / INR d) d a@2 -> grad_exact_ret br tbr a req.
Proof.
  intros EV Kx Ky Kt.
  assert (A : forall k, ad_exact_ret br tbr a (one_of req k)).
  { intros k. apply (pt_ad _ v EV); [destruct Kx|destruct Ky|destruct Kt]; auto using one_of_quiet. }
  destruct (A 0%nat) as (w0 & v' & ET & EV' & _). exists w0, v'. split; [exact ET|split; [exact EV'|]].
  apply grad_exact_of.
  - unfold t_pt_brightness in ET. cbv zeta in ET. pose proof (lt_0_INR w Hw) as Pw. pose proof (lt_0_INR h Hh) as Ph. refine (tm_interp3d a _ _ _ _ _ _ _ _ _ _ _ _ _ _ ET).
    + cbn [tame ev]. repeat split; auto. apply Rmult_integral_contrapositive_currified; [exact Hs|lra].
    + cbn [tame ev]. repeat split; auto. apply Rmult_integral_contrapositive_currified; [exact Hs|lra].
    + cbn [tame ev]. repeat split; first [exact He|lra|exact Logic.I].
    + intros k i j. split; exact Logic.I.
  - intros k _. destruct (A k) as (w2 & v2 & ET2 & _ & D). rewrite ET in ET2. injection ET2 as <-. exact D.
Qed.
End Cube.
End Thms.

(** ** At the centre of a pixel *)
Section Centre.
Variable a : nat -> R.
Variable seed : nat -> option R.
Notation J e := (jvp a seed e).
(** the polynomial of the cell (k, l) *)
Definition cell_poly (h w : nat) (im : nat -> nat -> expr) (k l : Z) (x y : expr) : expr :=
  let dx1 := Sub (Cst (IZR (k + 1))) x in let dx0 := Sub x (Cst (IZR k)) in
  let dy1 := Sub (Cst (IZR (l + 1))) y in let dy0 := Sub y (Cst (IZR l)) in
  Add (Add (Add (Mul (Mul (im (ax h l) (ax w k)) dx1) dy1) (Mul (Mul (im (ax h (l + 1)) (ax w k)) dx1) dy0))
    (Mul (Mul (im (ax h l) (ax w (k + 1))) dx0) dy1)) (Mul (Mul (im (ax h (l + 1)) (ax w (k + 1))) dx0) dy0).
Lemma linear2_poly h w im x y : ok a seed x -> ok a seed y ->
  J (t_linear2 h w im x y) = J (cell_poly h w im (cell w (ev a x)) (cell h (ev a y)) x y).
Proof.
  intros Ox Oy. pose proof (ok_value _ _ _ Ox) as Ex. pose proof (ok_value _ _ _ Oy) as Ey.
  assert (P : forall f, J (Pick f x y) = J (f (ev a x) (ev a y))) by (intros f; cbn [jvp]; rewrite Ex, Ey; reflexivity).
  assert (Px : forall f, J (Pick f x x) = J (f (ev a x) (ev a x))) by (intros f; cbn [jvp]; rewrite Ex; reflexivity).
  assert (Py : forall f, J (Pick f y y) = J (f (ev a y) (ev a y))) by (intros f; cbn [jvp]; rewrite Ey; reflexivity).
  assert (Q : forall c b c' b', J c = J c' -> J b = J b' -> J (Add c b) = J (Add c' b')) by (intros ? ? ? ? E E'; cbn [jvp]; rewrite E, E'; reflexivity).
  assert (M : forall c b c' b', J c = J c' -> J b = J b' -> J (Mul c b) = J (Mul c' b')) by (intros ? ? ? ? E E'; cbn [jvp]; rewrite E, E'; reflexivity).
  assert (D : forall c b c' b', J c = J c' -> J b = J b' -> J (Sub c b) = J (Sub c' b')) by (intros ? ? ? ? E E'; cbn [jvp]; rewrite E, E'; reflexivity).
  unfold t_linear2, cell_poly. cbv zeta. unfold t_int.
  repeat (apply Q || apply M || apply D); try reflexivity; rewrite ?P, ?Px, ?Py, ?Z.add_0_r; reflexivity.
Qed.
Lemma zero_outside_J c e e' : J e = J e' -> J (t_zero_outside c e) = J (t_zero_outside c e').
Proof. intros E. unfold t_zero_outside. cbn [jvp]. rewrite E. reflexivity. Qed.
End Centre.
Section Forward.
Variable a : nat -> R.
Variables h w i j : nat.
Hypothesis Hi : (S i < h)%nat.
Hypothesis Hj : (S j < w)%nat.
Hypothesis Hs : 0 < a@4.
Hypothesis Hx : a@0 = pixel_centre a@2 a@4 w j.
Hypothesis Hy : a@1 = pixel_centre a@3 a@4 h i.
Notation m c i j := (cube_args a 5 h w c i j).
Notation X := (Mul (Div (Sub (V 0) (V 2)) (Mul (Cst (INR w)) (V 4))) (Cst 2)).
Notation Y := (Mul (Div (Sub (V 1) (V 3)) (Mul (Cst (INR h)) (V 4))) (Cst 2)).
Lemma centre_axis n k (z z0 ps : R) : (S k < n)%nat -> 0 < ps -> z = pixel_centre z0 ps n k ->
  let c := (z - z0) / (INR n * ps) * 2 in to_pixel n c = INR k /\ -1 < c < 1 /\ cell n (to_pixel n c) = Z.of_nat k.
Proof.
  intros Hk Hp E c. pose proof (lt_INR _ _ Hk) as L. rewrite S_INR in L. pose proof (pos_INR k) as P0.
  assert (EP : to_pixel n c = INR k) by (unfold c, to_pixel; rewrite E; unfold pixel_centre; field; lra).
  assert (EC : c = (2 * INR k + 1) / INR n - 1) by (unfold c; rewrite E; unfold pixel_centre; field; lra).
  split; [exact EP|]. split.
  - rewrite EC. assert (0 < (2 * INR k + 1) / INR n) by (apply Rdiv_lt_0_compat; lra). assert ((2 * INR k + 1) / INR n < 2) by (apply Rlt_div_l; lra). lra.
  - rewrite EP. unfold cell, clampZ. rewrite (rfloor_unique (INR k) (Z.of_nat k)) by (rewrite <- INR_IZR_INZ; lra). lia.
Qed.
Lemma axn n (k : nat) : ax n (Z.of_nat k) = k.
Proof. unfold ax. destruct (Z.ltb_spec (Z.of_nat k) 0); [lia|]. apply Nat2Z.id. Qed.
Lemma axn1 n (k : nat) : ax n (Z.of_nat k + 1) = S k.
Proof. replace (Z.of_nat k + 1)%Z with (Z.of_nat (S k)) by lia. apply axn. Qed.
Lemma centre_tangent c k e : (k < 2)%nat -> t_interp2d (2, 1, 1)%nat h w (cube_args Var 5 h w c) X Y "zeros" = Ok e ->
  tval (snd (jvp a (unit_seed k) e)) = Fin (match k with 0%nat => (m c i (S j) - m c i j) / a@4 | _ => (m c (S i) j - m c i j) / a@4 end).
Proof.
  intros Hk E. set (seed := unit_seed k) in *.
  destruct (centre_axis w j a@0 a@2 a@4 Hj Hs Hx) as (PX & CX & KX). destruct (centre_axis h i a@1 a@3 a@4 Hi Hs Hy) as (PY & CY & KY).
  assert (Pw : 0 < INR w) by (apply lt_0_INR; lia). assert (Ph : 0 < INR h) by (apply lt_0_INR; lia).
  assert (OX : ok a seed X) by (apply ok_mul; [apply ok_div; [oks|oks|cbn [ev]; apply Rmult_integral_contrapositive_currified; lra]|apply ok_cst]).
  assert (OY : ok a seed Y) by (apply ok_mul; [apply ok_div; [oks|oks|cbn [ev]; apply Rmult_integral_contrapositive_currified; lra]|apply ok_cst]).
  set (x := t_to_pixel w X). set (y := t_to_pixel h Y). set (im := cube_args Var 5 h w c).
  assert (Ox : ok a seed x) by (apply ok_to_pixel, OX). assert (Oy : ok a seed y) by (apply ok_to_pixel, OY).
  set (p := cell_poly h w im (Z.of_nat j) (Z.of_nat i) x y).
  assert (Op : ok a seed p).
  { unfold p, cell_poly. cbv zeta. repeat first [assumption|apply ok_cst|apply ok_var|apply ok_add|apply ok_mul|apply ok_sub]. }
  assert (EJ : jvp a seed e = jvp a seed (t_zero_outside Y (t_zero_outside X p))).
  { cbn [t_interp2d Nat.eqb negb Nat.ltb Nat.leb] in E. injection E as <-. apply zero_outside_J, zero_outside_J.
    etransitivity; [exact (linear2_poly a seed h w im x y Ox Oy)|]. unfold p. do 2 f_equal; [exact KX|exact KY]. }
  assert (SX : settled_at a seed 0 X) by (right; repeat split; [cbn [ev]; lra|cbn [ev]; lra|intros q Hq; lia]).
  assert (SY : settled_at a seed 0 Y) by (right; repeat split; [cbn [ev]; lra|cbn [ev]; lra|intros q Hq; lia]).
  assert (Oz : ok a seed (t_zero_outside Y (t_zero_outside X p))) by (apply (ok_zero_outside a seed 0); auto; apply (ok_zero_outside a seed 0); auto).
  destruct (ok_exact _ _ _ Oz) as (d & _ & T & D). rewrite EJ, T. f_equal.
  assert (L : forall u r, ok a seed u -> (ev a u < r -> locally 0 (fun t => ev (along a seed t) u < r)) /\ (r < ev a u -> locally 0 (fun t => r < ev (along a seed t) u))).
  { intros u r O. split; intros K.
    - apply (ok_lt a seed u (Cst r) O (ok_cst _ _ r) K).
    - apply (ok_lt a seed (Cst r) u (ok_cst _ _ r) O K). }
  destruct CX as [CX1 CX2], CY as [CY1 CY2].
  set (B := match k with 0%nat => (m c i (S j) - m c i j) / a@4 | _ => (m c (S i) j - m c i j) / a@4 end).
  assert (LE : locally 0 (fun t => m c i j + t * B = ev (along a seed t) (t_zero_outside Y (t_zero_outside X p)))).
  { generalize (filter_and _ _ (filter_and _ _ (proj2 (L X (-1) OX) CX1) (proj1 (L X 1 OX) CX2)) (filter_and _ _ (proj2 (L Y (-1) OY) CY1) (proj1 (L Y 1 OY) CY2))).
    apply filter_imp. intros t [[X1 X2] [Y1 Y2]]. rewrite !zero_outside_ev. unfold outside.
    destruct (Rlt_dec _ (-1)) as [?|_]; [lra|]. destruct (Rlt_dec 1 _) as [?|_]; [lra|]. cbn [orb].
    destruct (Rlt_dec _ (-1)) as [?|_]; [lra|]. destruct (Rlt_dec 1 _) as [?|_]; [lra|]. cbn [orb].
    assert (EX : ev (along a seed t) x = INR j + match k with 0%nat => t / a@4 | _ => 0 end).
    { rewrite <- PX. unfold seed, along, unit_seed, x, t_to_pixel, to_pixel. destruct k as [|[|k]]; [| |lia]; cbn [ev Nat.eqb sval]; field; lra. }
    assert (EY : ev (along a seed t) y = INR i + match k with 0%nat => 0 | _ => t / a@4 end).
    { rewrite <- PY. unfold seed, along, unit_seed, y, t_to_pixel, to_pixel. destruct k as [|[|k]]; [| |lia]; cbn [ev Nat.eqb sval]; field; lra. }
    assert (EI : forall q r, ev (along a seed t) (im q r) = m c q r).
    { intros q r. unfold im, cube_args, seed, along, unit_seed. cbn [ev]. destruct k as [|[|k]]; [| |lia]; cbn [Nat.eqb Nat.add sval]; ring. }
    unfold p, cell_poly. cbv zeta. cbn [ev]. rewrite !EI, EX, EY, !axn, !axn1, !plus_IZR, <- !INR_IZR_INZ. unfold B. destruct k as [|[|k]]; [| |lia]; field; lra. }
  assert (DB : is_derive (fun t => m c i j + t * B) 0 B) by (auto_derive; [exact Logic.I|ring]).
  pose proof (is_derive_ext_loc _ _ _ _ LE DB) as D2. rewrite <- (is_derive_unique _ _ _ D), <- (is_derive_unique _ _ _ D2). reflexivity.
Qed.
Lemma centre_jacobian : exists e, t_pd_deflection h w (cube_args Var 5 h w) (V 2) (V 3) (V 4) (V 0) (V 1) = Ok e /\
  ad_jacfwd e a = ((Fin ((m 0 i (S j) - m 0 i j) / a@4), Fin ((m 0 (S i) j - m 0 i j) / a@4)),
                   (Fin ((m 1 i (S j) - m 1 i j) / a@4), Fin ((m 1 (S i) j - m 1 i j) / a@4))).
Proof.
  unfold t_pd_deflection. cbv zeta.
  destruct (t_interp2d (2, 1, 1)%nat h w (cube_args Var 5 h w 0%nat) _ _ "zeros") as [e0|] eqn:EE0; [|discriminate]. cbn [bind].
  destruct (t_interp2d (2, 1, 1)%nat h w (cube_args Var 5 h w 1%nat) _ _ "zeros") as [e1|] eqn:EE1; [|discriminate]. cbn [bind].
  exists (e0, e1). split; [reflexivity|]. unfold ad_jacfwd. cbn [fst snd].
  rewrite <- (centre_tangent 0 0 e0), <- (centre_tangent 0 1 e0), <- (centre_tangent 1 0 e1), <- (centre_tangent 1 1 e1); auto.
Qed.
End Forward.
