(** * interp_bicubic and PixelatedPotential: from the interpolant to the API *)
From Coq Require Import Reals ZArith Bool List Lra Lia.
From Coquelicot Require Import Coquelicot.
From Verif Require Import Py Calc2 RealFun Lens_Spec Interp2_Model Interp2_Spec Interp2_Proofs Bicubic_Model Bicubic_Proofs.
Import ListNotations.
Open Scope R_scope.

Definition pclamp (n : nat) (x : R) : R := clampR (to_pixel n x) (- (1 / 2)) (INR n - 1 / 2).
Lemma pclamp_range n x : (1 <= n)%nat -> - (1 / 2) <= pclamp n x <= INR n - 1 / 2.
Proof.
  intros Hn. assert (N := INR_pos_lt n Hn). unfold pclamp, clampR. split; [|apply Rmin_r].
  apply Rmin_glb; [apply Rmax_r|lra].
Qed.
Lemma pclamp_id n x : (1 <= n)%nat -> -1 <= x <= 1 -> pclamp n x = to_pixel n x.
Proof.
  intros Hn Hx. assert (N := INR_pos_lt n Hn). unfold pclamp, clampR, to_pixel.
  rewrite Rmax_left by nra. rewrite Rmin_left by nra. reflexivity.
Qed.
Definition opt (o : option (nat -> nat -> R)) (d : nat -> nat -> R) := match o with Some f => f | None => d end.
Section API.
Variables (h w : nat) (Hh : (2 <= h)%nat) (Hw : (2 <= w)%nat) (Z : nat -> nat -> R) (o1 o2 o12 : option (nat -> nat -> R)).
Definition e1 := opt o1 (kernel_dZ1 h Z 1).
Definition e2 := opt o2 (kernel_dZ2 w Z 1).
Definition e12 := opt o12 (kernel_dZ12 h w Z 1 1).
Definition V (a b : nat) (x y : R) : R := B Z e1 e2 e12 h w a b (pclamp w x) (pclamp h y).
Lemma api dx dy x y g1 g2 g3 : (dx <= 1)%nat -> (dy <= 1)%nat ->
  interp_bicubic (2%nat, dx, dy) h w x y Z o1 o2 o12 g1 g2 g3 =
  Ok ((if g1 then [V 0 0 x y] else []) ++ (if g2 then [V 1 0 x y; V 0 1 x y] else []) ++
      (if g3 then [V 1 1 x y; V 2 0 x y; V 0 2 x y] else []))%list.
Proof.
  intros Hdx Hdy. unfold interp_bicubic. rewrite (proj2 (Nat.ltb_ge 1 dx)), (proj2 (Nat.ltb_ge 1 dy)) by lia.
  cbn [negb Nat.eqb]. fold (pclamp w x). fold (pclamp h y). rewrite !cell_low, !cell_high by assumption.
  assert (Rx := pclamp_range w x ltac:(lia)). assert (Ry := pclamp_range h y ltac:(lia)).
  rewrite !bic_t_cell by assumption.
  assert (E := bic_cell Z e1 e2 e12 (cellof h (pclamp h y)) (cellof w (pclamp w x))
     (pclamp w x - INR (cellof w (pclamp w x))) (pclamp h y - INR (cellof h (pclamp h y)))).
  cbv zeta in E.
  replace (INR (cellof w (pclamp w x)) + (pclamp w x - INR (cellof w (pclamp w x)))) with (pclamp w x) in E by ring.
  replace (INR (cellof h (pclamp h y)) + (pclamp h y - INR (cellof h (pclamp h y)))) with (pclamp h y) in E by ring.
  destruct E as (E0 & E1 & E2 & E3 & E4 & E5).
  unfold V, B. rewrite <- E0, <- E1, <- E2, <- E3, <- E4, <- E5. reflexivity.
Qed.

Lemma V_data i j : (i < h)%nat -> (j < w)%nat ->
  V 0 0 (centre w j) (centre h i) = Z i j /\ V 1 0 (centre w j) (centre h i) = e1 i j /\
  V 0 1 (centre w j) (centre h i) = e2 i j /\ V 1 1 (centre w j) (centre h i) = e12 i j.
Proof.
  intros Hi Hj. unfold V.
  assert (A := centre_inside w j Hj). assert (C := centre_inside h i Hi). unfold centre.
  rewrite !pclamp_id by (lia || lra). rewrite !to_pixel_centre by assumption. apply B_knot; assumption.
Qed.
Lemma to_pixel_derive n x : is_derive (to_pixel n) x (INR n / 2).
Proof. unfold to_pixel. auto_derive; [auto|lra]. Qed.
Lemma locally_open x : -1 < x < 1 -> exists d : posreal, forall u, Rabs (u - x) < d -> -1 < u < 1.
Proof.
  intros H. assert (P : 0 < Rmin (x + 1) (1 - x)) by (apply Rmin_glb_lt; lra). exists (mkposreal _ P). simpl.
  intros u Hu. apply Rabs_def2 in Hu. assert (A := Rmin_l (x + 1) (1 - x)). assert (C := Rmin_r (x + 1) (1 - x)). lra.
Qed.
Lemma locally_open2 x y : -1 < x < 1 -> -1 < y < 1 -> locally_2d (fun u v => -1 < u < 1 /\ -1 < v < 1) x y.
Proof.
  intros Hx Hy. destruct (locally_open x Hx) as [d1 H1]. destruct (locally_open y Hy) as [d2 H2].
  assert (P : 0 < Rmin d1 d2) by (apply Rmin_glb_lt; apply cond_pos). exists (mkposreal _ P). simpl.
  intros u v Hu Hv. split; [apply H1|apply H2]; (eapply Rlt_le_trans; [eassumption|apply Rmin_l || apply Rmin_r]).
Qed.
Lemma V_in a b x y : -1 <= x <= 1 -> -1 <= y <= 1 -> V a b x y = B Z e1 e2 e12 h w a b (to_pixel w x) (to_pixel h y).
Proof. intros Hx Hy. unfold V. rewrite !pclamp_id by (assumption || lia). reflexivity. Qed.
Lemma D2_pix F x y fx fy : D2 F (to_pixel w x) (to_pixel h y) fx fy ->
  D2 (fun u v => F (to_pixel w u) (to_pixel h v)) x y (INR w / 2 * fx) (INR h / 2 * fy).
Proof.
  intros H. eapply D2_eq; [apply (D2_comp F (fun u _ => to_pixel w u) (fun _ v => to_pixel h v));
    [exact H|apply D2_proj1, to_pixel_derive|apply D2_proj2, to_pixel_derive]|ring|ring].
Qed.
Lemma D2_V a b x y fx fy : -1 < x < 1 -> -1 < y < 1 -> D2 (B Z e1 e2 e12 h w a b) (to_pixel w x) (to_pixel h y) fx fy ->
  D2 (V a b) x y (INR w / 2 * fx) (INR h / 2 * fy).
Proof.
  intros Hx Hy H. apply (D2_ext_loc (fun u v => B Z e1 e2 e12 h w a b (to_pixel w u) (to_pixel h v))); [|apply D2_pix, H].
  generalize (locally_open2 x y Hx Hy). apply locally_2d_impl, locally_2d_forall. intros u v [A C]. symmetry. apply V_in; lra.
Qed.
Lemma V_D2 x y : -1 < x < 1 -> -1 < y < 1 -> D2 (V 0 0) x y (INR w / 2 * V 1 0 x y) (INR h / 2 * V 0 1 x y).
Proof. intros Hx Hy. rewrite !(V_in _ _ x y) by lra. apply D2_V; [assumption|assumption|apply B_D2; assumption]. Qed.
Lemma pclamp_eps n x : (1 <= n)%nat -> forall e : posreal, exists d : posreal, forall u, Rabs (u - x) < d -> Rabs (pclamp n u - pclamp n x) < e.
Proof.
  intros Hn e. assert (N := INR_pos_lt n Hn). assert (P : 0 < e / INR n) by (apply Rdiv_lt_0_compat; [apply cond_pos|lra]).
  exists (mkposreal _ P). simpl. intros u Hu.
  assert (A : Rabs (to_pixel n u - to_pixel n x) < e).
  { replace (to_pixel n u - to_pixel n x) with (INR n / 2 * (u - x)) by (unfold to_pixel; field).
    rewrite Rabs_mult, Rabs_right by lra. assert (C := Rmult_lt_compat_l (INR n) _ _ ltac:(lra) Hu).
    replace (INR n * (e / INR n)) with (pos e) in C by (field; lra). assert (D := Rabs_pos (u - x)). nra. }
  apply Rabs_def2 in A. destruct A as [A1 A2].
  unfold pclamp, clampR, Rmin, Rmax. apply Rabs_def1; repeat destruct (Rle_dec _ _); lra.
Qed.
Lemma V_continuous a b x y : (a <= 1)%nat -> (b <= 1)%nat -> continuity_2d_pt (V a b) x y.
Proof.
  intros Ha Hb eps. destruct (B_continuous Z e1 e2 e12 h w Hh Hw a b (pclamp w x) (pclamp h y) Ha Hb eps) as [d Hd].
  destruct (pclamp_eps w x ltac:(lia) d) as [d1 H1]. destruct (pclamp_eps h y ltac:(lia) d) as [d2 H2].
  assert (P : 0 < Rmin d1 d2) by (apply Rmin_glb_lt; apply cond_pos). exists (mkposreal _ P). simpl.
  intros u v Hu Hv. apply Hd; [apply H1|apply H2]; (eapply Rlt_le_trans; [eassumption|apply Rmin_l || apply Rmin_r]).
Qed.
Lemma V_cross x y : -1 < x < 1 -> -1 < y < 1 ->
  is_derive (fun v => V 1 0 x v) y (INR h / 2 * V 1 1 x y) /\ is_derive (fun u => V 0 1 u y) x (INR w / 2 * V 1 1 x y).
Proof.
  intros Hx Hy. rewrite (V_in 1 1 x y) by lra.
  destruct (B_cross Z e1 e2 e12 h w Hh Hw (to_pixel w x) (to_pixel h y)) as [A C]. split.
  - destruct (locally_open y Hy) as [d Hd].
    apply (is_derive_ext_loc (fun v => B Z e1 e2 e12 h w 1 0 (to_pixel w x) (to_pixel h v))).
    + exists d. intros v Hv. symmetry. apply V_in; [lra|]. assert (Q := Hd v Hv). lra.
    + evar_last; [apply (is_derive_comp (fun v => B Z e1 e2 e12 h w 1 0 (to_pixel w x) v) (to_pixel h)); [exact A|apply to_pixel_derive]|reflexivity].
  - destruct (locally_open x Hx) as [d Hd].
    apply (is_derive_ext_loc (fun u => B Z e1 e2 e12 h w 0 1 (to_pixel w u) (to_pixel h y))).
    + exists d. intros v Hv. symmetry. apply V_in; [|lra]. assert (Q := Hd v Hv). lra.
    + evar_last; [apply (is_derive_comp (fun u => B Z e1 e2 e12 h w 0 1 u (to_pixel h y)) (to_pixel w)); [exact C|apply to_pixel_derive]|reflexivity].
Qed.
(** off the lines through the inner pixel centres *)
Definition off_lines (n : nat) (x : R) : Prop := forall j, (1 <= j <= n - 2)%nat -> x <> centre n j.
Lemma off_inner n x : (2 <= n)%nat -> off_lines n x -> inner n (cellof n (to_pixel n x)) (to_pixel n x).
Proof.
  intros Hn Ho. set (i := cellof n (to_pixel n x)).
  assert (N : 1 <= INR n) by (apply INR_pos_lt; lia).
  assert (K : forall j, to_pixel n x = INR j -> x = centre n j).
  { intros j E. unfold to_pixel, centre in *. assert (x + 1 = (2 * INR j + 1) / INR n); [|lra].
    apply Rmult_eq_reg_r with (INR n); [|lra]. unfold Rdiv. rewrite Rmult_assoc, Rinv_l by lra. lra. }
  destruct (touch_cellof n (to_pixel n x) Hn) as (A & C & D). fold i in A, C, D. split; [exact A|]. split.
  - destruct C as [C|C]; [left; exact C|]. destruct (Nat.eq_dec i 0) as [e|ne]; [left; exact e|right].
    destruct (Req_dec (to_pixel n x) (INR i)) as [E|E]; [|lra]. exfalso. apply (Ho i); [lia|apply K, E].
  - destruct D as [D|D]; [left; exact D|]. destruct (Nat.eq_dec (S (S i)) n) as [e|ne]; [left; exact e|right].
    destruct (Req_dec (to_pixel n x) (INR i + 1)) as [E|E]; [|lra]. exfalso.
    apply (Ho (S i)); [lia|apply K; rewrite S_INR; exact E].
Qed.
Lemma V_second x y : -1 < x < 1 -> -1 < y < 1 -> off_lines w x -> off_lines h y ->
  D2 (V 1 0) x y (INR w / 2 * V 2 0 x y) (INR h / 2 * V 1 1 x y) /\
  D2 (V 0 1) x y (INR w / 2 * V 1 1 x y) (INR h / 2 * V 0 2 x y).
Proof.
  intros Hx Hy Ox Oy. rewrite !(V_in _ _ x y) by lra.
  assert (A := off_inner w x Hw Ox). assert (C := off_inner h y Hh Oy).
  split; (apply D2_V; [assumption|assumption|eapply B_inner_D2; eauto; lia]).
Qed.
(** affine data with matching derivative maps *)
Lemma hc_affine d f df a b i t : (d <= 1)%nat -> (forall k, (k = i \/ k = S i) -> f k = a + b * INR k /\ df k = b) ->
  hc d f df i t = if Nat.eqb d 0 then a + b * (INR i + t) else b.
Proof.
  intros Hd H. destruct (H i (or_introl eq_refl)) as [E1 E2]. destruct (H (S i) (or_intror eq_refl)) as [E3 E4].
  unfold hc. rewrite E1, E2, E3, E4, S_INR. destruct d as [|[|]]; [| |lia]; unfold hb; cbn [Nat.eqb]; ring.
Qed.
Lemma B_affine d1 d2 d12 a b c x y : (forall i j, (i < h)%nat -> (j < w)%nat -> Z i j = a + b * INR j + c * INR i) ->
  (forall i j, (i < h)%nat -> (j < w)%nat -> d1 i j = b) -> (forall i j, (i < h)%nat -> (j < w)%nat -> d2 i j = c) ->
  (forall i j, (i < h)%nat -> (j < w)%nat -> d12 i j = 0) ->
  B Z d1 d2 d12 h w 0 0 x y = a + b * x + c * y /\ B Z d1 d2 d12 h w 1 0 x y = b /\ B Z d1 d2 d12 h w 0 1 x y = c.
Proof.
  intros HZ H1 H2 H12. unfold B, cell2. set (i := cellof w x). set (k := cellof h y).
  assert (Li : (S i < w)%nat) by (apply cellof_lt, Hw). assert (Lk : (S k < h)%nat) by (apply cellof_lt, Hh).
  assert (A0 : forall j, (j = i \/ j = S i) -> hc 0 (fun r => Z r j) (fun r => d2 r j) k (y - INR k) = (a + c * y) + b * INR j).
  { intros j Hj. rewrite (hc_affine 0 _ _ (a + b * INR j) c); [cbn [Nat.eqb]; ring|lia|].
    intros r Hr. rewrite HZ, H2 by (destruct Hr, Hj; lia). split; ring. }
  assert (A1 : forall j, (j = i \/ j = S i) -> hc 1 (fun r => Z r j) (fun r => d2 r j) k (y - INR k) = c).
  { intros j Hj. rewrite (hc_affine 1 _ _ (a + b * INR j) c); [reflexivity|lia|].
    intros r Hr. rewrite HZ, H2 by (destruct Hr, Hj; lia). split; ring. }
  assert (C0 : forall j, (j = i \/ j = S i) -> hc 0 (fun r => d1 r j) (fun r => d12 r j) k (y - INR k) = b).
  { intros j Hj. rewrite (hc_affine 0 _ _ b 0); [cbn [Nat.eqb]; ring|lia|].
    intros r Hr. rewrite H1, H12 by (destruct Hr, Hj; lia). split; ring. }
  assert (C1 : forall j, (j = i \/ j = S i) -> hc 1 (fun r => d1 r j) (fun r => d12 r j) k (y - INR k) = 0).
  { intros j Hj. rewrite (hc_affine 1 _ _ b 0); [reflexivity|lia|].
    intros r Hr. rewrite H1, H12 by (destruct Hr, Hj; lia). split; ring. }
  split; [|split].
  - rewrite (hc_affine 0 _ _ (a + c * y) b); [cbn [Nat.eqb]; ring|lia|]. intros j Hj. rewrite A0, C0 by exact Hj. split; ring.
  - rewrite (hc_affine 1 _ _ (a + c * y) b); [reflexivity|lia|]. intros j Hj. rewrite A0, C0 by exact Hj. split; ring.
  - rewrite (hc_affine 0 _ _ c 0); [cbn [Nat.eqb]; ring|lia|]. intros j Hj. rewrite A1, C1 by exact Hj. split; ring.
Qed.
End API.

(** ** statements about interp_bicubic *)
Lemma supplied_data dx dy h w Z d1 d2 d12 i j : (dx <= 1)%nat -> (dy <= 1)%nat -> (2 <= h)%nat -> (2 <= w)%nat ->
  (i < h)%nat -> (j < w)%nat -> exists Y11 Y22,
  interp_bicubic (2%nat, dx, dy) h w (centre w j) (centre h i) Z (Some d1) (Some d2) (Some d12) true true true =
  Ok [Z i j; d1 i j; d2 i j; d12 i j; Y11; Y22].
Proof.
  intros Hdx Hdy Hh Hw Hi Hj. rewrite api by assumption.
  destruct (V_data h w Hh Hw Z (Some d1) (Some d2) (Some d12) i j Hi Hj) as (-> & -> & -> & ->).
  eexists _, _. reflexivity.
Qed.
Lemma returned_derivatives dx dy h w Z o1 o2 o12 : (dx <= 1)%nat -> (dy <= 1)%nat -> (2 <= h)%nat -> (2 <= w)%nat ->
  exists Y Y1 Y2 Y12 Y11 Y22 : R -> R -> R,
  (forall x y g1 g2 g3, interp_bicubic (2%nat, dx, dy) h w x y Z o1 o2 o12 g1 g2 g3 =
     Ok ((if g1 then [Y x y] else []) ++ (if g2 then [Y1 x y; Y2 x y] else []) ++
         (if g3 then [Y12 x y; Y11 x y; Y22 x y] else []))%list) /\
  (forall x y, continuity_2d_pt Y x y /\ continuity_2d_pt Y1 x y /\ continuity_2d_pt Y2 x y /\ continuity_2d_pt Y12 x y) /\
  (forall x y, -1 < x < 1 -> -1 < y < 1 ->
     D2 Y x y (INR w / 2 * Y1 x y) (INR h / 2 * Y2 x y) /\
     is_derive (fun v => Y1 x v) y (INR h / 2 * Y12 x y) /\ is_derive (fun u => Y2 u y) x (INR w / 2 * Y12 x y)) /\
  (forall x y, -1 < x < 1 -> -1 < y < 1 ->
     (forall j, (1 <= j <= w - 2)%nat -> x <> centre w j) -> (forall i, (1 <= i <= h - 2)%nat -> y <> centre h i) ->
     D2 Y1 x y (INR w / 2 * Y11 x y) (INR h / 2 * Y12 x y) /\ D2 Y2 x y (INR w / 2 * Y12 x y) (INR h / 2 * Y22 x y)).
Proof.
  intros Hdx Hdy Hh Hw. set (V' := V h w Z o1 o2 o12).
  exists (V' 0%nat 0%nat), (V' 1%nat 0%nat), (V' 0%nat 1%nat), (V' 1%nat 1%nat), (V' 2%nat 0%nat), (V' 0%nat 2%nat). split; [|split; [|split]].
  - intros. apply api; assumption.
  - intros x y. repeat split; apply V_continuous; assumption || lia.
  - intros x y Hx Hy. split; [apply V_D2; assumption|apply V_cross; assumption].
  - intros x y Hx Hy Ox Oy. apply V_second; assumption.
Qed.
Lemma bicubic_errors dz dx dy h w x y Z o1 o2 o12 g1 g2 g3 : dz <> 2%nat \/ (1 < dx)%nat \/ (1 < dy)%nat ->
  interp_bicubic (dz, dx, dy) h w x y Z o1 o2 o12 g1 g2 g3 = Raise ValueError.
Proof.
  intros H. unfold interp_bicubic. destruct (Nat.eqb_spec dz 2) as [|]; [|reflexivity]. cbn [negb].
  destruct (Nat.ltb_spec 1 dx); [reflexivity|]. destruct (Nat.ltb_spec 1 dy); [reflexivity|]. exfalso; lia.
Qed.
Lemma supplied_affine dx dy h w Z d1 d2 d12 a b c x y : (dx <= 1)%nat -> (dy <= 1)%nat -> (2 <= h)%nat -> (2 <= w)%nat ->
  (forall i j, (i < h)%nat -> (j < w)%nat -> Z i j = a + b * centre w j + c * centre h i) ->
  (forall i j, (i < h)%nat -> (j < w)%nat -> d1 i j = b * (2 / INR w)) ->
  (forall i j, (i < h)%nat -> (j < w)%nat -> d2 i j = c * (2 / INR h)) ->
  (forall i j, (i < h)%nat -> (j < w)%nat -> d12 i j = 0) -> -1 <= x <= 1 -> -1 <= y <= 1 ->
  interp_bicubic (2%nat, dx, dy) h w x y Z (Some d1) (Some d2) (Some d12) true true false =
  Ok [a + b * x + c * y; b * (2 / INR w); c * (2 / INR h)].
Proof.
  intros Hdx Hdy Hh Hw HZ H1 H2 H12 Hx Hy. rewrite api by assumption. rewrite !V_in by assumption.
  assert (Nw : 1 <= INR w) by (apply INR_pos_lt; lia). assert (Nh : 1 <= INR h) by (apply INR_pos_lt; lia).
  destruct (B_affine h w Hh Hw Z d1 d2 d12 (a + b * (/ INR w - 1) + c * (/ INR h - 1)) (b * (2 / INR w)) (c * (2 / INR h))
     (to_pixel w x) (to_pixel h y)) as (E0 & E1 & E2); try assumption.
  { intros i j Hi Hj. rewrite HZ by assumption. unfold centre. field. lra. }
  change (e1 h Z (Some d1)) with d1. change (e2 w Z (Some d2)) with d2. change (e12 h w Z (Some d12)) with d12.
  rewrite E0, E1, E2. apply (f_equal Ok). cbn [app]. f_equal. unfold to_pixel. field. lra.
Qed.
(** ** what the default estimates are for an affine map *)
Lemma default_affine h w Z a b c i j : (2 <= h)%nat -> (2 <= w)%nat -> (i < h)%nat -> (j < w)%nat ->
  (forall i j, (i < h)%nat -> (j < w)%nat -> Z i j = a + b * INR j + c * INR i) ->
  kernel_dZ1 h Z 1 i j = - c /\ kernel_dZ2 w Z 1 i j = - b /\ kernel_dZ12 h w Z 1 1 i j = 0.
Proof.
  intros Hh Hw Hi Hj HZ. unfold kernel_dZ1, kernel_dZ2, kernel_dZ12. split; [|split].
  - destruct (Nat.eqb_spec i (h - 1)) as [e|ne]; [rewrite !HZ by lia; rewrite !minus_INR by lia; simpl; field|].
    destruct (Nat.eqb_spec i 0) as [e|ne']; [rewrite !HZ by lia; simpl; field|].
    rewrite !HZ by lia. rewrite minus_INR, plus_INR by lia. simpl. field.
  - destruct (Nat.eqb_spec j (w - 1)) as [e|ne]; [rewrite !HZ by lia; rewrite !minus_INR by lia; simpl; field|].
    destruct (Nat.eqb_spec j 0) as [e|ne']; [rewrite !HZ by lia; simpl; field|].
    rewrite !HZ by lia. rewrite minus_INR, plus_INR by lia. simpl. field.
  - destruct (Nat.eqb_spec i 0); [reflexivity|]. destruct (Nat.eqb_spec i (h - 1)); [reflexivity|].
    destruct (Nat.eqb_spec j 0); [reflexivity|]. destruct (Nat.eqb_spec j (w - 1)); [reflexivity|]. cbn [orb].
    rewrite !HZ by lia. rewrite !minus_INR, !plus_INR by lia. simpl. field.
Qed.
(** and for a quadratic map off the border *)
Lemma default_quadratic h w Z d1 d2 a b c d e f i j : d1 <> 0 -> d2 <> 0 -> (0 < i < h - 1)%nat -> (0 < j < w - 1)%nat ->
  (forall i j, (i < h)%nat -> (j < w)%nat -> Z i j = a + b * INR j + c * INR i + d * INR i * INR j + e * INR j ^ 2 + f * INR i ^ 2) ->
  kernel_dZ1 h Z d1 i j = - (c + d * INR j + 2 * f * INR i) / d1 /\ kernel_dZ2 w Z d2 i j = - (b + d * INR i + 2 * e * INR j) / d2 /\
  kernel_dZ12 h w Z d1 d2 i j = d / (d1 * d2).
Proof.
  intros H1 H2 Hi Hj HZ. unfold kernel_dZ1, kernel_dZ2, kernel_dZ12.
  replace (Nat.eqb i 0) with false by (symmetry; apply Nat.eqb_neq; lia). replace (Nat.eqb j 0) with false by (symmetry; apply Nat.eqb_neq; lia).
  replace (Nat.eqb i (h - 1)) with false by (symmetry; apply Nat.eqb_neq; lia). replace (Nat.eqb j (w - 1)) with false by (symmetry; apply Nat.eqb_neq; lia).
  cbn [orb]. rewrite !HZ by lia. rewrite !minus_INR, !plus_INR by lia. simpl (INR 1). repeat split; field; auto.
Qed.

(** ** PixelatedPotential *)
Section PP.
Variables (h w : nat) (Hh : (2 <= h)%nat) (Hw : (2 <= w)%nat) (Z : nat -> nat -> R) (x0 y0 ps : R) (Hps : 0 < ps).
Let W := V h w Z None None None.
Definition qx (x : R) := (x - x0) / (INR w * ps) * 2.
Definition qy (y : R) := (y - y0) / (INR h * ps) * 2.
Definition pp_psi x y := W 0%nat 0%nat (qx x) (qy y).
Definition pp_alpha x y := (W 1%nat 0%nat (qx x) (qy y) / ps, W 0%nat 1%nat (qx x) (qy y) / ps).
Definition pp_kappa x y := (W 2%nat 0%nat (qx x) (qy y) + W 0%nat 2%nat (qx x) (qy y)) / (2 * ps ^ 2).
Lemma pp_psi_ok x y : pp_potential h w Z x0 y0 ps x y = Ok (pp_psi x y).
Proof. unfold pp_potential, pp_query. rewrite api by (assumption || lia). reflexivity. Qed.
Lemma pp_alpha_ok x y : pp_reduced_deflection_angle h w Z x0 y0 ps x y = Ok (pp_alpha x y).
Proof. unfold pp_reduced_deflection_angle, pp_query. rewrite api by (assumption || lia). reflexivity. Qed.
Lemma pp_kappa_ok x y : pp_convergence h w Z x0 y0 ps x y = Ok (pp_kappa x y).
Proof. unfold pp_convergence, pp_query. rewrite api by (assumption || lia). reflexivity. Qed.
Lemma q_D2 F x y fx fy : D2 F (qx x) (qy y) (INR w / 2 * fx) (INR h / 2 * fy) ->
  D2 (fun u v => F (qx u) (qy v)) x y (fx / ps) (fy / ps).
Proof.
  intros H. assert (Nw : 1 <= INR w) by (apply INR_pos_lt; lia). assert (Nh : 1 <= INR h) by (apply INR_pos_lt; lia).
  eapply D2_eq; [apply (D2_comp F (fun u _ => qx u) (fun _ v => qy v)); [exact H|apply D2_proj1|apply D2_proj2]| |].
  - instantiate (1 := 2 / (INR w * ps)). unfold qx. auto_derive; [auto|field; nra].
  - instantiate (1 := 2 / (INR h * ps)). unfold qy. auto_derive; [auto|field; nra].
  - field. lra.
  - field. lra.
Qed.
Lemma q_inside n c x : (1 <= n)%nat -> Rabs (x - c) < INR n * ps / 2 -> -1 < (x - c) / (INR n * ps) * 2 < 1.
Proof.
  intros Hn H. assert (N := INR_pos_lt n Hn). assert (P : 0 < INR n * ps) by nra. apply Rabs_def2 in H.
  replace ((x - c) / (INR n * ps) * 2) with (2 * (x - c) / (INR n * ps)) by (field; lra).
  split; (apply Rmult_lt_reg_r with (INR n * ps); [exact P|]); unfold Rdiv; rewrite ?(Rmult_assoc (2 * (x - c))), ?Rinv_l by lra; lra.
Qed.
Lemma pp_gradient x y : Rabs (x - x0) < INR w * ps / 2 -> Rabs (y - y0) < INR h * ps / 2 ->
  deflection_is_gradient pp_psi pp_alpha x y.
Proof.
  intros Hx Hy. unfold deflection_is_gradient. simpl. apply q_D2.
  apply V_D2; try assumption; apply q_inside; assumption || lia.
Qed.
Lemma q_lines n c x j : (1 <= n)%nat -> (x - c) / (INR n * ps) * 2 = centre n j -> x = c + (INR j + 1 / 2 - INR n / 2) * ps.
Proof.
  intros Hn E. assert (N := INR_pos_lt n Hn). unfold centre in E.
  assert (x - c = ((x - c) / (INR n * ps) * 2) * (INR n * ps / 2)) by (field; lra).
  rewrite E in H. assert (H' : ((2 * INR j + 1) / INR n - 1) * (INR n * ps / 2) = (INR j + 1 / 2 - INR n / 2) * ps) by (field; lra). lra.
Qed.
Lemma pp_divergence x y : Rabs (x - x0) < INR w * ps / 2 -> Rabs (y - y0) < INR h * ps / 2 ->
  (forall j, (1 <= j <= w - 2)%nat -> x <> x0 + (INR j + 1 / 2 - INR w / 2) * ps) ->
  (forall i, (1 <= i <= h - 2)%nat -> y <> y0 + (INR i + 1 / 2 - INR h / 2) * ps) ->
  convergence_is_half_divergence pp_alpha pp_kappa x y.
Proof.
  intros Hx Hy Ox Oy.
  assert (A : -1 < qx x < 1) by (apply q_inside; assumption || lia).
  assert (C : -1 < qy y < 1) by (apply q_inside; assumption || lia).
  destruct (V_second h w Hh Hw Z None None None (qx x) (qy y) A C) as [E1 E2].
  - intros j Hj E. apply (Ox j Hj), (q_lines w x0 x j ltac:(lia) E).
  - intros i Hi E. apply (Oy i Hi), (q_lines h y0 y i ltac:(lia) E).
  - exists (W 2%nat 0%nat (qx x) (qy y) / ps / ps), (W 1%nat 1%nat (qx x) (qy y) / ps / ps),
      (W 1%nat 1%nat (qx x) (qy y) / ps / ps), (W 0%nat 2%nat (qx x) (qy y) / ps / ps).
    split; [|split; [|split; [reflexivity|unfold pp_kappa; field; lra]]].
    + apply (D2_ext (fun u v => / ps * W 1%nat 0%nat (qx u) (qy v))); [intros; unfold pp_alpha; simpl; field; lra|].
      eapply D2_eq; [apply (D2_scal (/ ps) (fun u v => W 1%nat 0%nat (qx u) (qy v))), q_D2, E1| |]; unfold W; field; lra.
    + apply (D2_ext (fun u v => / ps * W 0%nat 1%nat (qx u) (qy v))); [intros; unfold pp_alpha; simpl; field; lra|].
      eapply D2_eq; [apply (D2_scal (/ ps) (fun u v => W 0%nat 1%nat (qx u) (qy v))), q_D2, E2| |]; unfold W; field; lra.
Qed.
(** at pixel centres an affine map deflects along minus the transposed gradient *)
Lemma pp_affine a b c i j : (forall i j, (i < h)%nat -> (j < w)%nat -> Z i j = a + b * INR j + c * INR i) -> (i < h)%nat -> (j < w)%nat ->
  pp_potential h w Z x0 y0 ps (x0 + (INR j + 1 / 2 - INR w / 2) * ps) (y0 + (INR i + 1 / 2 - INR h / 2) * ps) = Ok (Z i j) /\
  pp_reduced_deflection_angle h w Z x0 y0 ps (x0 + (INR j + 1 / 2 - INR w / 2) * ps) (y0 + (INR i + 1 / 2 - INR h / 2) * ps) = Ok (- c / ps, - b / ps).
Proof.
  intros HZ Hi Hj. rewrite pp_alpha_ok, pp_psi_ok. unfold pp_alpha, pp_psi.
  assert (Nw : 1 <= INR w) by (apply INR_pos_lt; lia). assert (Nh : 1 <= INR h) by (apply INR_pos_lt; lia).
  replace (qx (x0 + (INR j + 1 / 2 - INR w / 2) * ps)) with (centre w j) by (unfold qx, centre; field; lra).
  replace (qy (y0 + (INR i + 1 / 2 - INR h / 2) * ps)) with (centre h i) by (unfold qy, centre; field; lra).
  destruct (V_data h w Hh Hw Z None None None i j Hi Hj) as (E0 & E1 & E2 & _). unfold W. rewrite E0, E1, E2.
  destruct (default_affine h w Z a b c i j Hh Hw Hi Hj HZ) as (D1 & D2' & _).
  unfold e1, e2, opt. rewrite D1, D2'. split; reflexivity.
Qed.
End PP.
Lemma value_not_reproduced : interp_bicubic (2, 0, 0)%nat 2 2 (- / 4) (centre 2 0) (fun i j => INR j) None None None true false false = Ok [5 / 32].
Proof.
  assert (C : centre 2 0 = - / 2) by (unfold centre; simpl; field).
  rewrite api by lia. cbn [app]. rewrite V_in by (rewrite ?C; lia || lra). apply (f_equal Ok). f_equal.
  rewrite (B_here _ _ _ _ 2 2 ltac:(lia) ltac:(lia) 0 0 _ _ 0 0) by (try lia; split; try lia; split; left; lia).
  rewrite C. unfold cell2, hc, hb, to_pixel, e1, e2, e12, opt, kernel_dZ1, kernel_dZ2, kernel_dZ12. simpl. field.
Qed.
