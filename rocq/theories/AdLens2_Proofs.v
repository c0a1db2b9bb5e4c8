(** * Automatic Jacobians of the lens models: agreement with derivatives, and what happens at the centre *)
From Coq Require Import Reals Lra List ZArith FunctionalExtensionality.
From Coquelicot Require Import Coquelicot.
From Verif Require Import RealFun Derive1 Geo_Model Const_Model Py LensBase_Model LensBasic_Model Jaffe_Model Nfw_Model Nfw_Proofs Nfw2_Proofs Tnfw_Model Multipole_Model Epl_Model Light_Model
  Ad_Model Ad_Spec Ad_Proofs AdLens_Model AdLens_Spec AdLens_Proofs.
Import ListNotations.
Local Open Scope R_scope.

Lemma ad_of_loc F t a seed : ok a seed t -> locally 0 (fun h => F (along a seed h) = ev (along a seed h) t) -> ad_exact F t a seed.
Proof.
  intros O L. destruct (ok_exact _ _ _ O) as (d & V & T & D). exists d.
  assert (E : F a = ev a t).
  { pose proof (locally_singleton _ _ L) as K. cbv beta in K. replace (along a seed 0) with a in K; [exact K|].
    apply functional_extensionality. intros n. unfold along. ring. }
  rewrite E. split; [exact V|split; [exact T|]].
  apply (is_derive_ext_loc (fun h => ev (along a seed h) t)); [|exact D]. revert L. apply filter_imp. auto.
Qed.

Lemma along_unit0 a h : along a (unit_seed 0) h = moved a (a 0%nat + h) (a 1%nat).
Proof. apply functional_extensionality. intros [|[|n]]; unfold along, moved, unit_seed; simpl; ring. Qed.
Lemma along_unit1 a h : along a (unit_seed 1) h = moved a (a 0%nat) (a 1%nat + h).
Proof. apply functional_extensionality. intros [|[|n]]; unfold along, moved, unit_seed; simpl; ring. Qed.
Lemma shift_derive (f : R -> R) x d : is_derive (fun h => f (x + h)) 0 d -> is_derive f x d.
Proof.
  intros H. apply (is_derive_ext (fun u => f (x + (u - x)))); [intros t; f_equal; ring|].
  apply (dv_val _ _ (1 * d)); [|ring].
  apply (is_derive_comp (fun h => f (x + h)) (fun u => u - x)).
  - replace (x - x) with 0 by ring. exact H.
  - apply (dv_val _ _ (1 - 0)); [apply (dv_minus (fun u => u) (fun _ => x)); [apply dv_id|apply dv_const]|ring].
Qed.
Lemma exact_column (F : (nat -> R) -> R) t a k : ad_exact F t a (unit_seed k) ->
  exists d, match snd (jvp a (unit_seed k) t) with Some d => d | None => Fin 0 end = Fin d /\ is_derive (fun h => F (along a (unit_seed k) h)) 0 d.
Proof. intros (d & _ & T & D). exists d. split; [exact T|exact D]. Qed.
Lemma jacfwd_is_ad F t a : ad_exact2 F t a (unit_seed 0) -> ad_exact2 F t a (unit_seed 1) ->
  entries (ad_jacfwd t a) (jacfwd (fun x y => F (moved a x y)) (a 0%nat) (a 1%nat)).
Proof.
  intros [A B] [C D].
  destruct (exact_column _ _ _ _ A) as (d1 & T1 & D1), (exact_column _ _ _ _ B) as (d2 & T2 & D2), (exact_column _ _ _ _ C) as (d3 & T3 & D3), (exact_column _ _ _ _ D) as (d4 & T4 & D4).
  unfold entries, ad_jacfwd, jacfwd; cbn [fst snd m00 m01 m10 m11]. rewrite T1, T2, T3, T4.
  split; [|split; [|split]]; f_equal; symmetry; apply is_derive_unique, shift_derive.
  - apply (is_derive_ext (fun h => fst (F (along a (unit_seed 0) h)))); [intros h; rewrite along_unit0; reflexivity|exact D1].
  - apply (is_derive_ext (fun h => fst (F (along a (unit_seed 1) h)))); [intros h; rewrite along_unit1; reflexivity|exact D3].
  - apply (is_derive_ext (fun h => snd (F (along a (unit_seed 0) h)))); [intros h; rewrite along_unit0; reflexivity|exact D2].
  - apply (is_derive_ext (fun h => snd (F (along a (unit_seed 1) h)))); [intros h; rewrite along_unit1; reflexivity|exact D4].
Qed.

(** ** The profiles; arguments 0, 1 are the position, 2, 3 the centre *)
Local Notation "a @ n" := (a n%nat) (at level 9, only parsing).
Local Notation V n := (Var n%nat).
Section Thms.
Variable a : nat -> R.
Variable seed : nat -> option R.
Ltac vars := try apply ok_var; try exact seed.
Ltac fin2 := apply ad2_of; [reflexivity|assumption|assumption].
Ltac fin1 := apply ad_of; [reflexivity|assumption].
Lemma mass_sheet_ad :
  ad_exact2 (fun a => reduced_deflection_angle_mass_sheet a@2 a@3 a@4 a@0 a@1) (t_deflection_mass_sheet (V 2) (V 3) (V 4) (V 0) (V 1)) a seed /\
  ad_exact (fun a => potential_mass_sheet a@2 a@3 a@4 a@0 a@1) (t_potential_mass_sheet (V 2) (V 3) (V 4) (V 0) (V 1)) a seed.
Proof. destruct (mass_sheet_ok a seed (V 2) (V 3) (V 4) (V 0) (V 1)) as (O1 & O2 & O3); vars. split; [fin2|fin1]. Qed.
Lemma shear_ad :
  ad_exact2 (fun a => reduced_deflection_angle_external_shear a@2 a@3 a@4 a@5 a@0 a@1) (t_deflection_external_shear (V 2) (V 3) (V 4) (V 5) (V 0) (V 1)) a seed /\
  ad_exact (fun a => potential_external_shear a@2 a@3 a@4 a@5 a@0 a@1) (t_potential_external_shear (V 2) (V 3) (V 4) (V 5) (V 0) (V 1)) a seed.
Proof. destruct (shear_ok a seed (V 2) (V 3) (V 4) (V 5) (V 0) (V 1)) as (O1 & O2 & O3); vars. split; [fin2|fin1]. Qed.
Lemma sis_ad : (a@0 <> a@2 \/ a@1 <> a@3) -> 0 <= a@5 ->
  ad_exact2 (fun a => reduced_deflection_angle_sis a@2 a@3 a@4 a@5 a@0 a@1) (t_deflection_sis (V 2) (V 3) (V 4) (V 5) (V 0) (V 1)) a seed /\
  ad_exact (fun a => potential_sis a@2 a@3 a@4 a@5 a@0 a@1) (t_potential_sis (V 2) (V 3) (V 4) (V 5) (V 0) (V 1)) a seed /\
  ad_exact (fun a => convergence_sis a@2 a@3 a@4 a@5 a@0 a@1) (t_convergence_sis (V 2) (V 3) (V 4) (V 5) (V 0) (V 1)) a seed.
Proof.
  intros H S. destruct (sis_ok a seed (V 0) (V 1) (V 2) (V 3) (V 5)) with (R := V 4) as (O1 & O2 & O3 & O4); vars; [exact H|exact S|].
  split; [fin2|split; fin1].
Qed.
Lemma point_ad : (a@0 <> a@2 \/ a@1 <> a@3) -> 0 <= a@5 ->
  ad_exact2 (fun a => reduced_deflection_angle_point a@2 a@3 a@4 a@5 a@0 a@1) (t_deflection_point (V 2) (V 3) (V 4) (V 5) (V 0) (V 1)) a seed /\
  ad_exact (fun a => potential_point a@2 a@3 a@4 a@5 a@0 a@1) (t_potential_point (V 2) (V 3) (V 4) (V 5) (V 0) (V 1)) a seed.
Proof.
  intros H S. destruct (point_ok a seed (V 0) (V 1) (V 2) (V 3) (V 5)) with (R := V 4) as (O1 & O2 & O3); vars; [exact H|exact S|].
  split; [fin2|fin1].
Qed.
(** arguments: x y x0 y0 q phi Rein s *)
Lemma sie_ad : (a@0 <> a@2 \/ a@1 <> a@3) \/ 0 < a@7 -> 0 <= a@7 -> 0 < a@4 <= 1 -> a@4 < 1 \/ seed 4%nat = None ->
  ad_exact2 (fun a => reduced_deflection_angle_sie a@2 a@3 a@4 a@5 a@6 a@7 a@0 a@1) (t_deflection_sie (V 2) (V 3) (V 4) (V 5) (V 6) (V 7) (V 0) (V 1)) a seed /\
  ad_exact (fun a => convergence_sie a@2 a@3 a@4 a@5 a@6 a@7 a@0 a@1) (t_convergence_sie (V 2) (V 3) (V 4) (V 5) (V 6) (V 7) (V 0) (V 1)) a seed /\
  (seed 7%nat = None ->
   ad_exact (fun a => potential_sie a@2 a@3 a@4 a@5 a@6 a@7 a@0 a@1) (t_potential_sie (V 2) (V 3) (V 4) (V 5) (V 6) (V 7) (V 0) (V 1)) a seed).
Proof.
  intros H S Q N. assert (N' : a@4 < 1 \/ snd (jvp a seed (V 4)) = None) by (destruct N as [N|N]; [left; exact N|right; cbn [jvp snd]; rewrite N; reflexivity]).
  assert (O := fun n => ok_var a seed n).
  pose proof (sie_ok a seed (V 0) (V 1) (V 2) (V 3) (V 4) (V 5) (V 7) (O _) (O _) (O _) (O _) (O _) (O _) (O _) H S Q N' (V 6) (O _)) as [O1 O2].
  pose proof (sie_kappa_ok a seed (V 0) (V 1) (V 2) (V 3) (V 4) (V 5) (V 7) (O _) (O _) (O _) (O _) (O _) (O _) (O _) H Q (V 6) (O _)) as O3.
  split; [fin2|split; [fin1|intros N7; apply ad_of; [reflexivity|]]].
  apply (sie_potential_ok a seed (V 0) (V 1) (V 2) (V 3) (V 4) (V 5) (V 7) (O _) (O _) (O _) (O _) (O _) (O _) (O _) H S Q N' (V 6) (O _)).
  left. cbn [jvp snd]. rewrite N7. reflexivity.
Qed.
(** arguments: x y x0 y0 mass Rc Rs d_l sigma_cr s d_s d_ls *)
Lemma jaffe_ad : 0 < a@5 -> 0 < a@6 -> a@5 <> a@6 -> 0 < a@7 -> 0 < a@8 -> 0 <= a@9 -> 0 < a@10 ->
  (a@0 <> a@2 \/ a@1 <> a@3 ->
   ad_exact2 (fun a => reduced_deflection_angle_pseudo_jaffe a@2 a@3 a@4 a@5 a@6 a@0 a@1 a@7 a@8 a@9) (t_deflection_pseudo_jaffe (V 2) (V 3) (V 4) (V 5) (V 6) (V 0) (V 1) (V 7) (V 8) (V 9)) a seed) /\
  ad_exact (fun a => potential_pseudo_jaffe a@2 a@3 a@4 a@5 a@6 a@0 a@1 a@7 a@10 a@11 a@9) (t_potential_pseudo_jaffe (V 2) (V 3) (V 4) (V 5) (V 6) (V 0) (V 1) (V 7) (V 10) (V 11) (V 9)) a seed /\
  ad_exact (fun a => convergence_pseudo_jaffe a@2 a@3 a@4 a@5 a@6 a@0 a@1 a@7 a@8 a@9) (t_convergence_pseudo_jaffe (V 2) (V 3) (V 4) (V 5) (V 6) (V 0) (V 1) (V 7) (V 8) (V 9)) a seed.
Proof.
  intros P5 P6 N P7 P8 P9 P10. assert (O := fun n => ok_var a seed n).
  destruct (jaffe_mass_ok a seed (V 0) (V 1) (V 2) (V 3) (V 9) (V 4) (V 5) (V 6) (V 7) (V 8) (V 10) (V 11)) as [O1 O2]; vars; cbn [ev]; try lra; try assumption.
  split; [|split; fin1].
  intros H. destruct (jaffe_ok a seed (V 0) (V 1) (V 2) (V 3) (V 9) (O _) (O _) (O _) (O _) (O _) H P9 (V 4) (V 5) (V 6) (V 7) (V 8)) as [O3 O4]; vars; cbn [ev]; try lra; try assumption.
  fin2.
Qed.
(** arguments: x y x0 y0 mass c critical_density d_l DELTA s sigma_cr *)
Lemma nfw_ad : a@0 <> a@2 \/ a@1 <> a@3 -> 0 < a@4 -> 0 < a@5 -> 0 < a@6 -> 0 < a@7 -> 0 < a@8 -> 0 <= a@9 -> 0 < a@10 ->
  clear_of_1 eps_nfw (a@7 * (sqrt ((a@0 - a@2) ^ 2 + (a@1 - a@3) ^ 2) + a@9) * arcsec_to_rad / scale_radius_nfw a@6 a@4 a@5 a@8) ->
  ad_exact2 (fun a => physical_deflection_angle_nfw a@2 a@3 a@4 a@5 a@6 a@7 a@0 a@1 a@8 a@9) (t_deflection_nfw (V 2) (V 3) (V 4) (V 5) (V 6) (V 7) (V 0) (V 1) (V 8) (V 9)) a seed /\
  ad_exact (fun a => potential_nfw a@10 a@6 a@2 a@3 a@4 a@5 a@7 a@0 a@1 a@8 a@9) (t_potential_nfw (V 10) (V 6) (V 2) (V 3) (V 4) (V 5) (V 7) (V 0) (V 1) (V 8) (V 9)) a seed /\
  ad_exact_opt (fun a => convergence_nfw a@10 a@6 a@2 a@3 a@4 a@5 a@0 a@1 a@7 a@8 a@9) (t_convergence_nfw (V 10) (V 6) (V 2) (V 3) (V 4) (V 5) (V 0) (V 1) (V 7) (V 8) (V 9)) a seed.
Proof.
  intros H P4 P5 P6 P7 P8 P9 P10 HC. assert (O := fun n => ok_var a seed n).
  destruct (nfw_ok a seed (V 0) (V 1) (V 2) (V 3) (V 9) (V 6) (V 4) (V 5) (V 8) (V 7) (O _) (O _) (O _) (O _) (O _) H P9 (O _) (O _) (O _) (O _) (O _) P6 P4 P5 P8 P7 HC) as [O1 O2].
  destruct (nfw_mass_ok a seed (V 0) (V 1) (V 2) (V 3) (V 9) (V 6) (V 4) (V 5) (V 8) (V 7) (O _) (O _) (O _) (O _) (O _) H P9 (O _) (O _) (O _) (O _) (O _) P6 P4 P5 P8 P7 HC (V 10) (O _) ltac:(cbn [ev]; lra)) as [O3 O4].
  split; [fin2|split; [fin1|split]].
  - unfold convergence_nfw. cbn [translate_rotate]. unfold fin_div. destruct HC as [N1 _]. unfold fin_div.
    match goal with |- context [Req_EM_T ?e 0] => destruct (Req_EM_T e 0) as [Z|Z]; [exfalso|eexists; reflexivity] end.
    match type of N1 with ?r <> 1 => assert (R1 : 0 < r); [|assert (r = 1) by nra; contradiction] end.
    destruct (nfw_scales a seed (V 0) (V 1) (V 2) (V 3) (V 9) (V 6) (V 4) (V 5) (V 8) (V 7) (O _) (O _) (O _) (O _) (O _) H P9 (O _) (O _) (O _) (O _) (O _) P6 P4 P5 P8 P7) as (_ & _ & _ & _ & _ & _ & _ & K). exact K.
  - apply ad_of; [|assumption]. intros b. unfold convergence_nfw. cbn [translate_rotate]. unfold fin_div.
    match goal with |- context [Req_EM_T ?e 0] => destruct (Req_EM_T e 0) as [Z|Z]; [|reflexivity] end.
    unfold t_convergence_nfw. cbn [t_translate_rotate ev].
    match goal with |- 0 = ?n / ?d => change d with (ev b (Sub (Pow (Div (Mul (Mul (V 7) (Add (Sqrt (Add (Pow (Sub (V 0) (V 2)) 2) (Pow (Sub (V 1) (V 3)) 2))) (V 9))) (Cst arcsec_to_rad)) (t_scale_radius_nfw (V 6) (V 4) (V 5) (V 8))) 2) (Cst 1))) end.
    match type of Z with ?e = 0 => change e with (ev b (Sub (Pow (Div (Mul (Mul (V 7) (Add (Sqrt (Add (Pow (Sub (V 0) (V 2)) 2) (Pow (Sub (V 1) (V 3)) 2))) (V 9))) (Cst arcsec_to_rad)) (t_scale_radius_nfw (V 6) (V 4) (V 5) (V 8))) 2) (Cst 1))) in Z end.
    rewrite Z. unfold Rdiv. rewrite Rinv_0. ring.
Qed.
(** arguments: x y x0 y0 Rs tau M0 d_l s critical_surface_density d_s d_ls *)
Lemma tnfw_ad : a@0 <> a@2 \/ a@1 <> a@3 -> 0 < a@4 -> 0 < a@5 -> 0 < a@7 -> 0 <= a@8 -> 0 < a@9 -> 0 < a@10 ->
  let g := (sqrt ((a@0 - a@2) ^ 2 + (a@1 - a@3) ^ 2) + a@8) / a@4 in
  g <> 1 - 1 / 100 -> g <> 1 + 1 / 100 ->
  ad_exact2 (fun a => physical_deflection_angle_tnfw a@2 a@3 a@4 a@5 a@0 a@1 a@6 a@7 a@8) (t_deflection_tnfw (V 2) (V 3) (V 4) (V 5) (V 0) (V 1) (V 6) (V 7) (V 8)) a seed /\
  (g <> 1 - 1 / 1000 -> g <> 1 + 1 / 1000 ->
   ad_exact (fun a => potential_tnfw a@2 a@3 a@4 a@5 a@0 a@1 a@6 a@7 a@10 a@11 a@8) (t_potential_tnfw (V 2) (V 3) (V 4) (V 5) (V 0) (V 1) (V 6) (V 7) (V 10) (V 11) (V 8)) a seed) /\
  (g <> 1 -> ad_exact (fun a => convergence_tnfw a@2 a@3 a@4 a@5 a@0 a@1 a@9 a@6 a@7 a@8) (t_convergence_tnfw (V 2) (V 3) (V 4) (V 5) (V 0) (V 1) (V 9) (V 6) (V 7) (V 8)) a seed).
Proof.
  intros H P4 P5 P7 P8 P9 P10 g N1 N2. assert (O := fun n => ok_var a seed n).
  destruct (tnfw_ok a seed (V 0) (V 1) (V 2) (V 3) (V 8) (V 4) (V 5) (V 6) (V 7) (O _) (O _) (O _) (O _) (O _) H P8 (O _) (O _) (O _) (O _) P4 P5 P7 N1 N2) as [O1 O2].
  split; [fin2|split].
  - intros N3 N4. apply ad_of; [reflexivity|].
    exact (tnfw_psi_ok a seed (V 0) (V 1) (V 2) (V 3) (V 8) (V 4) (V 5) (V 6) (V 7) (O _) (O _) (O _) (O _) (O _) H P8 (O _) (O _) (O _) (O _) P4 P5 P7 N1 N2 (V 10) (V 11) (O _) (O _) (Rgt_not_eq _ _ P10) N3 N4).
  - intros N3. apply ad_of; [reflexivity|].
    exact (tnfw_kappa_ok a seed (V 0) (V 1) (V 2) (V 3) (V 8) (V 4) (V 5) (V 6) (V 7) (O _) (O _) (O _) (O _) (O _) H P8 (O _) (O _) (O _) (O _) P4 P5 P7 N1 N2 (V 9) (O _) (Rgt_not_eq _ _ P9) N3).
Qed.
Lemma multipole_ad ms : orders_accepted (mode_vals ms a) = true -> a@0 <> a@2 \/ a@1 <> a@3 ->
  ad_exact2 (fun a => reduced_deflection_angle_multipole a@2 a@3 (mode_vals ms a) a@0 a@1) (t_deflection_multipole (V 2) (V 3) (mode_args ms) (V 0) (V 1)) a seed /\
  ad_exact (fun a => potential_multipole a@2 a@3 (mode_vals ms a) a@0 a@1) (t_potential_multipole (V 2) (V 3) (mode_args ms) (V 0) (V 1)) a seed /\
  ad_exact (fun a => convergence_multipole a@2 a@3 (mode_vals ms a) a@0 a@1) (t_convergence_multipole (V 2) (V 3) (mode_args ms) (V 0) (V 1)) a seed.
Proof.
  intros HM H. assert (O := fun n => ok_var a seed n).
  assert (HL : forall m c p, In (m, c, p) (mode_args ms) -> (2 <= m)%Z /\ ok a seed c /\ ok a seed p).
  { intros m c p I. unfold mode_args in I. apply in_map_iff in I as ([k m'] & E & I). injection E as -> <- <-. split; [|split; apply ok_var].
    unfold orders_accepted in HM. rewrite forallb_forall in HM. specialize (HM (m, a (4 + 2 * k)%nat, a (5 + 2 * k)%nat)). cbv beta iota in HM.
    apply Z.leb_le, HM. unfold mode_vals. apply in_map_iff. exists (k, m). auto. }
  destruct (multipole_ok a seed (V 0) (V 1) (V 2) (V 3) (mode_args ms) (O _) (O _) (O _) (O _) HL H) as [O1 O2].
  destruct (multipole_mass_ok a seed (V 0) (V 1) (V 2) (V 3) (mode_args ms) (O _) (O _) (O _) (O _) HL H) as [O3 O4].
  assert (S : forall (f : order -> R) (g : Z * expr * expr -> expr) b, (forall m i j, f (m, b i, b j) = ev b (g (m, Var i, Var j))) ->
     msum f (mode_vals ms b) = ev b (fold_right (fun t s => Add (g t) s) (Cst 0) (mode_args ms))).
  { intros f g b E. unfold mode_vals, mode_args. induction (combine _ _) as [|[k m] r IH]; [reflexivity|]. cbn [map fold_right ev]. unfold msum in *; cbn [fold_right]. rewrite E. apply f_equal. exact IH. }
  assert (S' : forall (f : Z -> expr -> expr -> expr), fold_right (fun '(m, c, p) s => Add (f m c p) s) (Cst 0) (mode_args ms) = fold_right (fun t s => Add (let '(m, c, p) := t in f m c p) s) (Cst 0) (mode_args ms)).
  { intros f. clear. induction (mode_args ms) as [|[[m c] p] r IH]; [reflexivity|]. cbn [fold_right]. rewrite IH. reflexivity. }
  split; [|split].
  - apply ad2_of; [|assumption..]. intros b. unfold reduced_deflection_angle_multipole, t_deflection_multipole, t_deflection_multipole_at. cbn [translate_rotate t_translate_rotate fst snd].
    apply pair_equal_spec. split; rewrite S'; apply S; reflexivity.
  - apply ad_of; [|assumption..]. intros b. unfold potential_multipole, t_potential_multipole, t_potential_multipole_at. cbn [translate_rotate t_translate_rotate fst snd]. rewrite S'; apply S; reflexivity.
  - apply ad_of; [|assumption..]. intros b. unfold convergence_multipole, t_convergence_multipole, t_convergence_multipole_at. cbn [translate_rotate t_translate_rotate fst snd]. rewrite S'; apply S; reflexivity.
Qed.
(** arguments: x y x0 y0 q phi Rein t s *)
Lemma epl_kappa_ad : 0 < a@4 -> 0 < a@6 -> (a@0 <> a@2 \/ a@1 <> a@3) \/ a@8 <> 0 ->
  ad_exact (fun a => convergence_epl a@2 a@3 a@4 a@5 a@6 a@7 a@8 a@0 a@1) (t_convergence_epl (V 2) (V 3) (V 4) (V 5) (V 6) (V 7) (V 0) (V 1) (V 8)) a seed.
Proof.
  intros P4 P6 H. assert (O := fun n => ok_var a seed n).
  destruct (epl_kappa_ok a seed (V 0) (V 1) (V 2) (V 3) (V 4) (V 5) (V 6) (V 7) (V 8) (O _) (O _) (O _) (O _) (O _) (O _) (O _) (O _) (O _) P4 P6 H) as (O1 & O2 & P2).
  apply ad_of_loc; [exact O1|]. generalize (ok_lt a seed (Cst 0) _ (ok_cst _ _ 0) O2 P2). apply filter_imp. intros h L.
  change (convergence_epl (along a seed h) @ 2 (along a seed h) @ 3 (along a seed h) @ 4 (along a seed h) @ 5 (along a seed h) @ 6 (along a seed h) @ 7 (along a seed h) @ 8 (along a seed h) @ 0 (along a seed h) @ 1)
    with ((2 - (along a seed h) @ 7) / 2 * power (ev (along a seed h) (epl_base (V 2) (V 3) (V 4) (V 5) (V 6) (V 0) (V 1) (V 8))) (along a seed h) @ 7).
  change (ev (along a seed h) (t_convergence_epl (V 2) (V 3) (V 4) (V 5) (V 6) (V 7) (V 0) (V 1) (V 8)))
    with ((2 - (along a seed h) @ 7) / 2 * Rpower (ev (along a seed h) (epl_base (V 2) (V 3) (V 4) (V 5) (V 6) (V 0) (V 1) (V 8))) (along a seed h) @ 7).
  cbn [ev] in L. unfold power. destruct (Req_EM_T _ 0) as [E|E]; [|reflexivity]. lra.
Qed.
(** arguments: x y x0 y0 q phi n Re Ie k s *)
Lemma sersic_ad : 0 < a@4 -> 0 < a@6 -> 0 < a@7 -> 0 <= a@10 -> (a@0 <> a@2 \/ a@1 <> a@3) ->
  ad_exact_opt (fun a => brightness_sersic a@2 a@3 a@4 a@5 a@6 a@7 a@8 a@0 a@1 a@9 a@10) (t_brightness_sersic (V 2) (V 3) (V 4) (V 5) (V 6) (V 7) (V 8) (V 0) (V 1) (V 9) (V 10)) a seed.
Proof.
  intros P4 P6 P7 P10 H. assert (O := fun n => ok_var a seed n).
  destruct (sersic_ok a seed (V 0) (V 1) (V 2) (V 3) (V 4) (V 5) (V 6) (V 7) (V 8) (V 9) (V 10) (O _) (O _) (O _) (O _) (O _) (O _) (O _) (O _) (O _) (O _) (O _)
    (Rgt_not_eq _ _ P4) (Rgt_not_eq _ _ P6) P7 P10 H) as (O1 & O2 & P2).
  assert (E : forall b, 0 < ev b (sersic_base (V 2) (V 3) (V 4) (V 5) (V 7) (V 0) (V 1) (V 10)) ->
    brightness_sersic b@2 b@3 b@4 b@5 b@6 b@7 b@8 b@0 b@1 b@9 b@10 = Some (ev b (t_brightness_sersic (V 2) (V 3) (V 4) (V 5) (V 6) (V 7) (V 8) (V 0) (V 1) (V 9) (V 10)))).
  { intros b PB. 
    change (brightness_sersic b@2 b@3 b@4 b@5 b@6 b@7 b@8 b@0 b@1 b@9 b@10) with
      (match real_pow (ev b (sersic_base (V 2) (V 3) (V 4) (V 5) (V 7) (V 0) (V 1) (V 10))) (1 / b@6) with
       | Some p => Some (b@8 * exp (- b@9 * (p - 1))) | None => None end).
    change (ev b (t_brightness_sersic (V 2) (V 3) (V 4) (V 5) (V 6) (V 7) (V 8) (V 0) (V 1) (V 9) (V 10))) with
      (b@8 * exp (- b@9 * (Rpower (ev b (sersic_base (V 2) (V 3) (V 4) (V 5) (V 7) (V 0) (V 1) (V 10))) (1 / b@6) - 1))).
    unfold real_pow. destruct (Rlt_dec _ 0); [lra|]. destruct (Req_EM_T _ 0) as [Z|Z]; [lra|reflexivity]. }
  split; [exists (ev a (t_brightness_sersic (V 2) (V 3) (V 4) (V 5) (V 6) (V 7) (V 8) (V 0) (V 1) (V 9) (V 10))); apply E, P2|].
  apply ad_of_loc; [exact O1|]. generalize (ok_lt a seed (Cst 0) _ (ok_cst _ _ 0) O2 P2). apply filter_imp. intros h L. rewrite E; [reflexivity|exact L].
Qed.
End Thms.
