(** * Automatic differentiation of PixelatedConvergence *)
From Coq Require Import Reals Lra Lia ZArith Arith List String Bool FunctionalExtensionality.
From Coquelicot Require Import Coquelicot.
From Verif Require Import Py Fsum RealFun Interp2_Model Dft_Model PixConv_Model PixMap_Spec Ad_Model Ad_Spec Ad_Proofs AdLens_Model AdLens_Proofs AdLens2_Proofs AdLens3_Proofs
  Rev_Model Rev_Spec Rev_Proofs RevLens_Proofs AdEpl_Model AdEpl_Spec AdEpl_Proofs AdPix_Model AdPix_Spec AdPix_Proofs AdSim_Model AdSim_Proofs AdConv_Model AdConv_Spec.
Import ListNotations.
Local Open Scope R_scope.
Local Notation "a @ n" := (a n%nat) (at level 9, only parsing).
Local Notation V n := (Var n%nat).

Section Pc.
Variable a : nat -> R.
(** same values, differentiable forwards and backwards *)
Definition Fol (F : (nat -> R) -> R) (t : expr) : Prop := (forall b, F b = ev b t) /\ (forall seed, ok a seed t) /\ tame a t.
Lemma fol_ext f g e : (forall b, f b = g b) -> Fol f e -> Fol g e.
Proof. intros E (A & B). split; [intros b; rewrite <- E; apply A|exact B]. Qed.
Lemma fol_cst r : Fol (fun _ => r) (Cst r).
Proof. split; [reflexivity|split; [intros; apply ok_cst|exact Logic.I]]. Qed.
Lemma fol_var n : Fol (fun b => b n) (Var n).
Proof. split; [reflexivity|split; [intros; apply ok_var|exact Logic.I]]. Qed.
Lemma fol_add f g d e : Fol f d -> Fol g e -> Fol (fun b => f b + g b) (Add d e).
Proof. intros (A & B & C) (A' & B' & C'). split; [intros b; rewrite A, A'; reflexivity|split; [intros; apply ok_add; auto|split; assumption]]. Qed.
Lemma fol_sub f g d e : Fol f d -> Fol g e -> Fol (fun b => f b - g b) (Sub d e).
Proof. intros (A & B & C) (A' & B' & C'). split; [intros b; rewrite A, A'; reflexivity|split; [intros; apply ok_sub; auto|split; assumption]]. Qed.
Lemma fol_mul f g d e : Fol f d -> Fol g e -> Fol (fun b => f b * g b) (Mul d e).
Proof. intros (A & B & C) (A' & B' & C'). split; [intros b; rewrite A, A'; reflexivity|split; [intros; apply ok_mul; auto|split; assumption]]. Qed.
Lemma fol_div f g d e : Fol f d -> Fol g e -> g a <> 0 -> Fol (fun b => f b / g b) (Div d e).
Proof.
  intros (A & B & C) (A' & B' & C') N. rewrite A' in N. split; [intros b; rewrite A, A'; reflexivity|split; [intros; apply ok_div; auto|split; [|split]; assumption]].
Qed.
Lemma fol_neg f d : Fol f d -> Fol (fun b => - f b) (Neg d).
Proof. intros (A & B & C). split; [intros b; rewrite A; reflexivity|split; [intros; apply ok_neg; auto|exact C]]. Qed.

(** ** the tabulated map *)
Definition tabulated (M : (nat -> R) -> result (nat * (nat -> nat -> R))) (t : result (nat * (nat -> nat -> expr))) (m : nat) : Prop :=
  match t with
  | Ok (k, T) => k = m /\ exists f, (forall b, M b = Ok (m, f b)) /\ forall i j, Fol (fun b => f b i j) (T i j)
  | Raise e => forall b, M b = Raise e
  end.
Lemma padded_fol (x : (nat -> R) -> nat -> nat -> R) T n padding : (forall i j, Fol (fun b => x b i j) (T i j)) ->
  match t_fft2_padded T n padding with
  | Ok U => exists f, (forall b, fft2_padded (x b) n padding = Ok (f b)) /\ forall k l, RelC Fol (fun b => f b k l) (U k l)
  | Raise e => forall b, fft2_padded (x b) n padding = Raise e
  end.
Proof.
  intros H. unfold t_fft2_padded, fft2_padded. destruct (fft_size n) as [s0 s1].
  destruct (String.eqb padding "zero").
  { eexists. split; [reflexivity|]. intros k l. apply (relc_rfft2 Fol fol_cst fol_add fol_sub fol_mul). exact H. }
  destruct (_ || _)%bool; cbv zeta.
  { destruct (Nat.leb n 1); [reflexivity|]. eexists. split; [reflexivity|]. intros k l.
    apply (relc_rfft2 Fol fol_cst fol_add fol_sub fol_mul _ _ (fun b i j => x b _ _)). intros i j. apply H. }
  destruct (String.eqb padding "tile"); [|reflexivity].
  eexists. split; [reflexivity|]. intros k l. apply (relc_rfft2 Fol fol_cst fol_add fol_sub fol_mul _ _ (fun b i j => x b _ _)). intros i j. apply H.
Qed.
Lemma convolved_fol (x : (nat -> R) -> nat -> nat -> R) T K ps n padding mode : (forall i j, Fol (fun b => x b i j) (T i j)) ->
  tabulated (fun b => convolved (x b) K ps n padding mode) (t_convolved T K ps n padding mode) (grid_side mode n).
Proof.
  intros H. unfold convolved, t_convolved, grid_side. destruct (fft_size n) as [s0 s1] eqn:ES. destruct (String.eqb mode "fft") eqn:EM.
  - apply String.eqb_eq in EM. subst mode. change (String.eqb "fft" "conv2d") with false. cbv iota zeta.
    pose proof (padded_fol x T n padding H) as P. destruct (t_fft2_padded T n padding) as [U|e]; cbn [bind tabulated].
    + destruct P as (f & Ef & Hf). split; [reflexivity|]. eexists. split; [intros b; rewrite Ef; cbn [bind]; reflexivity|].
      intros i j. unfold unpad_fft, t_unpad_fft. rewrite ES. apply fol_mul; [|apply fol_cst].
      apply (rel_irfft2 Fol fol_cst fol_add fol_sub fol_mul fol_neg (fun b k l => Cmult (f b k l) (k_tilde K k l))). intros k l.
      apply (relc_mul Fol fol_add fol_sub fol_mul); [apply Hf|split; apply fol_cst].
    + intros b. rewrite P. reflexivity.
  - destruct (String.eqb mode "conv2d"); cbv zeta; cbn [tabulated]; [|reflexivity].
    split; [reflexivity|]. eexists. split; [reflexivity|]. intros i j. apply fol_mul; [|apply fol_cst].
    apply (rel_conv2d Fol fol_cst fol_add fol_mul _ _ (fun b => k_raw K)); [intros; apply fol_cst|]. intros; unfold flip2; apply H.
Qed.

(** ** reading the map *)
Lemma axis_ok seed (p c : nat) ps n m : (0 < m)%nat -> INR n * ps <> 0 -> fine_at seed a p c ps n m ->
  (ok a seed (Div (Sub (Var p) (Var c)) (Cst (INR n * ps / 2))) /\ settled_at a seed m (Div (Sub (Var p) (Var c)) (Cst (INR n * ps / 2)))) /\
  ok a seed (Mul (Div (Sub (Var p) (Var c)) (Cst (INR n * ps))) (Cst 2)) /\ settled_at a seed m (Mul (Div (Sub (Var p) (Var c)) (Cst (INR n * ps))) (Cst 2)).
Proof.
  intros Hm Hf H. pose proof (lt_0_INR m Hm) as Pm. revert Hf H. unfold fine_at. generalize (INR n * ps). intros F Hf H.
  assert (H2 : F / 2 <> 0) by lra.
  assert (HP : F / INR m <> 0) by (apply Rmult_integral_contrapositive_currified; [exact Hf|apply Rinv_neq_0_compat; lra]).
  split; split.
  - apply ok_div; [apply ok_sub; apply ok_var|apply ok_cst|exact H2].
  - destruct H as [(S1 & S2 & _)|H]; [left; cbn [jvp snd]; rewrite S1, S2; reflexivity|right].
    pose proof (smooth_settled m (a p) (a c) _ Hm HP H) as Q. cbv zeta in Q. cbn [ev].
    replace ((a p - a c) / (F / 2)) with ((a p - a c) / (F / INR m * INR m) * 2) by (field; split; [exact Hf|lra]). exact Q.
  - apply ok_mul; [|apply ok_cst]. apply ok_div; [apply ok_sub; apply ok_var|apply ok_cst|exact Hf].
  - destruct H as [(S1 & S2 & _)|H]; [left; cbn [jvp snd]; rewrite S1, S2; reflexivity|right].
    pose proof (smooth_settled m (a p) (a c) _ Hm HP H) as Q. cbv zeta in Q. cbn [ev].
    replace ((a p - a c) / F * 2) with ((a p - a c) / (F / INR m * INR m) * 2) by (field; split; [exact Hf|lra]). exact Q.
Qed.
Lemma read_fol m (f : (nat -> R) -> nat -> nat -> R) T (X Y : (nat -> R) -> R) x y : (forall i j, Fol (fun b => f b i j) (T i j)) ->
  (forall b, X b = ev b x) -> (forall b, Y b = ev b y) -> tame a x -> tame a y ->
  exists e, t_interp2d (2, 1, 1)%nat m m T x y "zeros" = Ok e /\
    (forall b, interp2d (2, 1, 1)%nat m m (f b) (X b) (Y b) "linear" "zeros" = Ok (ev b e)) /\ tame a e /\
    forall seed, ok a seed x -> ok a seed y -> settled_at a seed m x -> settled_at a seed m y -> ok a seed e.
Proof.
  intros H EX EY TX TY. destruct (t_interp2d (2, 1, 1)%nat m m T x y "zeros") as [e|] eqn:E; [|discriminate E]. exists e. split; [reflexivity|]. split; [|split].
  - intros b. rewrite EX, EY. replace (f b) with (fun i j => ev b (T i j)).
    + rewrite interp2d_ev, E. reflexivity.
    + apply functional_extensionality; intros i. apply functional_extensionality; intros j. symmetry. apply (proj1 (H i j)).
  - refine (tm_interp2d a _ _ _ _ _ _ _ _ TX TY _ E). intros i j. apply (H i j).
  - intros seed Ox Oy Sx Sy. refine (ok_interp2d a seed _ _ _ _ _ _ _ _ Ox Oy Sx Sy _ E). intros i j. apply (H i j).
Qed.

Variable L : pixconv.
Notation n := (pc_n L).
Notation ps := (pc_pixelscale L).
Hypothesis Hn : (0 < n)%nat.
Hypothesis Hp : ps <> 0.
Notation side := (grid_side (pc_mode L) n).
Notation tmap := (image_args Var 5 n).
Lemma side_pos : (0 < side)%nat.
Proof. unfold grid_side. destruct (String.eqb _ _); lia. Qed.
Lemma fov_nz : INR n * ps <> 0.
Proof. pose proof (lt_0_INR n Hn). apply Rmult_integral_contrapositive_currified; lra. Qed.
Lemma scaled_fol i j : Fol (fun b => image_args b 5 n i j * b@4) (Mul (tmap i j) (V 4)).
Proof. apply (fol_mul (fun b => image_args b 5 n i j)); apply fol_var. Qed.
Lemma axis_tm p c : tame a (Div (Sub (Var p) (Var c)) (Cst (INR n * ps / 2))) /\ tame a (Mul (Div (Sub (Var p) (Var c)) (Cst (INR n * ps))) (Cst 2)).
Proof. pose proof fov_nz. cbn [tame ev]. repeat split; auto; lra. Qed.
Lemma sample_fol (M : (nat -> R) -> result (nat * (nat -> nat -> R))) t T m : tabulated M t side -> t = Ok (m, T) ->
  exists e, t_sample (V 2) (V 3) (INR n * ps) (m, T) (V 0) (V 1) = Ok e /\
    (forall b, bind (M b) (fun m => sample b@2 b@3 (INR n * ps) m b@0 b@1) = Ok (ev b e)) /\ tame a e /\
    forall seed, fine_at seed a 0 2 ps n side -> fine_at seed a 1 3 ps n side -> ok a seed e.
Proof.
  intros H E. subst t. destruct H as (-> & f & EM & HF).
  destruct (read_fol side f T (fun b => (b@0 - b@2) / (INR n * ps / 2)) (fun b => (b@1 - b@3) / (INR n * ps / 2)) (Div (Sub (V 0) (V 2)) (Cst (INR n * ps / 2))) (Div (Sub (V 1) (V 3)) (Cst (INR n * ps / 2))) HF
    (fun b => eq_refl) (fun b => eq_refl) (proj1 (axis_tm 0 2)) (proj1 (axis_tm 1 3))) as (e & Ee & EV & TE & OE).
  exists e. split; [exact Ee|]. split; [|split; [exact TE|]].
  - intros b. rewrite EM. cbn [bind]. apply EV.
  - intros seed F0 F1. destruct (axis_ok seed 0 2 ps n side side_pos fov_nz F0) as [[A B] _]. destruct (axis_ok seed 1 3 ps n side side_pos fov_nz F1) as [[C D] _]. apply OE; assumption.
Qed.

Notation defl := (fun a : nat -> R => pc_reduced_deflection_angle L a@2 a@3 (image_args a 5 n) a@4 a@0 a@1).
Notation tdefl := (t_pc_deflection L (V 2) (V 3) tmap (V 4) (V 0) (V 1)).
Notation pot := (fun a : nat -> R => pc_potential L a@2 a@3 (image_args a 5 n) a@4 a@0 a@1).
Notation tpot := (t_pc_potential L (V 2) (V 3) tmap (V 4) (V 0) (V 1)).
Notation kap := (fun a : nat -> R => pc_convergence L a@2 a@3 (image_args a 5 n) a@4 a@0 a@1).
Notation tkap := (t_pc_convergence L (V 2) (V 3) tmap (V 4) (V 0) (V 1)).

Lemma defl_fol v : defl a = Ok v -> exists e0 e1, tdefl = Ok (e0, e1) /\ (forall b, defl b = Ok (ev b e0, ev b e1)) /\ (tame a e0 /\ tame a e1) /\
  forall seed, fine_at seed a 0 2 ps n side -> fine_at seed a 1 3 ps n side -> ok a seed e0 /\ ok a seed e1.
Proof.
  intros EV. unfold pc_reduced_deflection_angle, reduced_deflection_angle_pixelated_convergence in *. unfold t_pc_deflection. cbv zeta.
  pose proof (convolved_fol (fun b i j => image_args b 5 n i j * b@4) (fun i j => Mul (tmap i j) (V 4)) (pc_ax L) ps n (pc_padding L) (pc_mode L) scaled_fol) as Tx.
  pose proof (convolved_fol (fun b i j => image_args b 5 n i j * b@4) (fun i j => Mul (tmap i j) (V 4)) (pc_ay L) ps n (pc_padding L) (pc_mode L) scaled_fol) as Ty.
  destruct (t_convolved _ (pc_ax L) ps n (pc_padding L) (pc_mode L)) as [[mx Mx]|ex] eqn:Ex; [|cbn [tabulated] in Tx; rewrite Tx in EV; discriminate EV].
  destruct (t_convolved _ (pc_ay L) ps n (pc_padding L) (pc_mode L)) as [[my My]|ey] eqn:Ey;
    [|cbn [tabulated] in Ty; rewrite Ty in EV; destruct Tx as (_ & f & Ef & _); cbv beta in Ef; rewrite Ef in EV; discriminate EV].
  destruct (sample_fol _ _ Mx mx Tx eq_refl) as (e0 & E0 & V0 & T0 & O0). destruct (sample_fol _ _ My my Ty eq_refl) as (e1 & E1 & V1 & T1 & O1).
  exists e0, e1. cbn [bind]. rewrite E0. cbn [bind]. rewrite E1. split; [reflexivity|]. split; [|split; [split; assumption|intros; split; [apply O0|apply O1]; assumption]].
  intros b. specialize (V0 b). specialize (V1 b). destruct Tx as (_ & fx & EFx & _). destruct Ty as (_ & fy & EFy & _). cbv beta in *. rewrite EFx in V0 |- *. rewrite EFy in V1 |- *.
  cbn [bind] in *. rewrite V0. cbn [bind]. rewrite V1. reflexivity.
Qed.
Lemma pot_fol v : pot a = Ok v -> exists e, tpot = Ok e /\ (forall b, pot b = Ok (ev b e)) /\ tame a e /\
  forall seed, fine_at seed a 0 2 ps n side -> fine_at seed a 1 3 ps n side -> ok a seed e.
Proof.
  intros EV. unfold pc_potential, potential_pixelated_convergence in *. unfold t_pc_potential. cbv zeta.
  pose proof (convolved_fol (fun b i j => image_args b 5 n i j * b@4) (fun i j => Mul (tmap i j) (V 4)) (pc_pot L) ps n (pc_padding L) (pc_mode L) scaled_fol) as Tx.
  destruct (t_convolved _ (pc_pot L) ps n (pc_padding L) (pc_mode L)) as [[mx Mx]|ex] eqn:Ex; [|cbn [tabulated] in Tx; rewrite Tx in EV; discriminate EV].
  destruct (sample_fol _ _ Mx mx Tx eq_refl) as (e0 & E0 & V0 & T0 & O0). exists e0. cbn [bind]. auto.
Qed.
Lemma kap_fol : exists e, tkap = Ok e /\ (forall b, kap b = Ok (ev b e)) /\ tame a e /\
  forall seed, fine_at seed a 0 2 ps n n -> fine_at seed a 1 3 ps n n -> ok a seed e.
Proof.
  destruct (read_fol n (fun b i j => image_args b 5 n i j * b@4) (fun i j => Mul (tmap i j) (V 4)) (fun b => (b@0 - b@2) / (INR n * ps) * 2) (fun b => (b@1 - b@3) / (INR n * ps) * 2)
    (Mul (Div (Sub (V 0) (V 2)) (Cst (INR n * ps))) (Cst 2)) (Mul (Div (Sub (V 1) (V 3)) (Cst (INR n * ps))) (Cst 2)) scaled_fol
    (fun b => eq_refl) (fun b => eq_refl) (proj2 (axis_tm 0 2)) (proj2 (axis_tm 1 3))) as (e & Ee & EV & TE & OE).
  exists e. split; [exact Ee|]. split; [exact EV|]. split; [exact TE|].
  intros seed F0 F1. destruct (axis_ok seed 0 2 ps n n Hn fov_nz F0) as [_ [A B]]. destruct (axis_ok seed 1 3 ps n n Hn fov_nz F1) as [_ [C D]]. apply OE; assumption.
Qed.

Lemma ad_of_ev seed (F : (nat -> R) -> R) e : (forall b, F b = ev b e) -> ok a seed e -> ad_exact F e a seed.
Proof. intros E O. apply ad_of_loc; [exact O|]. apply filter_forall. intros t. apply E. Qed.
Lemma fine_one_of req k p c n' m : fine_for req a p c ps n' m -> fine_at (one_of req k) a p c ps n' m.
Proof. intros [H|H]; [left; apply one_of_quiet, H|right; exact H]. Qed.
Lemma grad_of_ev req (F : (nat -> R) -> R) e : (forall b, F b = ev b e) -> tame a e -> (forall k, ok a (one_of req k) e) -> grad_exact F e a req.
Proof. intros E T O. apply grad_exact_of; [exact T|]. intros k _. apply ad_of_ev; auto. Qed.

Lemma pc_defl_ad v seed : defl a = Ok v -> fine_at seed a 0 2 ps n side -> fine_at seed a 1 3 ps n side -> ad_exact2_ret defl tdefl a seed.
Proof.
  intros EV F0 F1. destruct (defl_fol v EV) as (e0 & e1 & ET & ER & _ & OK). destruct (OK seed F0 F1) as [O0 O1].
  exists (e0, e1), v. split; [exact ET|]. split; [exact EV|]. split; apply ad_of_ev; try assumption; intros b; rewrite ER; reflexivity.
Qed.
Lemma pc_defl_grad v req : defl a = Ok v -> fine_for req a 0 2 ps n side -> fine_for req a 1 3 ps n side -> grad_exact2_ret defl tdefl a req.
Proof.
  intros EV F0 F1. destruct (defl_fol v EV) as (e0 & e1 & ET & ER & [T0 T1] & OK).
  exists (e0, e1), v. split; [exact ET|]. split; [exact EV|]. split; apply grad_of_ev; try assumption; try (intros b; rewrite ER; reflexivity); intros k; apply OK; apply fine_one_of; assumption.
Qed.
Lemma pc_pot_ad v seed : pot a = Ok v -> fine_at seed a 0 2 ps n side -> fine_at seed a 1 3 ps n side -> ad_exact_ret pot tpot a seed.
Proof.
  intros EV F0 F1. destruct (pot_fol v EV) as (e & ET & ER & _ & OK).
  exists e, v. split; [exact ET|]. split; [exact EV|]. apply ad_of_ev; [intros b; rewrite ER; reflexivity|apply OK; assumption].
Qed.
Lemma pc_pot_grad v req : pot a = Ok v -> fine_for req a 0 2 ps n side -> fine_for req a 1 3 ps n side -> grad_exact_ret pot tpot a req.
Proof.
  intros EV F0 F1. destruct (pot_fol v EV) as (e & ET & ER & T & OK).
  exists e, v. split; [exact ET|]. split; [exact EV|]. apply grad_of_ev; [intros b; rewrite ER; reflexivity|exact T|]. intros k; apply OK; apply fine_one_of; assumption.
Qed.
Lemma pc_kap_ad seed : fine_at seed a 0 2 ps n n -> fine_at seed a 1 3 ps n n -> ad_exact_ret kap tkap a seed.
Proof.
  intros F0 F1. destruct kap_fol as (e & ET & ER & _ & OK).
  exists e, (ev a e). split; [exact ET|]. split; [apply ER|]. apply ad_of_ev; [intros b; rewrite ER; reflexivity|apply OK; assumption].
Qed.
Lemma pc_kap_grad req : fine_for req a 0 2 ps n n -> fine_for req a 1 3 ps n n -> grad_exact_ret kap tkap a req.
Proof.
  intros F0 F1. destruct kap_fol as (e & ET & ER & T & OK).
  exists e, (ev a e). split; [exact ET|]. split; [apply ER|]. apply grad_of_ev; [intros b; rewrite ER; reflexivity|exact T|]. intros k; apply OK; apply fine_one_of; assumption.
Qed.
End Pc.
