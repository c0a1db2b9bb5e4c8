(** * Several lenses are differentiated exactly when each of them is *)
From Coq Require Import Reals Lra Lia Arith ZArith List Bool FunctionalExtensionality.
From Coquelicot Require Import Coquelicot.
From Verif Require Import Py RealFun Derive1 Const_Model Cosmo_Model LensBase_Model LensBasic_Model Multiplane_Model Ad_Model Ad_Spec Ad_Proofs AdLens_Model AdLens_Proofs AdLens2_Proofs
  Rev_Model Rev_Spec Rev_Proofs RevLens_Proofs AdSim_Spec AdSim_Proofs AdMulti_Model AdMulti_Spec.
Import ListNotations.
Local Open Scope R_scope.
Local Notation env := (nat -> R).

Section Rel.
Variable Rel : (env -> R) -> expr -> Prop.
Variable a : env.
Variable Near : (env -> Prop) -> Prop.
Hypothesis near_all : forall P : env -> Prop, (forall b, P b) -> Near P.
Hypothesis near_and : forall P Q, Near P -> Near Q -> Near (fun b => P b /\ Q b).
Hypothesis near_imp : forall (P Q : env -> Prop), (forall b, P b -> Q b) -> Near P -> Near Q.
Hypothesis near_a : forall P : env -> Prop, Near P -> P a.
Hypothesis near_nz : forall f e, Rel f e -> f a <> 0 -> Near (fun b => f b <> 0).
Hypothesis rel_loc : forall f g e, Near (fun b => f b = g b) -> Rel f e -> Rel g e.
Hypothesis rel_cst : forall r, Rel (fun _ => r) (Cst r).
Hypothesis rel_add : forall f g d e, Rel f d -> Rel g e -> Rel (fun b => f b + g b) (Add d e).
Hypothesis rel_sub : forall f g d e, Rel f d -> Rel g e -> Rel (fun b => f b - g b) (Sub d e).
Hypothesis rel_mul : forall f g d e, Rel f d -> Rel g e -> Rel (fun b => f b * g b) (Mul d e).
Hypothesis rel_div : forall f g d e, Rel f d -> Rel g e -> g a <> 0 -> Rel (fun b => f b / g b) (Div d e).
Hypothesis rel_neg : forall f d, Rel f d -> Rel (fun b => - f b) (Neg d).
Hypothesis rel_sq : forall f d, Rel f d -> Rel (fun b => f b ^ 2) (Pow d 2).
Lemma rel_ext f g e : (forall b, f b = g b) -> Rel f e -> Rel g e.
Proof. intros H. apply rel_loc, near_all, H. Qed.

(** ** one plane *)
Lemma sum_follows (Q : traced -> env -> R -> R -> R) (T : traced -> expr -> expr -> expr) (Ls : list traced) (ok : R -> R -> Prop) :
  (forall L, In L Ls -> quantity_follows Rel a ok (Q L) (T L)) ->
  forall f0 t0, quantity_follows Rel a ok f0 t0 ->
  quantity_follows Rel a ok (fun b x y => fold_left (fun s L => s + Q L b x y) Ls (f0 b x y)) (fun x y => fold_left (fun s L => Add s (T L x y)) Ls (t0 x y)).
Proof.
  induction Ls as [|L Ls IH]; intros H f0 t0 H0; [exact H0|]. cbn [fold_left].
  apply (IH (fun M HM => H M (or_intror HM)) (fun b x y => f0 b x y + Q L b x y) (fun x y => Add (t0 x y) (T L x y))).
  intros x y dx dy Hx Hy K. apply (rel_add (fun b => f0 b (x b) (y b)) (fun b => Q L b (x b) (y b))); [apply H0; assumption|apply (H L (or_introl eq_refl)); assumption].
Qed.
Lemma fold_map {A B C} (g : A -> B) (f : C -> B -> C) l : forall c, fold_left f (map g l) c = fold_left (fun s x => f s (g x)) l c.
Proof. induction l as [|x l IH]; intros c; [reflexivity|apply IH]. Qed.
Lemma fold_pairs {A} (f : A -> R * R) l : forall u v,
  fold_left (fun s x => (fst s + fst (f x), snd s + snd (f x))) l (u, v) = (fold_left (fun s x => s + fst (f x)) l u, fold_left (fun s x => s + snd (f x)) l v).
Proof. induction l as [|x l IH]; intros u v; [reflexivity|apply IH]. Qed.
Lemma fold_tpairs {A} (f : A -> expr * expr) l : forall u v,
  fold_left (fun s x => (Add (fst s) (fst (f x)), Add (snd s) (snd (f x)))) l (u, v) = (fold_left (fun s x => Add s (fst (f x))) l u, fold_left (fun s x => Add s (snd (f x))) l v).
Proof. induction l as [|x l IH]; intros u v; [reflexivity|apply IH]. Qed.
Lemma weaken (ok ok' : R -> R -> Prop) F T : (forall x y, ok' x y -> ok x y) -> quantity_follows Rel a ok F T -> quantity_follows Rel a ok' F T.
Proof. intros H Q x y dx dy Hx Hy K. apply Q; auto. Qed.
Lemma fold_left_ext {A B} (f g : A -> B -> A) l : (forall s x, f s x = g s x) -> forall s, fold_left f l s = fold_left g l s.
Proof. intros H. induction l as [|x l IH]; intros s; [reflexivity|]. cbn [fold_left]. rewrite H. apply IH. Qed.
Lemma sp_defl Ls b x y : singleplane_deflection (map (fun L => lens_at L b) Ls) x y =
  (fold_left (fun s L => s + fst (reduced_deflection_angle (lens_at L b) x y)) Ls 0, fold_left (fun s L => s + snd (reduced_deflection_angle (lens_at L b) x y)) Ls 0).
Proof.
  unfold singleplane_deflection. rewrite fold_map. rewrite <- (fold_pairs (fun L => reduced_deflection_angle (lens_at L b) x y)). apply fold_left_ext. intros s L.
  destruct (reduced_deflection_angle (lens_at L b) x y). reflexivity.
Qed.
Lemma t_sp_defl Ls x y : t_singleplane_deflection (map program Ls) x y =
  (fold_left (fun s L => Add s (fst (t_deflection (program L) x y))) Ls (Cst 0), fold_left (fun s L => Add s (snd (t_deflection (program L) x y))) Ls (Cst 0)).
Proof.
  unfold t_singleplane_deflection. rewrite fold_map. rewrite <- (fold_tpairs (fun L => t_deflection (program L) x y)). apply fold_left_ext. intros s L.
  destruct (t_deflection (program L) x y). reflexivity.
Qed.
Lemma group_deflects z Ls : (forall L, In L Ls -> deflects Rel a L) -> deflects Rel a (plane_of z Ls).
Proof.
  intros H. split; [reflexivity|]. split; intros x y dx dy Hx Hy K; cbn [plane_of lens_at program singleplane t_singleplane reduced_deflection_angle t_deflection fst snd].
  - rewrite t_sp_defl. eapply rel_ext; [intros b; rewrite sp_defl; reflexivity|]. cbn [fst].
    refine (sum_follows (fun L b x y => fst (reduced_deflection_angle (lens_at L b) x y)) (fun L x y => fst (t_deflection (program L) x y)) Ls (all_fine Ls) _ (fun _ _ _ => 0) (fun _ _ => Cst 0) _ x y dx dy Hx Hy K).
    + intros L HL. apply (weaken (fine L)); [intros u v A; apply A, HL|]. apply (H L HL).
    + intros u v du dv _ _ _. apply rel_cst.
  - rewrite t_sp_defl. eapply rel_ext; [intros b; rewrite sp_defl; reflexivity|]. cbn [snd].
    refine (sum_follows (fun L b x y => snd (reduced_deflection_angle (lens_at L b) x y)) (fun L x y => snd (t_deflection (program L) x y)) Ls (all_fine Ls) _ (fun _ _ _ => 0) (fun _ _ => Cst 0) _ x y dx dy Hx Hy K).
    + intros L HL. apply (weaken (fine L)); [intros u v A; apply A, HL|]. apply (H L HL).
    + intros u v du dv _ _ _. apply rel_cst.
Qed.
Lemma group_delays z Ls : (forall L, In L Ls -> delays Rel a L) -> delays Rel a (plane_of z Ls).
Proof.
  intros H x y dx dy Hx Hy K. cbn [plane_of lens_at program singleplane t_singleplane potential t_psi]. unfold singleplane_potential, t_singleplane_potential. rewrite fold_map.
  eapply rel_ext; [intros b; symmetry; apply fold_map|].
  refine (sum_follows (fun L b x y => potential (lens_at L b) x y) (fun L x y => t_psi (program L) x y) Ls (all_fine Ls) _ (fun _ _ _ => 0) (fun _ _ => Cst 0) _ x y dx dy Hx Hy K).
  - intros L HL. apply (weaken (fine L)); [intros u v A; apply A, HL|]. apply (H L HL).
  - intros u v du dv _ _ _. apply rel_cst.
Qed.
Lemma group_weighs z Ls : (forall L, In L Ls -> weighs Rel a L) -> weighs Rel a (plane_of z Ls).
Proof.
  intros H x y dx dy Hx Hy K. cbn [plane_of lens_at program singleplane t_singleplane convergence t_kappa]. unfold singleplane_convergence, t_singleplane_convergence. rewrite fold_map.
  eapply rel_ext; [intros b; symmetry; apply fold_map|].
  refine (sum_follows (fun L b x y => convergence (lens_at L b) x y) (fun L x y => t_kappa (program L) x y) Ls (all_fine Ls) _ (fun _ _ _ => 0) (fun _ _ => Cst 0) _ x y dx dy Hx Hy K).
  - intros L HL. apply (weaken (fine L)); [intros u v A; apply A, HL|]. apply (H L HL).
  - intros u v du dv _ _ _. apply rel_cst.
Qed.

(** ** distances *)
Section Cosmology.
Variables (cd tcd : env -> R -> R) (t_cd t_tcd : R -> expr) (z_s : R).
Section OneLens.
Variable L : traced.
Hypothesis HD : deflects Rel a L.
Hypotheses (Rs : Rel (fun b => cd b z_s) (t_cd z_s)) (Rl : Rel (fun b => cd b (redshift L)) (t_cd (redshift L))).
Hypotheses (Z : 1 + z_s <> 0) (Ns : cd a z_s <> 0) (Nl : cd a (redshift L) <> cd a z_s).
Lemma rel_add_s : Rel (fun b => angular_diameter_distance (cd b) z_s) (t_add t_cd z_s).
Proof. apply (rel_div (fun b => cd b z_s) (fun _ => 1 + z_s)); [exact Rs|apply rel_cst|exact Z]. Qed.
Lemma rel_add2_s : Rel (fun b => angular_diameter_distance_z1z2 (cd b) (redshift L) z_s) (t_add2 t_cd (redshift L) z_s).
Proof. apply (rel_div (fun b => cd b z_s - cd b (redshift L)) (fun _ => 1 + z_s)); [apply rel_sub; assumption|apply rel_cst|exact Z]. Qed.
Lemma add2_nz : angular_diameter_distance_z1z2 (cd a) (redshift L) z_s <> 0.
Proof. unfold angular_diameter_distance_z1z2, comoving_distance_z1z2, Rdiv. apply Rmult_integral_contrapositive_currified; [lra|apply Rinv_neq_0_compat, Z]. Qed.
Lemma physical_follows : vector_follows Rel a (fine L) (fun b => physical_deflection_angle (cd b) (lens_at L b) z_s) (t_physical_deflection t_cd (program L) z_s).
Proof.
  destruct HD as [HZ [H1 H2]]. assert (RR := rel_div _ _ _ _ rel_add_s rel_add2_s add2_nz).
  assert (VB : forall b x y, physical_deflection_angle (cd b) (lens_at L b) z_s x y =
    (angular_diameter_distance (cd b) z_s / angular_diameter_distance_z1z2 (cd b) (redshift L) z_s * fst (reduced_deflection_angle (lens_at L b) x y),
     angular_diameter_distance (cd b) z_s / angular_diameter_distance_z1z2 (cd b) (redshift L) z_s * snd (reduced_deflection_angle (lens_at L b) x y))).
  { intros b x y. unfold physical_deflection_angle. rewrite HZ. destruct (reduced_deflection_angle (lens_at L b) x y). reflexivity. }
  assert (VT : forall x y, t_physical_deflection t_cd (program L) z_s x y =
    (Mul (Div (t_add t_cd z_s) (t_add2 t_cd (redshift L) z_s)) (fst (t_deflection (program L) x y)), Mul (Div (t_add t_cd z_s) (t_add2 t_cd (redshift L) z_s)) (snd (t_deflection (program L) x y)))).
  { intros x y. unfold t_physical_deflection. destruct (t_deflection (program L) x y). reflexivity. }
  split; intros x y dx dy Hx Hy K; rewrite VT; (eapply rel_ext; [intros b; rewrite VB; reflexivity|]); cbn [fst snd].
  - apply (rel_mul (fun b => angular_diameter_distance (cd b) z_s / angular_diameter_distance_z1z2 (cd b) (redshift L) z_s)); [exact RR|apply H1; assumption].
  - apply (rel_mul (fun b => angular_diameter_distance (cd b) z_s / angular_diameter_distance_z1z2 (cd b) (redshift L) z_s)); [exact RR|apply H2; assumption].
Qed.
Hypothesis HP : delays Rel a L.
Hypothesis Zl : 1 + redshift L <> 0.
Lemma rel_days : Rel (fun b => arcsec2_to_days (cd b) z_s (redshift L)) (t_arcsec2_to_days t_cd z_s (redshift L)).
Proof.
  assert (D := days_pos). unfold t_arcsec2_to_days. eapply rel_ext; [intros b; unfold arcsec2_to_days, time_delay_arcsec2_to_days; reflexivity|].
  apply (rel_div _ (fun _ => days_to_seconds)); [|apply rel_cst|lra]. apply (rel_mul _ (fun _ => arcsec_to_rad ^ 2)); [|apply rel_cst].
  apply (rel_div _ (fun b => angular_diameter_distance_z1z2 (cd b) (redshift L) z_s)); [|exact rel_add2_s|exact add2_nz].
  apply (rel_mul _ (fun b => angular_diameter_distance (cd b) (redshift L))).
  - apply (rel_mul (fun _ => (1 + redshift L) / c_Mpc_s)); [apply rel_cst|exact rel_add_s].
  - apply (rel_div (fun b => cd b (redshift L)) (fun _ => 1 + redshift L)); [exact Rl|apply rel_cst|exact Zl].
Qed.
Lemma delay_one sh ge : quantity_follows Rel a (fine L) (fun b x y => time_delay (cd b) (lens_at L b) z_s x y sh ge) (fun x y => t_time_delay t_cd (program L) z_s x y sh ge).
Proof.
  destruct HD as [HZ [H1 H2]]. intros x y dx dy Hx Hy K.
  set (P := fun b : env => if sh then 0 - potential (lens_at L b) (x b) (y b) else 0).
  assert (V : forall b, time_delay (cd b) (lens_at L b) z_s (x b) (y b) sh ge = arcsec2_to_days (cd b) z_s (redshift L) *
    (if ge then P b + 1 / 2 * (fst (reduced_deflection_angle (lens_at L b) (x b) (y b)) ^ 2 + snd (reduced_deflection_angle (lens_at L b) (x b) (y b)) ^ 2) else P b)).
  { intros b. unfold time_delay. rewrite HZ. destruct (reduced_deflection_angle (lens_at L b) (x b) (y b)). reflexivity. }
  apply (rel_ext (fun b => arcsec2_to_days (cd b) z_s (redshift L) *
    (if ge then P b + 1 / 2 * (fst (reduced_deflection_angle (lens_at L b) (x b) (y b)) ^ 2 + snd (reduced_deflection_angle (lens_at L b) (x b) (y b)) ^ 2) else P b))); [intros b; symmetry; apply V|].
  unfold t_time_delay. cbv zeta. apply (rel_mul (fun b => arcsec2_to_days (cd b) z_s (redshift L))); [exact rel_days|].
  assert (P0 : Rel P (if sh then Sub (Cst 0) (t_psi (program L) dx dy) else Cst 0)).
  { unfold P. destruct sh; [|apply rel_cst]. apply (rel_sub (fun _ => 0)); [apply rel_cst|]. apply HP; assumption. }
  destruct ge; [|exact P0]. specialize (H1 x y dx dy Hx Hy K). specialize (H2 x y dx dy Hx Hy K).
  rewrite (surjective_pairing (t_deflection (program L) dx dy)).
  apply rel_add; [exact P0|]. apply (rel_mul (fun _ => 1 / 2)); [apply rel_cst|]. apply (rel_add (fun b => _ ^ 2) (fun b => _ ^ 2)); [exact (rel_sq _ _ H1)|exact (rel_sq _ _ H2)].
Qed.
End OneLens.

(** ** several planes *)
Variable Ls : list traced.
Hypothesis HD : forall L, In L Ls -> deflects Rel a L.
Hypothesis Rcd : forall z, In z (z_s :: map redshift Ls) -> Rel (fun b => cd b z) (t_cd z).
Hypothesis Rtcd : forall z, In z (z_s :: map redshift Ls) -> Rel (fun b => tcd b z) (t_tcd z).
Hypothesis DF : distances_fine cd tcd a Ls z_s.
Notation lenses b := (map (fun L => lens_at L b) Ls).
Notation programs := (map program Ls).
Lemma zls b : map z_l (lenses b) = map redshift Ls.
Proof. rewrite map_map. apply map_ext_in. intros L HL. apply (HD L HL). Qed.
Lemma tzls : map t_z programs = map redshift Ls.
Proof. rewrite map_map. reflexivity. Qed.

Section Flags.
Variables sh ge : bool.
Hypothesis HP : (sh || ge)%bool = true -> (forall L, In L Ls -> delays Rel a L) /\ planes_apart tcd a Ls z_s.
(** the state after some planes *)
Definition st_follows (st : env -> mp_state) (t : t_state) : Prop :=
  let '(TX, TY, Tx, Ty, TT) := t in
  Rel (fun b => fst (fst (fst (fst (st b))))) TX /\ Rel (fun b => snd (fst (fst (fst (st b))))) TY /\ Rel (fun b => snd (fst (fst (st b)))) Tx /\ Rel (fun b => snd (fst (st b))) Ty /\
  exists td, Near (fun b => snd (st b) = Some (td b)) /\ Rel td TT.
Lemma rel_odiv f g d e : Rel f d -> Rel g e -> g a <> 0 -> Near (fun b => odiv (f b) (g b) = Some (f b / g b)).
Proof. intros _ Hg N. apply (near_imp (fun b => g b <> 0)); [|apply (near_nz g e); assumption]. intros b B. unfold odiv. destruct (Req_EM_T (g b) 0); [contradiction|reflexivity]. Qed.
Lemma delay_step L z_next X Y TX TY ax ay tax tay : In L Ls -> (sh || ge)%bool = true -> In z_next (z_s :: map redshift Ls) -> z_next <> redshift L ->
  Rel X TX -> Rel Y TY -> Rel ax tax -> Rel ay tay -> fine L (X a * rad_to_arcsec / tcd a (redshift L)) (Y a * rad_to_arcsec / tcd a (redshift L)) ->
  exists td, Near (fun b => plane_delay sh ge (lens_at L b) (tcd b (redshift L)) (tcd b z_next - tcd b (redshift L)) (tcd b z_s - tcd b (redshift L)) (tcd b z_next) (tcd b z_s) (X b) (Y b) (ax b) (ay b) = Some (td b)) /\
  Rel td (t_plane_delay sh ge (program L) (t_tcd (redshift L)) (t_tcd2 t_tcd (redshift L) z_next) (t_tcd2 t_tcd (redshift L) z_s) (t_tcd z_next) (t_tcd z_s) TX TY tax tay).
Proof.
  intros HL SG HN HNE RX RY Rax Ray HF. destruct (HP SG) as [HPs [ND AP]]. destruct DF as (Z & Ns & Nts & NL). destruct (NL L HL) as [NTL NCL]. destruct (HD L HL) as [HZ _].
  assert (IL : In (redshift L) (z_s :: map redshift Ls)) by (right; apply in_map, HL). assert (IS : In z_s (z_s :: map redshift Ls)) by (left; reflexivity).
  assert (NES : z_s <> redshift L). { intros E. apply NoDup_cons_iff in ND. apply (proj1 ND). rewrite E. apply in_map, HL. }
  assert (R1 := Rtcd _ IL). assert (R2 := Rtcd _ HN). assert (R3 := Rtcd _ IS).
  assert (RD : Rel (fun b => tcd b z_next - tcd b (redshift L)) (t_tcd2 t_tcd (redshift L) z_next)) by (apply rel_sub; assumption).
  assert (RI : Rel (fun b => tcd b z_s - tcd b (redshift L)) (t_tcd2 t_tcd (redshift L) z_s)) by (apply rel_sub; assumption).
  assert (ND1 : tcd a z_next - tcd a (redshift L) <> 0) by (assert (K := AP _ _ HN IL HNE); lra).
  assert (ND2 : tcd a z_s - tcd a (redshift L) <> 0) by (assert (K := AP _ _ IS IL NES); lra).
  assert (NTN : tcd a z_next <> 0). { destruct HN as [<-|HN]; [exact Nts|]. apply in_map_iff in HN. destruct HN as (M & <- & HM). apply (NL M HM). }
  assert (PC := c_Mpc_s_pos). assert (PD := days_pos).
  set (num := fun b : env => (1 + redshift L) * tcd b (redshift L) * tcd b z_next). set (den := fun b : env => (tcd b z_next - tcd b (redshift L)) * c_Mpc_s).
  set (bn := fun b : env => (tcd b z_next - tcd b (redshift L)) * tcd b z_s). set (bd := fun b : env => tcd b z_next * (tcd b z_s - tcd b (redshift L))).
  assert (Rnum : Rel num (Mul (Mul (Cst (1 + redshift L)) (t_tcd (redshift L))) (t_tcd z_next))) by (apply rel_mul; [apply (rel_mul (fun _ => 1 + redshift L)); [apply rel_cst|exact R1]|exact R2]).
  assert (Rden : Rel den (Mul (t_tcd2 t_tcd (redshift L) z_next) (Cst c_Mpc_s))) by (apply (rel_mul _ (fun _ => c_Mpc_s)); [exact RD|apply rel_cst]).
  assert (Rbn : Rel bn (Mul (t_tcd2 t_tcd (redshift L) z_next) (t_tcd z_s))) by (apply rel_mul; assumption).
  assert (Rbd : Rel bd (Mul (t_tcd z_next) (t_tcd2 t_tcd (redshift L) z_s))) by (apply rel_mul; assumption).
  assert (Nden : den a <> 0) by (unfold den; apply Rmult_integral_contrapositive_currified; [exact ND1|lra]).
  assert (Nbd : bd a <> 0) by (unfold bd; apply Rmult_integral_contrapositive_currified; assumption).
  set (tau := fun b => num b / den b / days_to_seconds).
  assert (Rtau := rel_div _ (fun _ => days_to_seconds) _ _ (rel_div _ _ _ _ Rnum Rden Nden) (rel_cst _) (Rgt_not_eq _ _ PD)). fold (tau) in Rtau.
  assert (Ru : Rel (fun b => X b * rad_to_arcsec / tcd b (redshift L)) (Div (Mul TX (Cst rad_to_arcsec)) (t_tcd (redshift L)))).
  { apply (rel_div (fun b => X b * rad_to_arcsec)); [|exact R1|exact NTL]. apply (rel_mul X (fun _ => rad_to_arcsec)); [exact RX|apply rel_cst]. }
  assert (Rv : Rel (fun b => Y b * rad_to_arcsec / tcd b (redshift L)) (Div (Mul TY (Cst rad_to_arcsec)) (t_tcd (redshift L)))).
  { apply (rel_div (fun b => Y b * rad_to_arcsec)); [|exact R1|exact NTL]. apply (rel_mul Y (fun _ => rad_to_arcsec)); [exact RY|apply rel_cst]. }
  assert (Rpsi := HPs L HL _ _ _ _ Ru Rv HF). cbv beta in Rpsi.
  assert (N1 := rel_odiv _ _ _ _ Rnum Rden Nden). assert (N2 := rel_odiv _ _ _ _ Rbn Rbd Nbd).
  exists (fun b => (if sh then (- tau b * (bn b / bd b) * arcsec_to_rad ^ 2) * potential (lens_at L b) (X b * rad_to_arcsec / tcd b (redshift L)) (Y b * rad_to_arcsec / tcd b (redshift L)) else 0) +
                   (if ge then (tau b * arcsec_to_rad ^ 2 * (1 / 2)) * (ax b ^ 2 + ay b ^ 2) else 0)). split.
  - apply (near_imp (fun b => odiv (num b) (den b) = Some (num b / den b) /\ odiv (bn b) (bd b) = Some (bn b / bd b))); [|apply near_and; assumption].
    intros b [B1 B2]. unfold plane_delay. rewrite HZ. unfold num, den in B1. rewrite B1. unfold bn, bd in B2. rewrite B2. destruct sh; reflexivity.
  - unfold t_plane_delay. cbv zeta. apply (rel_add (fun b => if sh then _ else 0) (fun b => if ge then _ else 0)).
    + destruct sh; [|apply rel_cst]. apply rel_mul; [|exact Rpsi]. apply (rel_mul _ (fun _ => arcsec_to_rad ^ 2)); [|apply rel_cst]. apply (rel_mul (fun b => - tau b) (fun b => bn b / bd b)); [apply rel_neg, Rtau|apply rel_div; assumption].
    + destruct ge; [|apply rel_cst]. apply rel_mul; [|apply rel_add; apply rel_sq; assumption]. apply (rel_mul _ (fun _ => 1 / 2)); [|apply rel_cst]. apply (rel_mul tau (fun _ => arcsec_to_rad ^ 2)); [exact Rtau|apply rel_cst].
Qed.
Definition zn (i last : nat) : result R := if Nat.eqb i last then Ok z_s else py_get (map redshift Ls) (i + 1).
Lemma zn_model b i last : z_next_of (lenses b) z_s i last = zn i last.
Proof. unfold z_next_of, zn. rewrite zls. reflexivity. Qed.
Lemma zn_traced i last : t_z_next programs z_s i last = zn i last.
Proof. unfold t_z_next, zn. rewrite tzls. reflexivity. Qed.
Lemma get_model b i : py_get (lenses b) i = match nth_error Ls i with Some L => Ok (lens_at L b) | None => Raise IndexError end.
Proof. unfold py_get. rewrite nth_error_map. destruct (nth_error Ls i); reflexivity. Qed.
Lemma get_traced i : py_get programs i = match nth_error Ls i with Some L => Ok (program L) | None => Raise IndexError end.
Proof. unfold py_get. rewrite nth_error_map. destruct (nth_error Ls i); reflexivity. Qed.
Lemma zn_next i last z L : zn i last = Ok z -> nth_error Ls i = Some L -> In z (z_s :: map redshift Ls) /\ ((sh || ge)%bool = true -> z <> redshift L).
Proof.
  unfold zn. intros E HL. assert (IL := nth_error_In _ _ HL). destruct (Nat.eqb i last).
  - injection E as <-. split; [left; reflexivity|]. intros SG E. destruct (HP SG) as [_ [ND _]]. apply NoDup_cons_iff in ND. apply (proj1 ND). rewrite E. apply in_map, IL.
  - unfold py_get in E. destruct (nth_error (map redshift Ls) (i + 1)) as [w|] eqn:W; [|discriminate]. injection E as ->. split; [right; apply (nth_error_In _ _ W)|].
    intros SG E. destruct (HP SG) as [_ [ND _]]. apply NoDup_cons_iff in ND. destruct ND as [_ ND]. rewrite NoDup_nth_error in ND.
    assert (K : (i + 1)%nat = i); [|lia]. apply ND; [apply nth_error_Some; rewrite W; discriminate|]. rewrite W, E, nth_error_map, HL. reflexivity.
Qed.
Lemma step_follows last i st t : st_follows st t ->
  (forall L, nth_error Ls i = Some L -> fine L (fst (fst (fst (fst (st a)))) * rad_to_arcsec / tcd a (redshift L)) (snd (fst (fst (fst (st a)))) * rad_to_arcsec / tcd a (redshift L))) ->
  match t_plane_step t_cd t_tcd programs z_s sh ge last (t_tcd z_s) i t with
  | Ok t' => exists st', (forall b, plane_step (cd b) (tcd b) (lenses b) z_s sh ge last (tcd b z_s) i (st b) = Ok (st' b)) /\ st_follows st' t' /\
      exists L z, nth_error Ls i = Some L /\ zn i last = Ok z /\
      let '(X, Y, tx, ty, _) := st a in
      let al := physical_deflection_angle (cd a) (lens_at L a) z_s (X * rad_to_arcsec / tcd a (redshift L)) (Y * rad_to_arcsec / tcd a (redshift L)) in
      let D := tcd a z - tcd a (redshift L) in
      fst (st' a) = (X + D * (tx - fst al) * arcsec_to_rad, Y + D * (ty - snd al) * arcsec_to_rad, tx - fst al, ty - snd al)
  | Raise e => forall b, plane_step (cd b) (tcd b) (lenses b) z_s sh ge last (tcd b z_s) i (st b) = Raise e
  end.
Proof.
  destruct t as [[[[TX TY] Tx] Ty] TT]. intros (RX & RY & Rx & Ry & td & Ntd & Rtd) HF.
  set (X := fun b => fst (fst (fst (fst (st b))))) in *. set (Y := fun b => snd (fst (fst (fst (st b))))) in *. set (x := fun b => snd (fst (fst (st b)))) in *. set (y := fun b => snd (fst (st b))) in *.
  set (T := fun b => snd (st b)) in *.
  assert (ST : forall b, st b = (X b, Y b, x b, y b, T b)) by (intros b; unfold X, Y, x, y, T; destruct (st b) as [[[[? ?] ?] ?] ?]; reflexivity).
  unfold t_plane_step. rewrite zn_traced. destruct (zn i last) as [z|e] eqn:EZ; cbn [bind]; [|intros b; rewrite ST; unfold plane_step; rewrite zn_model, EZ; reflexivity].
  rewrite get_traced. destruct (nth_error Ls i) as [L|] eqn:EL; cbn [bind]; [|intros b; rewrite ST; unfold plane_step; rewrite zn_model, EZ; cbn [bind]; rewrite get_model, EL; reflexivity].
  assert (HL := nth_error_In _ _ EL). destruct (zn_next i last z L EZ EL) as [IZ NZ]. specialize (HF L eq_refl). fold (X a) (Y a) in HF.
  destruct DF as (Z & Ns & Nts & NL). destruct (NL L HL) as [NTL NCL]. assert (HZ := proj1 (HD L HL)).
  assert (IL : In (redshift L) (z_s :: map redshift Ls)) by (right; apply in_map, HL). assert (IS : In z_s (z_s :: map redshift Ls)) by (left; reflexivity).
  destruct (physical_follows L (HD L HL) (Rcd _ IS) (Rcd _ IL) Z NCL) as [PF1 PF2].
  assert (Ru : Rel (fun b => X b * rad_to_arcsec / tcd b (redshift L)) (Div (Mul TX (Cst rad_to_arcsec)) (t_tcd (redshift L)))).
  { apply (rel_div (fun b => X b * rad_to_arcsec)); [|exact (Rtcd _ IL)|exact NTL]. apply (rel_mul X (fun _ => rad_to_arcsec)); [exact RX|apply rel_cst]. }
  assert (Rv : Rel (fun b => Y b * rad_to_arcsec / tcd b (redshift L)) (Div (Mul TY (Cst rad_to_arcsec)) (t_tcd (redshift L)))).
  { apply (rel_div (fun b => Y b * rad_to_arcsec)); [|exact (Rtcd _ IL)|exact NTL]. apply (rel_mul Y (fun _ => rad_to_arcsec)); [exact RY|apply rel_cst]. }
  specialize (PF1 _ _ _ _ Ru Rv HF). specialize (PF2 _ _ _ _ Ru Rv HF). cbv beta in PF1, PF2.
  change (t_z (program L)) with (redshift L). set (tal := t_physical_deflection t_cd (program L) z_s _ _) in *. rewrite (surjective_pairing tal). clearbody tal.
  set (al := fun b => physical_deflection_angle (cd b) (lens_at L b) z_s (X b * rad_to_arcsec / tcd b (redshift L)) (Y b * rad_to_arcsec / tcd b (redshift L))) in *.
  change (Rel (fun b => fst (al b)) (fst tal)) in PF1. change (Rel (fun b => snd (al b)) (snd tal)) in PF2.
  set (D := fun b => tcd b z - tcd b (redshift L)). assert (RD : Rel D (t_tcd2 t_tcd (redshift L) z)) by (apply rel_sub; [exact (Rtcd _ IZ)|exact (Rtcd _ IL)]).
  set (nT := fun b => if (sh || ge)%bool then match T b, plane_delay sh ge (lens_at L b) (tcd b (redshift L)) (D b) (tcd b z_s - tcd b (redshift L)) (tcd b z) (tcd b z_s) (X b) (Y b) (fst (al b)) (snd (al b)) with
      | Some a, Some b => Some (a + b) | _, _ => None end else T b).
  exists (fun b => (X b + D b * (x b - fst (al b)) * arcsec_to_rad, Y b + D b * (y b - snd (al b)) * arcsec_to_rad, x b - fst (al b), y b - snd (al b), nT b)).
  split; [|split].
  - intros b. rewrite ST. unfold plane_step. rewrite zn_model, EZ. cbn [bind]. rewrite get_model, EL. cbn [bind]. rewrite HZ. fold (al b). rewrite (surjective_pairing (al b)). reflexivity.
  - assert (Nx := rel_sub _ _ _ _ Rx PF1). assert (Ny := rel_sub _ _ _ _ Ry PF2). unfold st_follows. cbn [fst snd]. split; [|split; [|split; [|split]]].
    + apply rel_add; [exact RX|]. apply (rel_mul _ (fun _ => arcsec_to_rad)); [|apply rel_cst]. apply rel_mul; assumption.
    + apply rel_add; [exact RY|]. apply (rel_mul _ (fun _ => arcsec_to_rad)); [|apply rel_cst]. apply rel_mul; assumption.
    + exact Nx.
    + exact Ny.
    + assert (DS := fun SG => delay_step L z X Y TX TY (fun b => fst (al b)) (fun b => snd (al b)) (fst tal) (snd tal) HL SG IZ (NZ SG) RX RY PF1 PF2 HF). unfold nT. destruct (bool_dec (sh || ge)%bool true) as [SG|SG]; [|apply not_true_is_false in SG; rewrite SG; exists td; split; assumption].
      destruct (DS SG) as (d & N1 & N2). rewrite SG.
      exists (fun b => td b + d b). split; [|apply rel_add; assumption]. apply (near_imp (fun b => T b = Some (td b) /\ plane_delay sh ge (lens_at L b) (tcd b (redshift L)) (tcd b z - tcd b (redshift L)) (tcd b z_s - tcd b (redshift L)) (tcd b z) (tcd b z_s) (X b) (Y b) (fst (al b)) (snd (al b)) = Some (d b))); [|apply near_and; assumption].
      intros b [B1 B2]. unfold D. rewrite B1, B2. reflexivity.
  - exists L, z. split; [reflexivity|]. split; [reflexivity|]. rewrite (ST a). cbv zeta. reflexivity.
Qed.
Lemma loop_follows last planes : forall st t, st_follows st t ->
  (let '(X, Y, tx, ty, _) := st a in meets cd tcd a Ls z_s last planes X Y tx ty) ->
  match for_loop (t_plane_step t_cd t_tcd programs z_s sh ge last (t_tcd z_s)) planes t with
  | Ok t' => exists st', (forall b, for_loop (plane_step (cd b) (tcd b) (lenses b) z_s sh ge last (tcd b z_s)) planes (st b) = Ok (st' b)) /\ st_follows st' t'
  | Raise e => forall b, for_loop (plane_step (cd b) (tcd b) (lenses b) z_s sh ge last (tcd b z_s)) planes (st b) = Raise e
  end.
Proof.
  induction planes as [|i planes IH]; intros st t HS HM; [exists st; split; [reflexivity|exact HS]|]. cbn [for_loop].
  assert (HF : forall L, nth_error Ls i = Some L -> fine L (fst (fst (fst (fst (st a)))) * rad_to_arcsec / tcd a (redshift L)) (snd (fst (fst (fst (st a)))) * rad_to_arcsec / tcd a (redshift L))).
  { intros L HL. destruct (st a) as [[[[X Y] tx] ty] T]. cbn [meets] in HM. rewrite HL in HM. apply (proj1 HM). }
  assert (K := step_follows last i st t HS HF). destruct (t_plane_step _ _ _ _ _ _ _ _ i t) as [t'|e]; cbn [bind]; [|intros b; rewrite K; reflexivity].
  destruct K as (st' & E & HS' & L & z & EL & EZ & V). specialize (IH st' t' HS').
  assert (M : let '(X, Y, tx, ty, _) := st' a in meets cd tcd a Ls z_s last planes X Y tx ty).
  { destruct (st a) as [[[[X Y] tx] ty] T]. cbn [meets] in HM. rewrite EL in HM. destruct HM as [_ HM].
    assert (E2 : (if Nat.eqb i last then Some z_s else nth_error (map redshift Ls) (i + 1)) = Some z).
    { revert EZ. unfold zn, py_get. destruct (Nat.eqb i last); [congruence|]. destruct (nth_error (map redshift Ls) (i + 1)); congruence. }
    rewrite E2 in HM. cbv zeta in V, HM. destruct (st' a) as [[[[X' Y'] tx'] ty'] T']. cbn [fst] in V. injection V as -> -> -> ->. exact HM. }
  specialize (IH M). destruct (for_loop _ planes t') as [t2|e].
  - destruct IH as (st2 & E2 & H2). exists st2. split; [|exact H2]. intros b. rewrite E. cbn [bind]. apply E2.
  - intros b. rewrite E. cbn [bind]. apply IH.
Qed.
Definition core_follows (r : env -> result (R * R * option R)) (t : result (expr * expr * expr)) : Prop :=
  match t with
  | Ok (tx, ty, tT) => exists v, (forall b, r b = Ok (v b)) /\ Rel (fun b => fst (fst (v b))) tx /\ Rel (fun b => snd (fst (v b))) ty /\ exists td, Near (fun b => snd (v b) = Some (td b)) /\ Rel td tT
  | Raise e => forall b, r b = Raise e
  end.
Lemma core x y dx dy : Rel x dx -> Rel y dy -> meets_all cd tcd a Ls z_s (x a) (y a) ->
  core_follows (fun b => raytrace_core (cd b) (tcd b) (lenses b) z_s sh ge (x b) (y b)) (t_raytrace_core t_cd t_tcd programs z_s sh ge dx dy).
Proof.
  intros Rx Ry HM. unfold t_raytrace_core. rewrite tzls.
  assert (V : forall b, raytrace_core (cd b) (tcd b) (lenses b) z_s sh ge (x b) (y b) = let planes := lens_planes (map redshift Ls) in
    bind (py_get planes 0) (fun first => bind (py_get planes (length planes - 1)) (fun last => bind (py_get (map redshift Ls) first) (fun z0 =>
    bind (for_loop (plane_step (cd b) (tcd b) (lenses b) z_s sh ge last (tcd b z_s)) planes (x b * arcsec_to_rad * tcd b z0, y b * arcsec_to_rad * tcd b z0, x b, y b, Some 0)) (fun st =>
    let '(X, Y, _, _, TD) := st in Ok (X * rad_to_arcsec / tcd b z_s, Y * rad_to_arcsec / tcd b z_s, TD)))))) by (intros b; unfold raytrace_core; rewrite zls; reflexivity).
  unfold core_follows. revert V HM. unfold meets_all. generalize (lens_planes (map redshift Ls)). intros planes V HM. cbv zeta in V, HM |- *.
  destruct (py_get planes 0) as [first|e] eqn:E1; cbn [bind] in V |- *; [|exact V].
  destruct (py_get planes (length planes - 1)) as [last|e] eqn:E2; cbn [bind] in V |- *; [|exact V].
  destruct (py_get (map redshift Ls) first) as [z0|e] eqn:E3; cbn [bind] in V |- *; [|exact V].
  assert (I0 : In z0 (z_s :: map redshift Ls)) by (right; revert E3; unfold py_get; destruct (nth_error (map redshift Ls) first) eqn:W; [intros K; injection K as ->; apply (nth_error_In _ _ W)|discriminate]).
  assert (IS : In z_s (z_s :: map redshift Ls)) by (left; reflexivity). assert (Nts := proj1 (proj2 (proj2 DF))).
  assert (S0 : st_follows (fun b => (x b * arcsec_to_rad * tcd b z0, y b * arcsec_to_rad * tcd b z0, x b, y b, Some 0)) (Mul (Mul dx (Cst arcsec_to_rad)) (t_tcd z0), Mul (Mul dy (Cst arcsec_to_rad)) (t_tcd z0), dx, dy, Cst 0)).
  { unfold st_follows. cbn [fst snd]. split; [|split; [|split; [exact Rx|split; [exact Ry|]]]].
    - apply rel_mul; [|apply Rtcd, I0]. apply (rel_mul x (fun _ => arcsec_to_rad)); [exact Rx|apply rel_cst].
    - apply rel_mul; [|apply Rtcd, I0]. apply (rel_mul y (fun _ => arcsec_to_rad)); [exact Ry|apply rel_cst].
    - exists (fun _ => 0). split; [apply near_all; reflexivity|apply rel_cst]. }
  assert (M0 : meets cd tcd a Ls z_s last planes (x a * arcsec_to_rad * tcd a z0) (y a * arcsec_to_rad * tcd a z0) (x a) (y a)).
  { destruct planes as [|p planes]; [discriminate|]. cbn in E1. injection E1 as ->.
    replace (nth first (map redshift Ls) 0) with z0 in HM by (revert E3; unfold py_get; destruct (nth_error (map redshift Ls) first) eqn:W; [intros K; injection K as ->; symmetry; apply nth_error_nth, W|discriminate]).
    replace (nth (length (first :: planes) - 1) (first :: planes) 0%nat) with last in HM; [exact HM|].
    revert E2; unfold py_get; destruct (nth_error (first :: planes) (length (first :: planes) - 1)) eqn:W; [intros K; injection K as ->; symmetry; apply nth_error_nth, W|discriminate]. }
  assert (K := loop_follows last planes _ _ S0 M0). clear M0 S0. cbv beta in K. destruct (for_loop _ planes _) as [[[[[TX TY] Tx] Ty] TT]|e]; cbn [bind].
  - destruct K as (st & E & RX & RY & _ & _ & td & N1 & N2). exists (fun b => (fst (fst (fst (fst (st b)))) * rad_to_arcsec / tcd b z_s, snd (fst (fst (fst (st b)))) * rad_to_arcsec / tcd b z_s, snd (st b))).
    split; [|split; [|split]]; cbn [fst snd].
    + intros b. rewrite V, E. cbn [bind]. destruct (st b) as [[[[? ?] ?] ?] ?]. reflexivity.
    + apply rel_div; [|apply Rtcd, IS|exact Nts]. apply (rel_mul _ (fun _ => rad_to_arcsec)); [exact RX|apply rel_cst].
    + apply rel_div; [|apply Rtcd, IS|exact Nts]. apply (rel_mul _ (fun _ => rad_to_arcsec)); [exact RY|apply rel_cst].
    + exists td. split; assumption.
  - intros b. rewrite V, K. reflexivity.
Qed.
End Flags.
Lemma ray_follows x y dx dy : Rel x dx -> Rel y dy -> meets_all cd tcd a Ls z_s (x a) (y a) ->
  pair_follows Rel (fun b => multiplane_raytrace (cd b) (tcd b) (lenses b) z_s (x b) (y b)) (t_multiplane_raytrace t_cd t_tcd programs z_s dx dy).
Proof.
  intros Rx Ry HM. assert (K := core false false ltac:(discriminate) x y dx dy Rx Ry HM). unfold t_multiplane_raytrace, multiplane_raytrace, pair_follows. unfold core_follows in K.
  destruct (t_raytrace_core _ _ _ _ _ _ _ _) as [[[TX TY] TT]|e]; cbn [bind fst snd].
  - destruct K as (v & E & R1 & R2 & _). exists (fun b => fst (v b)). split; [intros b; rewrite E; reflexivity|]. split; assumption.
  - intros b. rewrite K. reflexivity.
Qed.
Lemma effective_follows x y dx dy : Rel x dx -> Rel y dy -> meets_all cd tcd a Ls z_s (x a) (y a) ->
  pair_follows Rel (fun b => multiplane_effective_deflection (cd b) (tcd b) (lenses b) z_s (x b) (y b)) (t_multiplane_effective_deflection t_cd t_tcd programs z_s dx dy).
Proof.
  intros Rx Ry HM. assert (K := ray_follows x y dx dy Rx Ry HM). unfold t_multiplane_effective_deflection, multiplane_effective_deflection. unfold pair_follows in *.
  destruct (t_multiplane_raytrace _ _ _ _ _ _) as [[TX TY]|e]; cbn [bind fst snd] in *.
  - destruct K as (v & E & R1 & R2). exists (fun b => (x b - fst (v b), y b - snd (v b))). split; [intros b; rewrite E; reflexivity|]. split; apply rel_sub; assumption.
  - intros b. rewrite K. reflexivity.
Qed.
Lemma multi_delay sh ge x y dx dy : (forall L, In L Ls -> delays Rel a L) -> planes_apart tcd a Ls z_s -> Rel x dx -> Rel y dy -> meets_all cd tcd a Ls z_s (x a) (y a) ->
  delay_follows Rel a (fun b => multiplane_time_delay (cd b) (tcd b) (lenses b) z_s (x b) (y b) sh ge) (t_multiplane_time_delay t_cd t_tcd programs z_s dx dy sh ge).
Proof.
  intros HPs PA Rx Ry HM. assert (K := core sh ge (fun _ => conj HPs PA) x y dx dy Rx Ry HM). unfold t_multiplane_time_delay, multiplane_time_delay, delay_follows. unfold core_follows in K.
  destruct (t_raytrace_core _ _ _ _ _ _ _ _) as [[[TX TY] TT]|e]; cbn [bind fst snd].
  - destruct K as (v & E & R1 & R2 & td & N1 & N2). destruct (sh || ge)%bool eqn:SG; [|intros b; rewrite E; reflexivity].
    split; [intros b; rewrite E; cbn [bind]; eauto|]. split; [exists (td a); rewrite E; cbn [bind]; rewrite (near_a _ N1); reflexivity|].
    apply (rel_loc td); [|exact N2]. revert N1. apply near_imp. intros b B. rewrite E. cbn [bind]. rewrite B. reflexivity.
  - intros b. rewrite K. reflexivity.
Qed.
End Cosmology.
Lemma everything cd tcd t_cd t_tcd Ls z_s x y dx dy : inputs_follow Rel cd tcd t_cd t_tcd a Ls z_s x y dx dy -> distances_fine cd tcd a Ls z_s ->
  (meets_all cd tcd a Ls z_s (x a) (y a) -> rays_follow Rel cd tcd t_cd t_tcd Ls z_s x y dx dy /\
     ((forall L, In L Ls -> delays Rel a L) -> planes_apart tcd a Ls z_s -> delays_follow Rel cd tcd t_cd t_tcd a Ls z_s x y dx dy)) /\
  (forall L, In L Ls -> alone_follow Rel cd t_cd a z_s L).
Proof.
  intros (HD & HC & Hx & Hy) DF. assert (HC1 := fun z Hz => proj1 (HC z Hz)). assert (HC2 := fun z Hz => proj2 (HC z Hz)). split.
  - intros M. split; [split; [apply ray_follows|apply effective_follows]; assumption|]. intros HP PA sh ge. apply multi_delay; assumption.
  - intros L HL. destruct DF as (Z & Ns & _ & NL). assert (IL : In (redshift L) (z_s :: map redshift Ls)) by (right; apply in_map, HL). assert (IS : In z_s (z_s :: map redshift Ls)) by (left; reflexivity).
    split; [apply physical_follows; auto; apply (NL L HL)|]. intros HP Zl sh ge. apply delay_one; auto. apply (NL L HL).
Qed.
Lemma one_plane z Ls :
  ((forall L, In L Ls -> deflects Rel a L) -> deflects Rel a (plane_of z Ls)) /\ ((forall L, In L Ls -> delays Rel a L) -> delays Rel a (plane_of z Ls)) /\
  ((forall L, In L Ls -> weighs Rel a L) -> weighs Rel a (plane_of z Ls)).
Proof. split; [apply group_deflects|split; [apply group_delays|apply group_weighs]]. Qed.
End Rel.
