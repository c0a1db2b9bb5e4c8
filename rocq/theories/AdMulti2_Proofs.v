(** * Several lenses: forward and backward differentiation, and some lenses *)
From Coq Require Import Reals Lra Lia Arith ZArith List Bool FunctionalExtensionality.
From Coquelicot Require Import Coquelicot.
From Verif Require Import Py RealFun Derive1 Const_Model Cosmo_Model LensBase_Model LensBasic_Model Multiplane_Model Ad_Model Ad_Spec Ad_Proofs AdLens_Model AdLens_Proofs AdLens2_Proofs
  Rev_Model Rev_Spec Rev_Proofs RevLens_Proofs AdSim_Spec AdSim_Proofs AdSim2_Proofs AdMulti_Model AdMulti_Spec AdMulti_Proofs.
Import ListNotations.
Local Open Scope R_scope.
Local Notation env := (nat -> R).

(** ** forward *)
Section Forward.
Variables (a : env) (sd : nat -> option R).
Definition near (P : env -> Prop) : Prop := locally 0 (fun h => P (along a sd h)).
Lemma fl_ok F t : followed a sd F t -> Ad_Proofs.ok a sd t.
Proof. intros ((d & V & T & D) & C & _). exists d. split; [exact V|]. split; [exact T|]. split; [exact D|exact C]. Qed.
Lemma fl_of F t : Ad_Proofs.ok a sd t -> near (fun b => F b = ev b t) -> followed a sd F t.
Proof. intros O L. split; [apply ok_exact, O|]. split; [destruct O as (d & _ & _ & _ & C); exact C|exact L]. Qed.
Lemma fl_near F t : followed a sd F t -> near (fun b => F b = ev b t).
Proof. intros (_ & _ & L). exact L. Qed.
Lemma near_here P : near P -> P a.
Proof. intros H. apply locally_singleton in H. rewrite along0 in H. exact H. Qed.
Lemma fl_val F t : followed a sd F t -> F a = ev a t.
Proof. intros H. apply (near_here (fun b => F b = ev b t)), fl_near, H. Qed.
Lemma near_every (P : env -> Prop) : (forall b, P b) -> near P.
Proof. intros H. apply filter_forall. intros h. apply H. Qed.
Lemma near_both P Q : near P -> near Q -> near (fun b => P b /\ Q b).
Proof. apply filter_and. Qed.
Lemma near_mono (P Q : env -> Prop) : (forall b, P b -> Q b) -> near P -> near Q.
Proof. intros H. apply filter_imp. intros h. apply H. Qed.
Lemma fl_nz f e : followed a sd f e -> f a <> 0 -> near (fun b => f b <> 0).
Proof.
  intros H N. assert (L := fl_near _ _ H). rewrite (fl_val _ _ H) in N. destruct H as ((d & _ & _ & D) & _).
  assert (C : continuous (fun h => ev (along a sd h) e) 0) by (apply (ex_derive_continuous (fun h => ev (along a sd h) e)); exists d; exact D).
  assert (U : locally (ev (along a sd 0) e) (fun v => v <> 0)) by (rewrite along0; apply (open_neq 0), N).
  assert (K : locally 0 (fun h => ev (along a sd h) e <> 0)) by exact (C _ U). generalize (near_both (fun b => ev b e <> 0) _ K L). apply near_mono. intros b [H1 H2]. rewrite H2. exact H1.
Qed.
Lemma fl_loc f g e : near (fun b => f b = g b) -> followed a sd f e -> followed a sd g e.
Proof. intros N H. apply fl_of; [apply (fl_ok f), H|]. generalize (near_both _ _ N (fl_near _ _ H)). apply near_mono. intros b [<- E]. exact E. Qed.
Lemma fl_bin f g d e c (op : R -> R -> R) : followed a sd f d -> followed a sd g e -> Ad_Proofs.ok a sd c -> (forall b, ev b c = op (ev b d) (ev b e)) -> followed a sd (fun b => op (f b) (g b)) c.
Proof. intros Hf Hg O V. apply fl_of; [exact O|]. generalize (near_both _ _ (fl_near _ _ Hf) (fl_near _ _ Hg)). apply near_mono. intros b [-> ->]. symmetry. apply V. Qed.
Lemma fl_cst r : followed a sd (fun _ => r) (Cst r).
Proof. apply fl_of; [apply ok_cst|apply near_every; reflexivity]. Qed.
Lemma fl_var n : followed a sd (fun b => b n) (Var n).
Proof. apply fl_of; [apply ok_var|apply near_every; reflexivity]. Qed.
Lemma fl_add f g d e : followed a sd f d -> followed a sd g e -> followed a sd (fun b => f b + g b) (Add d e).
Proof. intros Hf Hg. apply (fl_bin f g d e _ Rplus Hf Hg); [apply ok_add; [apply (fl_ok f), Hf|apply (fl_ok g), Hg]|reflexivity]. Qed.
Lemma fl_sub f g d e : followed a sd f d -> followed a sd g e -> followed a sd (fun b => f b - g b) (Sub d e).
Proof. intros Hf Hg. apply (fl_bin f g d e _ Rminus Hf Hg); [apply ok_sub; [apply (fl_ok f), Hf|apply (fl_ok g), Hg]|reflexivity]. Qed.
Lemma fl_mul f g d e : followed a sd f d -> followed a sd g e -> followed a sd (fun b => f b * g b) (Mul d e).
Proof. intros Hf Hg. apply (fl_bin f g d e _ Rmult Hf Hg); [apply ok_mul; [apply (fl_ok f), Hf|apply (fl_ok g), Hg]|reflexivity]. Qed.
Lemma fl_div f g d e : followed a sd f d -> followed a sd g e -> g a <> 0 -> followed a sd (fun b => f b / g b) (Div d e).
Proof. intros Hf Hg N. apply (fl_bin f g d e _ Rdiv Hf Hg); [apply ok_div; [apply (fl_ok f), Hf|apply (fl_ok g), Hg|rewrite <- (fl_val _ _ Hg); exact N]|reflexivity]. Qed.
Lemma fl_neg f d : followed a sd f d -> followed a sd (fun b => - f b) (Neg d).
Proof. intros Hf. apply (fl_bin f f d d _ (fun u _ => - u) Hf Hf); [apply ok_neg, (fl_ok f), Hf|reflexivity]. Qed.
Lemma fl_sq f d : followed a sd f d -> followed a sd (fun b => f b ^ 2) (Pow d 2).
Proof. intros Hf. apply (fl_bin f f d d _ (fun u _ => u ^ 2) Hf Hf); [apply ok_pow, (fl_ok f), Hf|reflexivity]. Qed.
Lemma fl_exact F t : followed a sd F t -> ad_exact F t a sd.
Proof. intros H. apply ad_of_loc; [apply (fl_ok F), H|apply fl_near, H]. Qed.
End Forward.

(** ** backward *)
Section Backward.
Variables (a : env) (req : nat -> bool).
Definition near_back (P : env -> Prop) : Prop := P a /\ forall k, req k = true -> near a (one_of req k) P.
Lemma fb_loc f g e : near_back (fun b => f b = g b) -> followed_back a req f e -> followed_back a req g e.
Proof. intros [N0 N] (T & V & H). split; [exact T|]. split; [rewrite V; exact N0|]. intros k K. apply (fl_loc a _ f); auto. Qed.
Lemma fb_nz f e : followed_back a req f e -> f a <> 0 -> near_back (fun b => f b <> 0).
Proof. intros (_ & _ & H) N. split; [exact N|]. intros k K. apply (fl_nz a _ f e); auto. Qed.
Lemma nb_every (P : env -> Prop) : (forall b, P b) -> near_back P.
Proof. intros H. split; [apply H|]. intros k _. apply near_every, H. Qed.
Lemma nb_both P Q : near_back P -> near_back Q -> near_back (fun b => P b /\ Q b).
Proof. intros [A1 A2] [B1 B2]. split; [auto|]. intros k K. apply near_both; auto. Qed.
Lemma nb_mono (P Q : env -> Prop) : (forall b, P b -> Q b) -> near_back P -> near_back Q.
Proof. intros H [A1 A2]. split; [auto|]. intros k K. apply (near_mono a _ P); auto. Qed.
Lemma nb_here P : near_back P -> P a.
Proof. intros [A _]. exact A. Qed.
Lemma fb_cst r : followed_back a req (fun _ => r) (Cst r).
Proof. split; [exact I|]. split; [reflexivity|]. intros k _. apply fl_cst. Qed.
Lemma fb_var n : followed_back a req (fun b => b n) (Var n).
Proof. split; [exact I|]. split; [reflexivity|]. intros k _. apply fl_var. Qed.
Lemma fb_add f g d e : followed_back a req f d -> followed_back a req g e -> followed_back a req (fun b => f b + g b) (Add d e).
Proof. intros (T1 & V1 & H1) (T2 & V2 & H2). split; [split; assumption|]. split; [cbn [ev]; rewrite V1, V2; reflexivity|]. intros k K. apply fl_add; auto. Qed.
Lemma fb_sub f g d e : followed_back a req f d -> followed_back a req g e -> followed_back a req (fun b => f b - g b) (Sub d e).
Proof. intros (T1 & V1 & H1) (T2 & V2 & H2). split; [split; assumption|]. split; [cbn [ev]; rewrite V1, V2; reflexivity|]. intros k K. apply fl_sub; auto. Qed.
Lemma fb_mul f g d e : followed_back a req f d -> followed_back a req g e -> followed_back a req (fun b => f b * g b) (Mul d e).
Proof. intros (T1 & V1 & H1) (T2 & V2 & H2). split; [split; assumption|]. split; [cbn [ev]; rewrite V1, V2; reflexivity|]. intros k K. apply fl_mul; auto. Qed.
Lemma fb_div f g d e : followed_back a req f d -> followed_back a req g e -> g a <> 0 -> followed_back a req (fun b => f b / g b) (Div d e).
Proof. intros (T1 & V1 & H1) (T2 & V2 & H2) N. split; [split; [assumption|split; [assumption|rewrite V2; exact N]]|]. split; [cbn [ev]; rewrite V1, V2; reflexivity|]. intros k K. apply fl_div; auto. Qed.
Lemma fb_neg f d : followed_back a req f d -> followed_back a req (fun b => - f b) (Neg d).
Proof. intros (T1 & V1 & H1). split; [exact T1|]. split; [cbn [ev]; rewrite V1; reflexivity|]. intros k K. apply fl_neg; auto. Qed.
Lemma fb_sq f d : followed_back a req f d -> followed_back a req (fun b => f b ^ 2) (Pow d 2).
Proof. intros (T1 & V1 & H1). split; [exact T1|]. split; [cbn [ev]; rewrite V1; reflexivity|]. intros k K. apply fl_sq; auto. Qed.
Lemma fb_exact F t : followed_back a req F t -> grad_exact F t a req.
Proof. intros (T & V & H). apply grad_exact_of; [exact T|]. intros k K. apply fl_exact; auto. Qed.
End Backward.

(** ** some lenses *)
Section KindForward.
Variables (a : env) (sd : nat -> option R) (n : nat).
Lemma fl_at (F : env -> R -> R -> R) x y dx dy c : followed a sd x dx -> followed a sd y dy -> Ad_Proofs.ok a sd c -> (forall b, F b (ev b dx) (ev b dy) = ev b c) -> followed a sd (fun b => F b (x b) (y b)) c.
Proof. intros Hx Hy O V. apply fl_of; [exact O|]. generalize (near_both a sd _ _ (fl_near a sd _ _ Hx) (fl_near a sd _ _ Hy)). apply near_mono. intros b [-> ->]. apply V. Qed.
Lemma point_kappa x0 y0 x y : match convergence_point x0 y0 x y with Some v => v | None => 0 end = 0.
Proof. unfold convergence_point. match goal with |- context [let '(_, _) := ?t in _] => destruct t as [u v] end. destruct (Req_EM_T u 0); [destruct (Req_EM_T v 0)|]; reflexivity. Qed.
Lemma kind_forward k z : kind_proper n k a (fun i => sd i = None) ->
  let L := kind_traced n k z a in deflects (followed a sd) a L /\ delays (followed a sd) a L /\ weighs (followed a sd) a L.
Proof.
  intros P L. assert (O := fun i => ok_var a sd i).
  assert (G : forall x y dx dy, followed a sd x dx -> followed a sd y dy -> fine L (x a) (y a) ->
    Ad_Proofs.ok a sd (fst (t_deflection (program L) dx dy)) /\ Ad_Proofs.ok a sd (snd (t_deflection (program L) dx dy)) /\ Ad_Proofs.ok a sd (t_psi (program L) dx dy) /\ Ad_Proofs.ok a sd (t_kappa (program L) dx dy)).
  { intros x y dx dy Hx Hy H. assert (Ox := fl_ok a sd _ _ Hx). assert (Oy := fl_ok a sd _ _ Hy). unfold L in *. cbn [fine kind_traced] in H. rewrite (fl_val a sd _ _ Hx), (fl_val a sd _ _ Hy) in H.
    destruct k as [| |s|s|s]; cbn [kind_traced program kind_program t_deflection t_psi t_kappa kind_proper kind_fine] in *; rewrite ?Nat.add_0_r.
    - destruct (mass_sheet_ok a sd (Var n) (Var (n + 1)) (Var (n + 2)) dx dy (O _) (O _) (O _) Ox Oy) as (A & B & C). repeat split; try assumption. apply ok_mul; [apply O|apply ok_cst].
    - destruct (shear_ok a sd (Var n) (Var (n + 1)) (Var (n + 2)) (Var (n + 3)) dx dy (O _) (O _) (O _) (O _) Ox Oy) as (A & B & C). repeat split; try assumption. apply ok_cst.
    - exact (sis_ok a sd dx dy (Var n) (Var (n + 1)) (Cst s) Ox Oy (O _) (O _) (ok_cst a sd s) H P (Var (n + 2)) (O _)).
    - destruct (point_ok a sd dx dy (Var n) (Var (n + 1)) (Cst s) Ox Oy (O _) (O _) (ok_cst a sd s) H P (Var (n + 2)) (O _)) as (A & B & C). repeat split; try assumption. apply ok_cst.
    - destruct P as (P1 & P2 & P3).
      assert (P3' : ev a (Var (n + 2)) < 1 \/ snd (jvp a sd (Var (n + 2))) = None) by (destruct P3 as [P3|P3]; [left; exact P3|right; cbn [jvp snd]; rewrite P3; reflexivity]).
      destruct (sie_ok a sd dx dy (Var n) (Var (n + 1)) (Var (n + 2)) (Var (n + 3)) (Cst s) Ox Oy (O _) (O _) (O _) (O _) (ok_cst a sd s) H P1 P2 P3' (Var (n + 4)) (O _)) as [A B].
      assert (C := sie_kappa_ok a sd dx dy (Var n) (Var (n + 1)) (Var (n + 2)) (Var (n + 3)) (Cst s) Ox Oy (O _) (O _) (O _) (O _) (ok_cst a sd s) H P2 (Var (n + 4)) (O _)).
      assert (D := sie_potential_ok a sd dx dy (Var n) (Var (n + 1)) (Var (n + 2)) (Var (n + 3)) (Cst s) Ox Oy (O _) (O _) (O _) (O _) (ok_cst a sd s) H P1 P2 P3' (Var (n + 4)) (O _) (or_introl eq_refl)).
      exact (conj A (conj B (conj D C))). }
  split; [split; [intros b; destruct k; reflexivity|]; split|split]; intros x y dx dy Hx Hy H; destruct (G x y dx dy Hx Hy H) as (O1 & O2 & O3 & O4).
  - apply (fl_at (fun b x y => fst (reduced_deflection_angle (lens_at L b) x y)) x y dx dy); try assumption. intros b. unfold L. destruct k; reflexivity.
  - apply (fl_at (fun b x y => snd (reduced_deflection_angle (lens_at L b) x y)) x y dx dy); try assumption. intros b. unfold L. destruct k; reflexivity.
  - apply (fl_at (fun b x y => potential (lens_at L b) x y) x y dx dy); try assumption. intros b. unfold L. destruct k; reflexivity.
  - apply (fl_at (fun b x y => convergence (lens_at L b) x y) x y dx dy); try assumption. intros b. unfold L. destruct k; try reflexivity. apply point_kappa.
Qed.
End KindForward.
Section KindBackward.
Variables (a : env) (req : nat -> bool) (n : nat).
Lemma kind_backward k z : kind_proper n k a (fun i => req i = false) ->
  let L := kind_traced n k z a in deflects (followed_back a req) a L /\ delays (followed_back a req) a L /\ weighs (followed_back a req) a L.
Proof.
  intros P L.
  assert (P' : forall j, kind_proper n k a (fun i => one_of req j i = None)).
  { intros j. destruct k; try exact P. cbn [kind_proper] in *. destruct P as (P1 & P2 & P3). split; [exact P1|]. split; [exact P2|]. destruct P3 as [P3|P3]; [left; exact P3|right]. unfold one_of. rewrite P3. reflexivity. }
  assert (G : forall x y dx dy, followed_back a req x dx -> followed_back a req y dy -> fine L (x a) (y a) ->
    tame a (fst (t_deflection (program L) dx dy)) /\ tame a (snd (t_deflection (program L) dx dy)) /\ tame a (t_psi (program L) dx dy) /\ tame a (t_kappa (program L) dx dy)).
  { intros x y dx dy (Ox & Vx & _) (Oy & Vy & _) H. unfold L in *. cbn [fine kind_traced] in H. rewrite <- Vx, <- Vy in H.
    destruct k as [| |s|s|s]; cbn [kind_traced program kind_program t_deflection t_psi t_kappa kind_proper kind_fine] in *; rewrite ?Nat.add_0_r.
    - destruct (mass_sheet_tm a (Var n) (Var (n + 1)) (Var (n + 2)) dx dy I I I Ox Oy) as (A & B & C). exact (conj A (conj B (conj C (conj I I)))).
    - destruct (shear_tm a (Var n) (Var (n + 1)) (Var (n + 2)) (Var (n + 3)) dx dy I I I I Ox Oy) as (A & B & C). exact (conj A (conj B (conj C I))).
    - exact (sis_tm a dx dy (Var n) (Var (n + 1)) (Cst s) Ox Oy I I I H P (Var (n + 2)) I).
    - destruct (point_tm a dx dy (Var n) (Var (n + 1)) (Cst s) Ox Oy I I I H P (Var (n + 2)) I) as (A & B & C). exact (conj A (conj B (conj C I))).
    - destruct P as (P1 & P2 & P3).
      destruct (sie_tm a dx dy (Var n) (Var (n + 1)) (Var (n + 2)) (Var (n + 3)) (Cst s) Ox Oy I I I I I H P1 P2 (Var (n + 4)) I) as [A B].
      assert (C := sie_kappa_tm a dx dy (Var n) (Var (n + 1)) (Var (n + 2)) (Var (n + 3)) (Cst s) Ox Oy I I I I I H P2 (Var (n + 4)) I).
      assert (D := sie_potential_tm a dx dy (Var n) (Var (n + 1)) (Var (n + 2)) (Var (n + 3)) (Cst s) Ox Oy I I I I I H P1 P2 (Var (n + 4)) I).
      exact (conj A (conj B (conj D C))). }
  assert (V : forall (F : env -> R -> R -> R) T, (forall b dx dy, F b (ev b dx) (ev b dy) = ev b (T dx dy)) -> (forall x y dx dy, followed_back a req x dx -> followed_back a req y dy -> fine L (x a) (y a) -> tame a (T dx dy)) ->
    (forall sd, kind_proper n k a (fun i => sd i = None) -> quantity_follows (followed a sd) a (fine L) F T) -> quantity_follows (followed_back a req) a (fine L) F T).
  { intros F T V1 V2 V3 x y dx dy Hx Hy H. split; [apply (V2 x y); assumption|]. split; [rewrite <- V1; destruct Hx as (_ & -> & _), Hy as (_ & -> & _); reflexivity|].
    intros j J. apply (V3 _ (P' j)); [apply Hx, J|apply Hy, J|exact H]. }
  split; [split; [intros b; destruct k; reflexivity|]; split|split]; apply V; try (intros; unfold L; destruct k; reflexivity).
  - intros x y dx dy Hx Hy H. apply (G x y dx dy Hx Hy H).
  - intros s Q. apply (kind_forward a s n k z Q).
  - intros x y dx dy Hx Hy H. apply (G x y dx dy Hx Hy H).
  - intros s Q. apply (kind_forward a s n k z Q).
  - intros x y dx dy Hx Hy H. apply (G x y dx dy Hx Hy H).
  - intros s Q. apply (kind_forward a s n k z Q).
  - intros b dx dy. unfold L. destruct k; try reflexivity. apply point_kappa.
  - intros x y dx dy Hx Hy H. apply (G x y dx dy Hx Hy H).
  - intros s Q. apply (kind_forward a s n k z Q).
Qed.
End KindBackward.
