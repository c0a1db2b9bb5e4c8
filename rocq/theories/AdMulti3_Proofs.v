(** * Several lenses: what the user of the library gets *)
From Coq Require Import Reals Lra Lia Arith ZArith List Bool FunctionalExtensionality.
From Coquelicot Require Import Coquelicot.
From Verif Require Import Py RealFun Derive1 Const_Model Cosmo_Model LensBase_Model LensBasic_Model Multiplane_Model Multiplane_Proofs Ad_Model Ad_Spec Ad_Proofs AdLens_Model AdLens2_Proofs
  Rev_Model Rev_Spec Rev_Proofs AdMulti_Model AdMulti_Spec AdMulti_Proofs AdMulti2_Proofs.
Import ListNotations.
Local Open Scope R_scope.
Local Notation env := (nat -> R).

Lemma pair_mono (R1 R2 : (env -> R) -> expr -> Prop) r t : (forall F e, R1 F e -> R2 F e) -> pair_follows R1 r t -> pair_follows R2 r t.
Proof. intros H. unfold pair_follows. destruct t as [p|e]; [|auto]. intros (v & E & A & B). exists v. auto. Qed.
Lemma delay_mono (R1 R2 : (env -> R) -> expr -> Prop) a r t : (forall F e, R1 F e -> R2 F e) -> delay_follows R1 a r t -> delay_follows R2 a r t.
Proof. intros H. unfold delay_follows. destruct t as [p|e]; [|auto]. intros (A & B & C). auto. Qed.


Definition forward_all a sd := everything (followed a sd) a (near a sd) (near_every a sd) (near_both a sd) (near_mono a sd) (near_here a sd) (fl_nz a sd) (fl_loc a sd) (fl_cst a sd) (fl_add a sd) (fl_sub a sd) (fl_mul a sd) (fl_div a sd) (fl_neg a sd) (fl_sq a sd).
Definition backward_all a req := everything (followed_back a req) a (near_back a req) (nb_every a req) (nb_both a req) (nb_mono a req) (nb_here a req) (fb_nz a req) (fb_loc a req) (fb_cst a req) (fb_add a req) (fb_sub a req) (fb_mul a req) (fb_div a req) (fb_neg a req) (fb_sq a req).

Lemma forward_rays a sd cd tcd t_cd t_tcd Ls z_s x y dx dy : inputs_follow (followed a sd) cd tcd t_cd t_tcd a Ls z_s x y dx dy -> distances_fine cd tcd a Ls z_s -> meets_all cd tcd a Ls z_s (x a) (y a) ->
  rays_follow (fun F t => ad_exact F t a sd) cd tcd t_cd t_tcd Ls z_s x y dx dy /\
  ((forall L, In L Ls -> delays (followed a sd) a L) -> planes_apart tcd a Ls z_s -> delays_follow (fun F t => ad_exact F t a sd) cd tcd t_cd t_tcd a Ls z_s x y dx dy).
Proof.
  intros H1 H2 H3. destruct (proj1 (forward_all a sd cd tcd t_cd t_tcd Ls z_s x y dx dy H1 H2) H3) as [[A B] C]. assert (MO := fl_exact a sd).
  split; [split; [apply (pair_mono _ _ _ _ MO A)|apply (pair_mono _ _ _ _ MO B)]|]. intros HP PA sh ge. apply (delay_mono _ _ _ _ _ MO), C; assumption.
Qed.
Lemma backward_rays a req cd tcd t_cd t_tcd Ls z_s x y dx dy : inputs_follow (followed_back a req) cd tcd t_cd t_tcd a Ls z_s x y dx dy -> distances_fine cd tcd a Ls z_s -> meets_all cd tcd a Ls z_s (x a) (y a) ->
  rays_follow (fun F t => grad_exact F t a req) cd tcd t_cd t_tcd Ls z_s x y dx dy /\
  ((forall L, In L Ls -> delays (followed_back a req) a L) -> planes_apart tcd a Ls z_s -> delays_follow (fun F t => grad_exact F t a req) cd tcd t_cd t_tcd a Ls z_s x y dx dy).
Proof.
  intros H1 H2 H3. destruct (proj1 (backward_all a req cd tcd t_cd t_tcd Ls z_s x y dx dy H1 H2) H3) as [[A B] C]. assert (MO := fb_exact a req).
  split; [split; [apply (pair_mono _ _ _ _ MO A)|apply (pair_mono _ _ _ _ MO B)]|]. intros HP PA sh ge. apply (delay_mono _ _ _ _ _ MO), C; assumption.
Qed.
Lemma alone_forward a sd cd tcd t_cd t_tcd Ls z_s x y dx dy : inputs_follow (followed a sd) cd tcd t_cd t_tcd a Ls z_s x y dx dy -> distances_fine cd tcd a Ls z_s ->
  forall L, In L Ls -> alone_follow (followed a sd) cd t_cd a z_s L.
Proof. intros H1 H2. apply (proj2 (forward_all a sd cd tcd t_cd t_tcd Ls z_s x y dx dy H1 H2)). Qed.
Lemma alone_backward a req cd tcd t_cd t_tcd Ls z_s x y dx dy : inputs_follow (followed_back a req) cd tcd t_cd t_tcd a Ls z_s x y dx dy -> distances_fine cd tcd a Ls z_s ->
  forall L, In L Ls -> alone_follow (followed_back a req) cd t_cd a z_s L.
Proof. intros H1 H2. apply (proj2 (backward_all a req cd tcd t_cd t_tcd Ls z_s x y dx dy H1 H2)). Qed.
Lemma one_plane_both a z Ls :
  (forall sd, let Rel := followed a sd in
    ((forall L, In L Ls -> deflects Rel a L) -> deflects Rel a (plane_of z Ls)) /\ ((forall L, In L Ls -> delays Rel a L) -> delays Rel a (plane_of z Ls)) /\ ((forall L, In L Ls -> weighs Rel a L) -> weighs Rel a (plane_of z Ls))) /\
  (forall req, let Rel := followed_back a req in
    ((forall L, In L Ls -> deflects Rel a L) -> deflects Rel a (plane_of z Ls)) /\ ((forall L, In L Ls -> delays Rel a L) -> delays Rel a (plane_of z Ls)) /\ ((forall L, In L Ls -> weighs Rel a L) -> weighs Rel a (plane_of z Ls))).
Proof.
  split; [intros sd Rel; apply (one_plane Rel a (near a sd) (near_every a sd) (fl_loc a sd) (fl_cst a sd) (fl_add a sd))|].
  intros req Rel. apply (one_plane Rel a (near_back a req) (nb_every a req) (fb_loc a req) (fb_cst a req) (fb_add a req)).
Qed.
(** ** some lenses in a fixed cosmology *)
Lemma lenses_cast a l b : map (fun L => lens_at L b) (traced_cast a l) = lenses_of l b.
Proof. unfold traced_cast, lenses_of. rewrite map_map. apply map_ext. intros [[n k] z]. reflexivity. Qed.
Lemma in_cast a l L : In L (traced_cast a l) -> exists n k z, In (n, k, z) l /\ L = kind_traced n k z a.
Proof. intros H. apply in_map_iff in H. destruct H as ([[n k] z] & <- & H). exists n, k, z. auto. Qed.
Section Cast.
Variables (a : env) (cd : R -> R) (l : cast) (z_s : R).
Notation Ls := (traced_cast a l).
Notation cst := (fun z => Cst (cd z)).
Hypothesis DF : distances_fine (fun _ => cd) (fun _ => cd) a Ls z_s.
Hypothesis M : meets_all (fun _ => cd) (fun _ => cd) a Ls z_s (a 0%nat) (a 1%nat).
Lemma cast_forward sd : cast_proper a (fun i => sd i = None) l ->
  rays_follow (fun F t => ad_exact F t a sd) (fun _ => cd) (fun _ => cd) cst cst Ls z_s (fun b => b 0%nat) (fun b => b 1%nat) (Var 0) (Var 1) /\
  (planes_apart (fun _ => cd) a Ls z_s -> delays_follow (fun F t => ad_exact F t a sd) (fun _ => cd) (fun _ => cd) cst cst a Ls z_s (fun b => b 0%nat) (fun b => b 1%nat) (Var 0) (Var 1)).
Proof.
  intros P. assert (K : forall L, In L Ls -> deflects (followed a sd) a L /\ delays (followed a sd) a L).
  { intros L HL. apply in_cast in HL. destruct HL as (n & k & z & H & ->). destruct (kind_forward a sd n k z (P n k z H)) as (A & B & _). auto. }
  destruct (forward_rays a sd (fun _ => cd) (fun _ => cd) cst cst Ls z_s (fun b => b 0%nat) (fun b => b 1%nat) (Var 0) (Var 1)) as [A B]; [|exact DF|exact M|].
  - split; [intros L HL; apply (K L HL)|]. split; [intros z _; split; apply fl_cst|]. split; apply fl_var.
  - split; [exact A|]. apply B. intros L HL. apply (K L HL).
Qed.
Lemma cast_backward req : cast_proper a (fun i => req i = false) l ->
  rays_follow (fun F t => grad_exact F t a req) (fun _ => cd) (fun _ => cd) cst cst Ls z_s (fun b => b 0%nat) (fun b => b 1%nat) (Var 0) (Var 1) /\
  (planes_apart (fun _ => cd) a Ls z_s -> delays_follow (fun F t => grad_exact F t a req) (fun _ => cd) (fun _ => cd) cst cst a Ls z_s (fun b => b 0%nat) (fun b => b 1%nat) (Var 0) (Var 1)).
Proof.
  intros P. assert (K : forall L, In L Ls -> deflects (followed_back a req) a L /\ delays (followed_back a req) a L).
  { intros L HL. apply in_cast in HL. destruct HL as (n & k & z & H & ->). destruct (kind_backward a req n k z (P n k z H)) as (A & B & _). auto. }
  destruct (backward_rays a req (fun _ => cd) (fun _ => cd) cst cst Ls z_s (fun b => b 0%nat) (fun b => b 1%nat) (Var 0) (Var 1)) as [A B]; [|exact DF|exact M|].
  - split; [intros L HL; apply (K L HL)|]. split; [intros z _; split; apply fb_cst|]. split; apply fb_var.
  - split; [exact A|]. apply B. intros L HL. apply (K L HL).
Qed.
Lemma kind_moved n k z x y : (2 <= n)%nat -> kind_lens n k z (moved a x y) = kind_lens n k z a.
Proof.
  intros H. assert (E : forall i, moved a x y (n + i)%nat = a (n + i)%nat) by (intros i; unfold moved; destruct (n + i)%nat as [|[|m]] eqn:Q; [lia|lia|reflexivity]).
  destruct k; unfold kind_lens; rewrite ?E; reflexivity.
Qed.
Lemma lenses_moved x y : (forall n k z, In (n, k, z) l -> (2 <= n)%nat) -> lenses_of l (moved a x y) = lenses_of l a.
Proof. intros H. apply map_ext_in. intros [[n k] z] I. apply kind_moved, (H n k z I). Qed.
Lemma proper_params k0 : (k0 <= 1)%nat -> cast_proper a (fun i => (2 <= i)%nat) l -> cast_proper a (fun i => unit_seed k0 i = None) l.
Proof.
  intros K P n k z H. specialize (P n k z H). destruct k; try exact P. cbn [kind_proper] in *. destruct P as (P1 & P2 & P3). split; [exact P1|]. split; [exact P2|].
  destruct P3 as [P3|P3]; [left; exact P3|right]. unfold unit_seed. replace (Nat.eqb (n + 2) k0) with false; [reflexivity|]. symmetry. apply Nat.eqb_neq. lia.
Qed.
Lemma cast_jacobian : (forall n k z, In (n, k, z) l -> (2 <= n)%nat) -> cast_proper a (fun i => (2 <= i)%nat) l ->
  (forall t, t_multiplane_raytrace cst cst (map program Ls) z_s (Var 0) (Var 1) = Ok t ->
    entries (ad_jacfwd t a) (jacfwd (fun x y => pair_value (multiplane_raytrace cd cd (lenses_of l a) z_s x y)) (a 0%nat) (a 1%nat))) /\
  (forall t, t_multiplane_effective_deflection cst cst (map program Ls) z_s (Var 0) (Var 1) = Ok t ->
    entries (ad_jacfwd t a) (jacfwd (fun x y => pair_value (multiplane_effective_deflection cd cd (lenses_of l a) z_s x y)) (a 0%nat) (a 1%nat))).
Proof.
  intros N P. destruct (proj1 (cast_forward (unit_seed 0) (proper_params 0 ltac:(lia) P))) as [G0 F0]. destruct (proj1 (cast_forward (unit_seed 1) (proper_params 1 ltac:(lia) P))) as [G1 F1].
  split; intros t T.
  - clear F0 F1. unfold pair_follows in G0, G1. rewrite T in G0, G1. destruct G0 as (v & E & A0 & B0). destruct G1 as (w & E' & A1 & B1).
    assert (W : w = v) by (apply functional_extensionality; intros b; specialize (E b); specialize (E' b); congruence). subst w.
    assert (J := jacfwd_is_ad v t a (conj A0 B0) (conj A1 B1)).
    replace (fun x y => pair_value (multiplane_raytrace cd cd (lenses_of l a) z_s x y)) with (fun x y => v (moved a x y)); [exact J|].
    apply functional_extensionality; intros x; apply functional_extensionality; intros y. rewrite <- (lenses_moved x y N), <- (lenses_cast a l (moved a x y)).
    assert (Q := E (moved a x y)). cbv beta in Q. cbn [moved] in Q. rewrite Q. reflexivity.
  - clear G0 G1. unfold pair_follows in F0, F1. rewrite T in F0, F1. destruct F0 as (v & E & A0 & B0). destruct F1 as (w & E' & A1 & B1).
    assert (W : w = v) by (apply functional_extensionality; intros b; specialize (E b); specialize (E' b); congruence). subst w.
    assert (J := jacfwd_is_ad v t a (conj A0 B0) (conj A1 B1)).
    replace (fun x y => pair_value (multiplane_effective_deflection cd cd (lenses_of l a) z_s x y)) with (fun x y => v (moved a x y)); [exact J|].
    apply functional_extensionality; intros x; apply functional_extensionality; intros y. rewrite <- (lenses_moved x y N), <- (lenses_cast a l (moved a x y)).
    assert (Q := E (moved a x y)). cbv beta in Q. cbn [moved] in Q. rewrite Q. reflexivity.
Qed.
End Cast.
(** lenses that are fine everywhere are met at fine points *)
Lemma meets_fine cd tcd a Ls z_s : (forall L, In L Ls -> forall u v, fine L u v) -> forall last planes X Y tx ty, meets cd tcd a Ls z_s last planes X Y tx ty.
Proof.
  intros H last planes. induction planes as [|i rest IH]; intros X Y tx ty; cbn [meets]; [exact I|]. destruct (nth_error Ls i) as [L|] eqn:E; [|exact I].
  split; [apply H, (nth_error_In _ _ E)|]. destruct (if Nat.eqb i last then _ else _); [apply IH|exact I].
Qed.
Lemma meets_everywhere cd tcd a Ls z_s x y : (forall L, In L Ls -> forall u v, fine L u v) -> meets_all cd tcd a Ls z_s x y.
Proof. intros H. unfold meets_all. destruct (lens_planes _); [exact I|]. apply meets_fine, H. Qed.
(** two softened isothermal ellipsoids at redshifts 1 and 2, and a source at 3 *)
Definition two_sies : cast := [(2%nat, Sie (1 / 10), 1); (7%nat, Sie (1 / 5), 2)].
Definition at_half : nat -> R := fun i => match i with 0%nat => 2 | 1%nat => 1 | _ => 1 / 2 end.
Lemma two_fine : distances_fine (fun _ z => z) (fun _ z => z) at_half (traced_cast at_half two_sies) 3 /\ meets_all (fun _ z => z) (fun _ z => z) at_half (traced_cast at_half two_sies) 3 2 1 /\
  planes_apart (fun _ z => z) at_half (traced_cast at_half two_sies) 3 /\ (forall fixed, cast_proper at_half fixed two_sies) /\ (forall n k z, In (n, k, z) two_sies -> (2 <= n)%nat) /\
  exists t, t_multiplane_raytrace Cst Cst (map program (traced_cast at_half two_sies)) 3 (Var 0) (Var 1) = Ok t.
Proof.
  split; [|split; [|split; [|split; [|split]]]].
  - unfold distances_fine. split; [lra|]. split; [lra|]. split; [lra|]. intros L H. simpl in H. destruct H as [<-|[<-|[]]]; split; intros E; unfold redshift in E; simpl in E; lra.
  - apply meets_everywhere. intros L [<-|[<-|[]]] u v; simpl; right; lra.
  - split; [unfold two_sies, traced_cast; cbn [map redshift program kind_traced kind_program t_z]; repeat (apply NoDup_cons; [simpl; unfold redshift; simpl; intros H; repeat (destruct H as [H|H]; try lra); exact H|]); apply NoDup_nil|]. intros z z' _ _ H. exact H.
  - intros fixed n k z H. simpl in H. destruct H as [H|[H|[]]]; injection H as <- <- <-; simpl; unfold at_half; simpl; repeat split; try lra; left; lra.
  - intros n k z H. simpl in H. destruct H as [H|[H|[]]]; injection H as <- <- <-; lia.
  - assert (P : lens_planes [1; 2] = [0; 1]%nat) by (unfold lens_planes, enumerate; repeat (simpl; destruct (Rle_dec _ _); try lra); reflexivity).
    unfold t_multiplane_raytrace, t_raytrace_core. change (map t_z (map program (traced_cast at_half two_sies))) with [1; 2]. rewrite P. eexists. reflexivity.
Qed.
