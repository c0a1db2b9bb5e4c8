(** * Halos: derivatives with respect to everything, and whole scenes *)
From Coq Require Import Reals Lra Lia Arith ZArith List Bool.
From Coquelicot Require Import Coquelicot.
From Verif Require Import RealFun Const_Model Const_Proofs Cosmo_Model CosmoTable_Model LensBase_Model LensBasic_Model Jaffe_Model Nfw_Model Tnfw_Model Multipole_Model Halo_Model Multiplane_Model
  Ad_Model Ad_Spec Ad_Proofs AdLens_Model AdLens_Spec Rev_Model Rev_Spec Rev_Proofs AdMulti_Model AdMulti_Spec AdMulti_Proofs AdMulti2_Proofs AdMulti3_Proofs AdCosmo_Model AdCosmo_Spec AdCosmo_Proofs AdCosmo2_Proofs AdCosmo4_Proofs AdHalo_Model AdHalo_Spec AdHalo_Proofs.
Import ListNotations.
Local Open Scope R_scope.
Local Notation env := (nat -> R).

(** ** both modes at once *)
Section Modes.
Variables (m : mode) (a : env).
Definition near_mode (P : env -> Prop) : Prop := match m with Forward sd => near a sd P | Backward req => near_back a req P end.
Definition can_mode (t : expr) : Prop := match m with Forward sd => Ad_Proofs.ok a sd t | Backward req => tame a t /\ forall k, req k = true -> Ad_Proofs.ok a (one_of req k) t end.
Lemma fm_near F t : follows m a F t -> near_mode (fun b => F b = ev b t).
Proof. unfold near_mode. destruct m as [sd|req]; [apply fl_near|]. intros (T & V & H). split; [symmetry; exact V|]. intros k K. apply fl_near, H, K. Qed.
Lemma fm_can F t : follows m a F t -> can_mode t.
Proof. unfold can_mode. destruct m as [sd|req]; [apply (fl_ok a sd F)|]. intros (T & V & H). split; [exact T|]. intros k K. apply (fl_ok a _ F), H, K. Qed.
Lemma fm_of F t : can_mode t -> near_mode (fun b => F b = ev b t) -> follows m a F t.
Proof. unfold near_mode, can_mode. destruct m as [sd|req]; [apply fl_of|]. intros [T O] [V H]. split; [exact T|]. split; [symmetry; exact V|]. intros k K. apply fl_of; auto. Qed.
Lemma nm_both P Q : near_mode P -> near_mode Q -> near_mode (fun b => P b /\ Q b).
Proof. unfold near_mode. destruct m; [apply near_both|apply nb_both]. Qed.
Lemma nm_mono (P Q : env -> Prop) : (forall b, P b -> Q b) -> near_mode P -> near_mode Q.
Proof. unfold near_mode. destruct m; [apply near_mono|apply nb_mono]. Qed.
Lemma nm_here P : near_mode P -> P a.
Proof. unfold near_mode. destruct m; [apply near_here|apply nb_here]. Qed.
Lemma fm_val F t : follows m a F t -> F a = ev a t.
Proof. intros H. apply (nm_here (fun b => F b = ev b t)), fm_near, H. Qed.
End Modes.

Section Halo.
Variables (m : mode) (a : env) (cd rho : env -> R -> R) (t_cd t_rho : R -> expr) (z_s z : R) (n : nat).
Notation Rel := (follows m a).
Hypothesis F1 : Rel (fun b => cd b z) (t_cd z).
Hypothesis F2 : Rel (fun b => cd b z_s) (t_cd z_s).
Hypothesis F3 : Rel (fun b => rho b z) (t_rho z).
Hypothesis PL : placed cd rho z_s z a.
Notation L h := (halo_traced cd rho t_cd t_rho z_s n h z a).
Lemma halo_can h x y dx dy : halo_proper n h a -> Rel x dx -> Rel y dy -> fine (L h) (x a) (y a) ->
  can_mode m a (fst (t_deflection (program (L h)) dx dy)) /\ can_mode m a (snd (t_deflection (program (L h)) dx dy)) /\ can_mode m a (t_psi (program (L h)) dx dy) /\ can_mode m a (t_kappa (program (L h)) dx dy) /\
  can_mode m a (fst (halo_physical_program t_cd t_rho z_s n h z dx dy)) /\ can_mode m a (snd (halo_physical_program t_cd t_rho z_s n h z dx dy)).
Proof.
  intros H Hx Hy HF. cbn [fine halo_traced] in HF. rewrite (fm_val m a _ _ Hx), (fm_val m a _ _ Hy) in HF. destruct PL as (P1 & P2 & P3 & P4).
  assert (V1 := fm_val m a _ _ F1). assert (V2 := fm_val m a _ _ F2). assert (V3 := fm_val m a _ _ F3). cbv beta in V1, V2, V3. rewrite V1, V2 in P3. rewrite V3 in P4.
  assert (K1 := fm_can m a _ _ F1). assert (K2 := fm_can m a _ _ F2). assert (K3 := fm_can m a _ _ F3). assert (Kx := fm_can m a _ _ Hx). assert (Ky := fm_can m a _ _ Hy).
  unfold can_mode in *. cbn [program halo_traced]. destruct m as [sd|req].
  - exact (fw_halo a sd t_cd t_rho z_s z n dx dy Kx Ky K1 K2 K3 P1 P2 P3 P4 h cd rho V1 V3 H HF).
  - assert (B := bw_halo a t_cd t_rho z_s z n dx dy (proj1 Kx) (proj1 Ky) (proj1 K1) (proj1 K2) (proj1 K3) P1 P2 P3 P4 h cd rho V1 V3 H HF).
    assert (W : forall k, req k = true -> _) by exact (fun k E => fw_halo a (one_of req k) t_cd t_rho z_s z n dx dy (proj2 Kx k E) (proj2 Ky k E) (proj2 K1 k E) (proj2 K2 k E) (proj2 K3 k E) P1 P2 P3 P4 h cd rho V1 V3 H HF).
    destruct B as (B1 & B2 & B3 & B4 & B5 & B6). repeat split; try assumption; intros k E; apply (W k E).
Qed.
Lemma halo_near h x y dx dy : Rel x dx -> Rel y dy -> near_mode m a (fun b =>
  reduced_deflection_angle (lens_at (L h) b) (x b) (y b) = (ev b (fst (t_deflection (program (L h)) dx dy)), ev b (snd (t_deflection (program (L h)) dx dy))) /\
  potential (lens_at (L h) b) (x b) (y b) = ev b (t_psi (program (L h)) dx dy) /\ convergence (lens_at (L h) b) (x b) (y b) = ev b (t_kappa (program (L h)) dx dy)).
Proof.
  intros Hx Hy. generalize (nm_both m a _ _ (nm_both m a _ _ (fm_near m a _ _ Hx) (fm_near m a _ _ Hy)) (nm_both m a _ _ (fm_near m a _ _ F1) (nm_both m a _ _ (fm_near m a _ _ F2) (fm_near m a _ _ F3)))).
  apply nm_mono. intros b ((E1 & E2) & E3 & E4 & E5). rewrite E1, E2. exact (halo_value cd rho t_cd t_rho z_s z n b dx dy E3 E4 E5 h).
Qed.
Theorem halo_follows h : halo_proper n h a -> deflects Rel a (L h) /\ delays Rel a (L h) /\ weighs Rel a (L h).
Proof.
  intros H.
  split; [split; [intros b; destruct h; reflexivity|]; split|split]; intros x y dx dy Hx Hy HF; destruct (halo_can h x y dx dy H Hx Hy HF) as (K1 & K2 & K3 & K4 & _); (apply fm_of; [assumption|]);
    (eapply nm_mono; [|apply (halo_near h x y dx dy Hx Hy)]); cbv beta; intros b (E1 & E2 & E3); [rewrite E1; reflexivity|rewrite E1; reflexivity|exact E2|exact E3].
Qed.
Theorem physical_follows h : halo_proper n h a -> vector_follows Rel a (fine (L h)) (halo_physical cd rho z_s n h z) (halo_physical_program t_cd t_rho z_s n h z).
Proof.
  intros H. split; intros x y dx dy Hx Hy HF; destruct (halo_can h x y dx dy H Hx Hy HF) as (_ & _ & _ & _ & K1 & K2); (apply fm_of; [assumption|]);
    generalize (nm_both m a _ _ (nm_both m a _ _ (fm_near m a _ _ Hx) (fm_near m a _ _ Hy)) (nm_both m a _ _ (fm_near m a _ _ F1) (nm_both m a _ _ (fm_near m a _ _ F2) (fm_near m a _ _ F3))));
    apply nm_mono; intros b ((E1 & E2) & E3 & E4 & E5); rewrite E1, E2, (physical_value cd rho t_cd t_rho z_s z n b dx dy E3 E4 E5 h); reflexivity.
Qed.
End Halo.

(** ** a whole scene in a flat universe *)
Section Scene.
Variables (m : mode) (a : env) (i j k : nat) (l : scene) (z_s : R).
Notation cd := (fun (b : env) z => flat_comoving_distance z (b i) (b j)).
Notation t_cd := (fun z => t_comoving_distance (Cst z) (Var i) (Var j)).
Notation rho := (fun (b : env) z => critical_density z (b k) (b j)).
Notation t_rho := (fun z => t_critical_density (Cst z) (Var k) (Var j)).
Notation Ls := (traced_scene cd rho t_cd t_rho z_s a l).
Hypothesis T : tabulated (a i) (a j) z_s.
Hypothesis Z0 : 0 < z_s.
Hypothesis Z : forall n p z, In (n, p, z) l -> 0 < z < z_s.
Hypothesis K : 0 < a k.
Lemma in_scene L : In L Ls -> exists n p z, In (n, p, z) l /\ L = traced_piece cd rho t_cd t_rho z_s a n p z.
Proof. intros H. apply in_map_iff in H. destruct H as ([[n p] z] & E & H). exists n, p, z. auto. Qed.
Lemma piece_z n p z : redshift (traced_piece cd rho t_cd t_rho z_s a n p z) = z.
Proof. destruct p as [q|h]; [destruct q|destruct h]; reflexivity. Qed.
Lemma scene_z L : In L Ls -> 0 < redshift L < z_s.
Proof. intros H. apply in_scene in H. destruct H as (n & p & z & H & ->). rewrite piece_z. apply (Z n p z H). Qed.
Lemma scene_fine : distances_fine cd cd a Ls z_s.
Proof.
  assert (P := in_positive _ _ _ z_s T Z0 ltac:(lra)). split; [lra|]. split; [lra|]. split; [lra|]. intros L H. destruct (scene_z L H) as [Q1 Q2].
  assert (A := in_positive _ _ _ (redshift L) T Q1 ltac:(lra)). assert (B := in_order _ _ _ (redshift L) z_s T ltac:(lra) Q2 ltac:(lra)). cbv beta. lra.
Qed.
Lemma scene_distance z : 0 <= z -> follows m a (fun b => cd b z) (t_cd z).
Proof. intros Q. apply (in_distance m a (fun b => b i) (fun b => b j) (Var i) (Var j) (m_var m a i) (m_var m a j) z_s T (fun _ => z)); [apply m_cst|exact Q]. Qed.
Lemma scene_density z : follows m a (fun b => rho b z) (t_rho z).
Proof. apply (m_density m a (fun _ => z) (fun b => b k) (fun b => b j)); [apply m_cst|apply m_var|apply m_var]. Qed.
Lemma scene_placed z : 0 < z < z_s -> placed cd rho z_s z a.
Proof.
  intros Q. destruct T as (_ & O & _). assert (A := in_positive _ _ _ z T ltac:(lra) ltac:(lra)). assert (B := in_order _ _ _ z z_s T ltac:(lra) ltac:(lra) ltac:(lra)).
  split; [lra|]. split; [lra|]. split; [lra|]. unfold critical_density. cbv zeta. apply Rmult_lt_0_compat; [exact K|]. assert (0 < (1 + z) ^ 3) by (apply pow_lt; lra). nra.
Qed.
Lemma piece_follows n p z : In (n, p, z) l -> scene_proper a (still m) l -> let L := traced_piece cd rho t_cd t_rho z_s a n p z in deflects (follows m a) a L /\ delays (follows m a) a L /\ weighs (follows m a) a L.
Proof.
  intros H P L. assert (Q := Z n p z H). specialize (P n p z H). unfold L. destruct p as [q|h]; cbn [traced_piece].
  - destruct m as [sd|req]; [apply (kind_forward a sd n q z P)|apply (kind_backward a req n q z P)].
  - apply halo_follows; [apply scene_distance; lra|apply scene_distance; lra|apply scene_density|apply scene_placed, Q|exact P].
Qed.
Lemma scene_follow : scene_proper a (still m) l -> inputs_follow (follows m a) cd cd t_cd t_cd a Ls z_s (fun b => b 0%nat) (fun b => b 1%nat) (Var 0) (Var 1) /\ forall L, In L Ls -> delays (follows m a) a L.
Proof.
  intros P. assert (KK : forall L, In L Ls -> deflects (follows m a) a L /\ delays (follows m a) a L).
  { intros L HL. apply in_scene in HL. destruct HL as (n & p & z & H & ->). destruct (piece_follows n p z H P) as (A & B & _). auto. }
  split; [|intros L HL; apply (KK L HL)]. split; [intros L HL; apply (KK L HL)|].
  split; [|split; apply m_var]. intros z H. assert (0 <= z); [|split; apply scene_distance; assumption].
  destruct H as [<-|H]; [lra|]. apply in_map_iff in H. destruct H as (L & <- & H). destruct (scene_z L H). lra.
Qed.
Theorem scene_exact : scene_proper a (still m) l -> meets_all cd cd a Ls z_s (a 0%nat) (a 1%nat) ->
  rays_follow (exactly m a) cd cd t_cd t_cd Ls z_s (fun b => b 0%nat) (fun b => b 1%nat) (Var 0) (Var 1) /\
  (NoDup (map snd l) -> delays_follow (exactly m a) cd cd t_cd t_cd a Ls z_s (fun b => b 0%nat) (fun b => b 1%nat) (Var 0) (Var 1)).
Proof.
  intros P M. destruct (scene_follow P) as [I D]. assert (DF := scene_fine).
  assert (PA : NoDup (map snd l) -> planes_apart cd a Ls z_s).
  { intros ND. assert (E : map redshift Ls = map snd l) by (unfold traced_scene; rewrite map_map; apply map_ext; intros [[n p] z]; apply piece_z).
    assert (Q : forall z, In z (z_s :: map redshift Ls) -> 0 < z <= z_s) by (intros z [<-|H]; [lra|apply in_map_iff in H; destruct H as (L & <- & H); destruct (scene_z L H); lra]).
    split.
    - constructor; [|rewrite E; exact ND]. intros H. apply in_map_iff in H. destruct H as (L & E' & H). destruct (scene_z L H). lra.
    - intros z z' H H' N. destruct (Q z H), (Q z' H'). cbv beta. destruct (Rtotal_order z z') as [O|[O|O]]; [|contradiction|].
      + assert (B := in_order _ _ _ z z' T ltac:(lra) O ltac:(lra)). lra.
      + assert (B := in_order _ _ _ z' z T ltac:(lra) O ltac:(lra)). lra. }
  destruct m as [sd|req].
  - destruct (forward_rays a sd cd cd t_cd t_cd Ls z_s _ _ _ _ I DF M) as [A B]. split; [exact A|]. intros ND. apply B; [exact D|apply PA, ND].
  - destruct (backward_rays a req cd cd t_cd t_cd Ls z_s _ _ _ _ I DF M) as [A B]. split; [exact A|]. intros ND. apply B; [exact D|apply PA, ND].
Qed.
End Scene.
(** a truncated halo in front of a softened isothermal ellipsoid, in a universe of half matter *)
Definition a_scene : scene := [(5%nat, Heavy (Tnfw true 0), 1); (10%nat, Plain (Sie (1 / 10)), 2)].
Lemma scene_hyps : let cd := fun b z => flat_comoving_distance z (b 2%nat) (b 3%nat) in let rho := fun b z => critical_density z (b 4%nat) (b 3%nat) in
  let t_cd := fun z => t_comoving_distance (Cst z) (Var 2) (Var 3) in let t_rho := fun z => t_critical_density (Cst z) (Var 4) (Var 3) in
  tabulated (at_stack 2%nat) (at_stack 3%nat) 3 /\ (forall n p z, In (n, p, z) a_scene -> 0 < z < 3) /\ 0 < at_stack 4%nat /\ (forall m, scene_proper at_stack (still m) a_scene) /\ NoDup (map snd a_scene) /\
  meets_all cd cd at_stack (traced_scene cd rho t_cd t_rho 3 at_stack a_scene) 3 (at_stack 0%nat) (at_stack 1%nat).
Proof.
  intros cd rho t_cd t_rho.
  assert (T : tabulated (at_stack 2%nat) (at_stack 3%nat) 3).
  { assert (E : entry0 (1 / 2) = 1) by (unfold entry0; replace (1 / 2 / (1 - 1 / 2)) with 1 by field; unfold Rpower; rewrite ln_1, Rmult_0_r; apply exp_0). unfold tabulated, at_stack; rewrite E; lra. }
  split; [exact T|]. split; [intros n p z H; simpl in H; destruct H as [H|[H|[]]]; injection H as <- <- <-; lra|]. split; [simpl; lra|].
  split; [intros m n p z H; simpl in H; destruct H as [H|[H|[]]]; injection H as <- <- <-; simpl; unfold at_stack; simpl; repeat split; try lra; left; lra|].
  split; [simpl; repeat (apply NoDup_cons; [simpl; intros H; repeat (destruct H as [H|H]; try lra); exact H|]); apply NoDup_nil|].
  unfold meets_all. set (Ls := traced_scene _ _ _ _ _ _ _). cbv zeta.
  assert (E : map redshift Ls = [1; 2]) by reflexivity. rewrite E.
  assert (P : lens_planes [1; 2] = [0%nat; 1%nat]).
  { unfold lens_planes. simpl. destruct (Rle_dec 1 2); [reflexivity|lra]. }
  rewrite P. cbn [nth length Nat.sub meets]. unfold Ls at 1, traced_scene, a_scene. cbn [map nth_error Nat.eqb]. cbv zeta. fold Ls. rewrite E.
  set (D := cd at_stack (redshift _)). assert (DP : 0 < D) by (apply (in_positive _ _ _ 1 T); lra).
  assert (S : forall v, v * arcsec_to_rad * D * rad_to_arcsec / D = v) by (intros v; replace (v * arcsec_to_rad * D * rad_to_arcsec / D) with (v * (arcsec_to_rad * rad_to_arcsec)) by (field; lra); rewrite arcsec_rad_inv; ring).
  cbn [nth]. change (cd at_stack 1) with D. rewrite !S. split.
  - cbn [traced_piece halo_traced fine]. unfold halo_fine. cbn [at_stack Nat.add]. split; [left; lra|]. cbv zeta.
    assert (Q : 3 / 2 < sqrt ((2 - 1 / 2) ^ 2 + (1 - 1 / 2) ^ 2)) by (rewrite <- (sqrt_pow2 (3 / 2)) by lra; apply sqrt_lt_1; lra).
    set (r := sqrt _) in *. assert (H : 3 < (r + 0) / (1 / 2)) by lra. repeat split; lra.
  - unfold Ls at 1, traced_scene, a_scene. cbn [map nth_error Nat.eqb Nat.add]. cbv zeta. split; [|exact I]. cbn [traced_piece kind_traced fine kind_fine]. right. lra.
Qed.
(** an NFW halo of concentration 1 and scale radius 1 Mpc at distance 1 Mpc *)
Definition a_halo : nat -> R := fun k => match k with 0%nat => 2 | 1%nat => 1 | 2%nat => 0 | 3%nat => 0 | 4%nat => 800 * PI / 3 | _ => 1 end.
Lemma halo_hyps : let cd := fun (_ : nat -> R) z => 2 * z in let rho := fun (_ : nat -> R) (_ : R) => 1 in
  placed cd rho 2 1 a_halo /\ halo_proper 2 (Nfw (1 / 10)) a_halo /\ halo_fine cd rho 2 (Nfw (1 / 10)) 1 a_halo (a_halo 0%nat) (a_halo 1%nat).
Proof.
  intros cd rho. assert (PI0 := PI_RGT_0). split; [unfold placed, cd, rho; lra|]. split; [cbn; lra|]. unfold halo_fine. cbn [a_halo Nat.add]. split; [left; lra|].
  unfold angular_diameter_distance, nfw_get_scale_radius, scale_radius_nfw, cd, rho, DELTA. cbv zeta.
  replace (3 * (800 * PI / 3) / (4 * PI * 200 * 1)) with 1 by (field; lra). replace (Rpower 1 (1 / 3)) with 1 by (unfold Rpower; rewrite ln_1, Rmult_0_r, exp_0; reflexivity).
  assert (Q : sqrt ((2 - 0) ^ 2 + (1 - 0) ^ 2) < 3) by (rewrite <- (sqrt_pow2 3) by lra; apply sqrt_lt_1; lra). assert (Q0 := sqrt_pos ((2 - 0) ^ 2 + (1 - 0) ^ 2)). set (r := sqrt _) in *.
  assert (A : arcsec_to_rad < 1 / 10000) by (unfold arcsec_to_rad, rad_to_arcsec; assert (P4 := PI_4); replace (1 / (180 / PI * 60 ^ 2)) with (PI / 648000) by (field; lra); lra).
  assert (A0 := arcsec_to_rad_pos). replace (2 * 1 / (1 + 1) * (r + 1 / 10) * arcsec_to_rad / (1 / 1)) with ((r + 1 / 10) * arcsec_to_rad) by field.
  assert (H : (r + 1 / 10) * arcsec_to_rad < 1 / 2) by nra. unfold clear_of_1, eps_nfw. repeat split; lra.
Qed.
