(** * Gradients with respect to the parameters of the cosmology *)
From Coq Require Import Reals Lra Lia Arith ZArith List Bool.
From Coquelicot Require Import Coquelicot.
From Verif Require Import Py RealFun Derive1 Const_Model Cosmo_Model LensBase_Model LensBasic_Model Multiplane_Model Interp1_Model CosmoTable_Model CosmoTable_Proofs Ad_Model Ad_Spec Ad_Proofs AdLens_Model Rev_Model Rev_Spec
  AdMulti_Model AdMulti_Spec AdMulti2_Proofs AdMulti3_Proofs AdCosmo_Model AdCosmo_Spec AdCosmo_Proofs AdCosmo2_Proofs AdCosmo3_Proofs.
Import ListNotations.
Local Open Scope R_scope.
Local Notation env := (nat -> R).

Lemma shifted (f : R -> R) (x d : R) : is_derive f x d -> is_derive (fun h => f (x + h)) 0 d.
Proof.
  intros H. replace d with (1 * d) by ring. apply (is_derive_comp f (fun h => x + h) 0 d 1); [rewrite Rplus_0_r; exact H|]. auto_derive; [exact I|reflexivity].
Qed.
Lemma gradient a req : req 0%nat = true -> req 1%nat = true -> req 2%nat = true ->
  0 < a 1%nat -> 0 < a 2%nat < 1 -> 0 <= a 0%nat -> / 1000 < entry0 (a 2%nat) -> (1 + a 0%nat) * entry0 (a 2%nat) <= 98 / 10 ->
  let t := t_comoving_distance (Var 0) (Var 1) (Var 2) in let z := a 0%nat in let h0 := a 1%nat in let Om0 := a 2%nat in
  let DH := hubble_distance h0 in let T := true_distance z h0 Om0 in
  exists dz dh dO e, grad a req t 0 = Fin dz /\ grad a req t 1 = Fin dh /\ grad a req t 2 = Fin dO /\
  Rabs (dz - DH / expansion Om0 z) <= / 500 * (DH / expansion Om0 z) /\
  Rabs (dh - - T / h0) <= / 500 * (T / h0) /\
  is_derive (fun O => true_distance z h0 O) Om0 e /\ Rabs (dO - e) <= / 500 * ((DH * (1 + (1 + z) / expansion Om0 z) + T) / (3 * Om0 * (1 - Om0))).
Proof.
  intros R0 R1 R2 Hh HO Hz L U t z h0 Om0 DH T.
  destruct (slopes z h0 Om0 Hh HO Hz L U) as (dz & dh & dO & e & D0 & D1 & D2 & B0 & _ & B1 & De & B2). exists dz, dh, dO, e.
  assert (G : grad_exact (fun b => flat_comoving_distance (b 0%nat) (b 1%nat) (b 2%nat)) t a req).
  { apply (m_exact (Backward req) a). apply (m_distance (Backward req) a (fun b => b 0%nat) (fun b => b 1%nat) (fun b => b 2%nat)); try apply m_var; [lra|exact HO|exact L|].
    assert (entry0 (a 2%nat) * 1 <= entry0 (a 2%nat) * (1 + a 0%nat)) by (apply Rmult_le_compat_l; lra). cbv beta. lra. }
  assert (K : forall k d f, req k = true -> (forall h, flat_comoving_distance (bumped a k h 0%nat) (bumped a k h 1%nat) (bumped a k h 2%nat) = f (a k + h)) -> is_derive f (a k) d -> grad a req t k = Fin d).
  { intros k d f Rk E D. destruct (G k Rk) as (d' & -> & D'). f_equal. rewrite <- (is_derive_unique _ _ _ D'). apply is_derive_unique.
    apply (is_derive_ext (fun h => f (a k + h))); [intros h; symmetry; apply E|]. apply shifted, D. }
  split; [apply (K 0%nat dz (fun z => flat_comoving_distance z h0 Om0) R0); [reflexivity|exact D0]|].
  split; [apply (K 1%nat dh (fun h => flat_comoving_distance z h Om0) R1); [reflexivity|exact D1]|].
  split; [apply (K 2%nat dO (fun O => flat_comoving_distance z h0 O) R2); [reflexivity|exact D2]|]. auto.
Qed.

(** ** several lenses *)
Section Stack.
Variables (m : mode) (a : env) (i j : nat) (l : cast) (z_s : R).
Notation cd := (fun b z => flat_comoving_distance z (b i) (b j)).
Notation t_cd := (fun z => t_comoving_distance (Cst z) (Var i) (Var j)).
Notation Ls := (traced_cast a l).
Hypothesis T : tabulated (a i) (a j) z_s.
Hypothesis Z0 : 0 < z_s.
Hypothesis Z : forall n k z, In (n, k, z) l -> 0 < z < z_s.
Lemma stack_z L : In L Ls -> 0 < redshift L < z_s.
Proof. intros H. apply in_cast in H. destruct H as (n & k & z & H & ->). unfold redshift. replace (t_z (program (kind_traced n k z a))) with z by (destruct k; reflexivity). apply (Z n k z H). Qed.
Lemma stack_fine : distances_fine cd cd a Ls z_s.
Proof.
  assert (P := in_positive _ _ _ z_s T Z0 ltac:(lra)). split; [lra|]. split; [lra|]. split; [lra|]. intros L H. destruct (stack_z L H) as [Q1 Q2].
  assert (A := in_positive _ _ _ (redshift L) T Q1 ltac:(lra)). assert (B := in_order _ _ _ (redshift L) z_s T ltac:(lra) Q2 ltac:(lra)). cbv beta. lra.
Qed.
Lemma stack_follow : cast_proper a (still m) l -> inputs_follow (follows m a) cd cd t_cd t_cd a Ls z_s (fun b => b 0%nat) (fun b => b 1%nat) (Var 0) (Var 1) /\ forall L, In L Ls -> delays (follows m a) a L.
Proof.
  intros P. assert (K : forall L, In L Ls -> deflects (follows m a) a L /\ delays (follows m a) a L).
  { intros L HL. apply in_cast in HL. destruct HL as (n & k & z & H & ->). specialize (P n k z H). destruct m as [sd|req].
    - destruct (kind_forward a sd n k z P) as (A & B & _). auto.
    - destruct (kind_backward a req n k z P) as (A & B & _). auto. }
  split; [|intros L HL; apply (K L HL)]. split; [intros L HL; apply (K L HL)|].
  assert (D : forall z, 0 <= z -> follows m a (fun b => cd b z) (t_cd z)).
  { intros z Q. apply (in_distance m a (fun b => b i) (fun b => b j) (Var i) (Var j) (m_var m a i) (m_var m a j) z_s T (fun _ => z)); [apply m_cst|exact Q]. }
  split; [|split; apply m_var]. intros z H. assert (0 <= z); [|split; apply D; assumption].
  destruct H as [<-|H]; [lra|]. apply in_map_iff in H. destruct H as (L & <- & H). destruct (stack_z L H). lra.
Qed.
Lemma stack_exact : cast_proper a (still m) l -> meets_all cd cd a Ls z_s (a 0%nat) (a 1%nat) ->
  rays_follow (exactly m a) cd cd t_cd t_cd Ls z_s (fun b => b 0%nat) (fun b => b 1%nat) (Var 0) (Var 1) /\
  (NoDup (map snd l) -> delays_follow (exactly m a) cd cd t_cd t_cd a Ls z_s (fun b => b 0%nat) (fun b => b 1%nat) (Var 0) (Var 1)).
Proof.
  intros P M. destruct (stack_follow P) as [I D]. assert (DF := stack_fine).
  assert (PA : NoDup (map snd l) -> planes_apart cd a Ls z_s).
  { intros ND. assert (E : map redshift Ls = map snd l) by (unfold traced_cast; rewrite map_map; apply map_ext; intros [[n k] z]; destruct k; reflexivity).
    assert (Q : forall z, In z (z_s :: map redshift Ls) -> 0 < z <= z_s) by (intros z [<-|H]; [lra|apply in_map_iff in H; destruct H as (L & <- & H); destruct (stack_z L H); lra]).
    split.
    - constructor; [|rewrite E; exact ND]. intros H. apply in_map_iff in H. destruct H as (L & E' & H). destruct (stack_z L H). lra.
    - intros z z' H H' N. destruct (Q z H), (Q z' H'). cbv beta. destruct (Rtotal_order z z') as [O|[O|O]]; [|contradiction|].
      + assert (B := in_order _ _ _ z z' T ltac:(lra) O ltac:(lra)). lra.
      + assert (B := in_order _ _ _ z' z T ltac:(lra) O ltac:(lra)). lra. }
  destruct m as [sd|req].
  - destruct (forward_rays a sd cd cd t_cd t_cd Ls z_s _ _ _ _ I DF M) as [A B]. split; [exact A|]. intros ND. apply B; [exact D|apply PA, ND].
  - destruct (backward_rays a req cd cd t_cd t_cd Ls z_s _ _ _ _ I DF M) as [A B]. split; [exact A|]. intros ND. apply B; [exact D|apply PA, ND].
Qed.
End Stack.
(** a universe of half matter; two softened isothermal ellipsoids *)
Definition a_stack : cast := [(4%nat, Sie (1 / 10), 1); (9%nat, Sie (1 / 5), 2)].
Definition at_stack : nat -> R := fun k => match k with 0%nat => 2 | 1%nat => 1 | _ => 1 / 2 end.
Lemma stack_hyps : tabulated (at_stack 2%nat) (at_stack 3%nat) 3 /\ (forall n k z, In (n, k, z) a_stack -> 0 < z < 3) /\ (forall m, cast_proper at_stack (still m) a_stack) /\ NoDup (map snd a_stack) /\
  meets_all (fun b z => flat_comoving_distance z (b 2%nat) (b 3%nat)) (fun b z => flat_comoving_distance z (b 2%nat) (b 3%nat)) at_stack (traced_cast at_stack a_stack) 3 (at_stack 0%nat) (at_stack 1%nat).
Proof.
  assert (E : entry0 (1 / 2) = 1) by (unfold entry0; replace (1 / 2 / (1 - 1 / 2)) with 1 by field; unfold Rpower; rewrite ln_1, Rmult_0_r; apply exp_0).
  split; [unfold tabulated, at_stack; rewrite E; lra|]. split; [intros n k z H; simpl in H; destruct H as [H|[H|[]]]; injection H as <- <- <-; lra|].
  split; [intros m n k z H; simpl in H; destruct H as [H|[H|[]]]; injection H as <- <- <-; simpl; unfold at_stack; simpl; repeat split; try lra; left; lra|].
  split; [simpl; repeat (apply NoDup_cons; [simpl; intros H; repeat (destruct H as [H|H]; try lra); exact H|]); apply NoDup_nil|].
  apply meets_everywhere. intros L [<-|[<-|[]]] u v; simpl; right; lra.
Qed.
