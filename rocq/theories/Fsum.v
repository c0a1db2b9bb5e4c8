(** * Finite sums of reals indexed by 0 .. n-1 *)
From Coq Require Import Reals Lra Lia List Arith.
From Coquelicot Require Import Coquelicot.
Local Open Scope R_scope.

Fixpoint fsum (n : nat) (f : nat -> R) : R := match n with O => 0 | S k => fsum k f + f k end.

Lemma fsum_ext n f g : (forall i, (i < n)%nat -> f i = g i) -> fsum n f = fsum n g.
Proof.
  induction n as [|n IH]; intros H; [reflexivity|]. cbn [fsum]. rewrite IH, (H n) by (lia || (intros; apply H; lia)). reflexivity.
Qed.
Lemma fsum_plus n f g : fsum n (fun i => f i + g i) = fsum n f + fsum n g.
Proof. induction n as [|n IH]; cbn [fsum]; [ring|]. rewrite IH. ring. Qed.
Lemma fsum_minus n f g : fsum n (fun i => f i - g i) = fsum n f - fsum n g.
Proof. induction n as [|n IH]; cbn [fsum]; [ring|]. rewrite IH. ring. Qed.
Lemma fsum_opp n f : fsum n (fun i => - f i) = - fsum n f.
Proof. induction n as [|n IH]; cbn [fsum]; [ring|]. rewrite IH. ring. Qed.
Lemma fsum_scal_l n c f : fsum n (fun i => c * f i) = c * fsum n f.
Proof. induction n as [|n IH]; cbn [fsum]; [ring|]. rewrite IH. ring. Qed.
Lemma fsum_scal_r n c f : fsum n (fun i => f i * c) = fsum n f * c.
Proof. induction n as [|n IH]; cbn [fsum]; [ring|]. rewrite IH. ring. Qed.
Lemma fsum_div n c f : fsum n (fun i => f i / c) = fsum n f / c.
Proof. unfold Rdiv. apply fsum_scal_r. Qed.
Lemma fsum_const n c : fsum n (fun _ => c) = INR n * c.
Proof. induction n as [|n IH]; cbn [fsum]; [simpl; ring|]. rewrite IH, S_INR. ring. Qed.
Lemma fsum_zero n f : (forall i, (i < n)%nat -> f i = 0) -> fsum n f = 0.
Proof. intros H. rewrite (fsum_ext n f (fun _ => 0)) by exact H. rewrite fsum_const. ring. Qed.
Lemma fsum_swap n m f : fsum n (fun i => fsum m (fun j => f i j)) = fsum m (fun j => fsum n (fun i => f i j)).
Proof.
  induction n as [|n IH]; cbn [fsum]; [symmetry; apply fsum_zero; reflexivity|].
  rewrite IH, <- fsum_plus. reflexivity.
Qed.
Lemma fsum_le n f g : (forall i, (i < n)%nat -> f i <= g i) -> fsum n f <= fsum n g.
Proof.
  induction n as [|n IH]; intros H; [apply Rle_refl|]. cbn [fsum]. apply Rplus_le_compat; [apply IH; intros; apply H; lia|apply H; lia].
Qed.
Lemma fsum_nonneg n f : (forall i, (i < n)%nat -> 0 <= f i) -> 0 <= fsum n f.
Proof. intros H. rewrite <- (fsum_zero n (fun _ => 0)) by reflexivity. apply fsum_le, H. Qed.
Lemma fsum_ge_one n f i : (i < n)%nat -> (forall j, (j < n)%nat -> 0 <= f j) -> f i <= fsum n f.
Proof.
  induction n as [|n IH]; intros Hi H; [lia|]. cbn [fsum]. assert (Hn := H n ltac:(lia)).
  destruct (Nat.eq_dec i n) as [->|D].
  - assert (0 <= fsum n f) by (apply fsum_nonneg; intros; apply H; lia). lra.
  - assert (f i <= fsum n f) by (apply IH; [lia|intros; apply H; lia]). lra.
Qed.
Lemma fsum_pos n f i : (i < n)%nat -> (forall j, (j < n)%nat -> 0 <= f j) -> 0 < f i -> 0 < fsum n f.
Proof. intros Hi H P. eapply Rlt_le_trans; [exact P|]. apply fsum_ge_one; assumption. Qed.
Lemma fsum_app n m f : fsum (n + m) f = fsum n f + fsum m (fun i => f (n + i)%nat).
Proof.
  induction m as [|m IH]; cbn [fsum]; [rewrite Nat.add_0_r; ring|]. rewrite Nat.add_succ_r. cbn [fsum]. rewrite IH. ring.
Qed.
Lemma fsum_S_l n f : fsum (S n) f = f 0%nat + fsum n (fun i => f (S i)).
Proof. change (S n) with (1 + n)%nat. rewrite fsum_app. cbn [fsum]. rewrite Rplus_0_l. reflexivity. Qed.
Lemma fsum_rev n f : fsum n f = fsum n (fun i => f (n - 1 - i)%nat).
Proof.
  revert f. induction n as [|n IH]; intros f; [reflexivity|]. rewrite fsum_S_l. cbn [fsum].
  rewrite (IH (fun i => f (S i))). replace (S n - 1 - n)%nat with 0%nat by lia. rewrite Rplus_comm. f_equal.
  apply fsum_ext. intros i Hi. f_equal. lia.
Qed.
Lemma fsum_single n f i : (i < n)%nat -> (forall j, (j < n)%nat -> j <> i -> f j = 0) -> fsum n f = f i.
Proof.
  induction n as [|n IH]; intros Hi H; [lia|]. cbn [fsum]. destruct (Nat.eq_dec i n) as [->|D].
  - rewrite fsum_zero by (intros j Hj; apply H; lia). ring.
  - rewrite (H n) by lia. rewrite IH by (lia || (intros; apply H; lia)). ring.
Qed.
(** a sum over i * m + j is a double sum *)
Lemma fsum_blocks n m f : fsum (n * m) f = fsum n (fun i => fsum m (fun j => f (i * m + j)%nat)).
Proof.
  induction n as [|n IH]; [reflexivity|]. cbn [fsum]. rewrite <- IH.
  replace (S n * m)%nat with (n * m + m)%nat by lia. apply fsum_app.
Qed.
Lemma fsum_prod n m f g : fsum n f * fsum m g = fsum n (fun i => fsum m (fun j => f i * g j)).
Proof.
  rewrite <- fsum_scal_r. apply fsum_ext. intros i _. symmetry. apply fsum_scal_l.
Qed.
Lemma fsum_Rabs n f : Rabs (fsum n f) <= fsum n (fun i => Rabs (f i)).
Proof.
  induction n as [|n IH]; cbn [fsum]; [rewrite Rabs_R0; lra|]. eapply Rle_trans; [apply Rabs_triang|]. lra.
Qed.
Lemma is_derive_fsum n (f : nat -> R -> R) (d : nat -> R) t :
  (forall i, (i < n)%nat -> is_derive (f i) t (d i)) -> is_derive (fun u => fsum n (fun i => f i u)) t (fsum n d).
Proof.
  induction n as [|n IH]; intros H; cbn [fsum].
  - apply (is_derive_const (K := R_AbsRing) (V := R_NormedModule) 0 t).
  - apply (is_derive_plus (fun u => fsum n (fun i => f i u)) (f n)); [apply IH; intros; apply H; lia|apply H; lia].
Qed.
