(** * The series of the elliptical power law *)
From Coq Require Import Reals List Arith Lia Lra Psatz.
From Coquelicot Require Import Coquelicot.
From Verif Require Import Py Fsum Calc2 RealFun Geo_Model Lens_Spec Lens_Lib Wirtinger Epl_Model.
Import ListNotations.
Local Open Scope R_scope.

(** ** chunks *)
Section Series.
Variables (z : C) (t q : R).
Definition ellf : R := (1 - q) / (1 + q).
Definition phase : C := (z / Cconj z * - ellf)%C.
Fixpoint omega (k : nat) : C := match k with O => z | S j => (factor t (S j) * phase * omega j)%C end.
Fixpoint psum (n : nat) : C := match n with O => 0%C | S m => (psum m + omega m)%C end.
Lemma loop_sum m : fold_left (fun st i => let omega_i := (factor t i * phase * fst st)%C in (omega_i, (snd st + omega_i)%C)) (seq 1 m) (z, z)
  = (omega m, psum (S m)).
Proof.
  induction m as [|m IH]; [cbn [seq fold_left psum omega]; f_equal; ring|].
  rewrite seq_S, fold_left_app, IH. cbn [fold_left fst snd]. reflexivity.
Qed.
Lemma r_omega_one n : (1 <= n)%nat -> r_omega z t q n (Some 1%nat) = Ok (psum n).
Proof.
  intros H. unfold r_omega. cbn [Nat.eqb]. fold ellf. fold phase. rewrite loop_sum. cbn [snd]. f_equal. f_equal. lia.
Qed.
Lemma cumprod_from_sum (p : C) (l : list R) : forall j, 
  l = map (factor t) (seq (S j) (length l)) -> (z * p = omega j)%C ->
  (z * csum (cumprod_from p (map (fun a => (a * phase)%C) (map RtoC l))) = psum (S j + length l) - psum (S j))%C.
Proof.
  revert p. induction l as [|a l IH]; intros p j E H.
  - cbn [map cumprod_from csum fold_right length]. rewrite Nat.add_0_r. ring.
  - cbn [length seq map] in E. injection E as Ea El. cbn [map cumprod_from csum fold_right]. fold (csum (cumprod_from (p * (a * phase))%C (map (fun a => (a * phase)%C) (map RtoC l)))).
    assert (H' : (z * (p * (a * phase)) = omega (S j))%C).
    { cbn [omega]. rewrite <- Ea, <- H. ring. }
    rewrite Cmult_plus_distr_l, (IH (p * (a * phase))%C (S j) El H'), H'.
    cbn [length]. replace (S (S j) + length l)%nat with (S j + S (length l))%nat by lia. cbn [psum]. ring.
Qed.
Lemma cumprod_as_from l : cumprod l = cumprod_from 1%C l.
Proof. destruct l as [|a l]; [reflexivity|]. cbn [cumprod cumprod_from]. rewrite Cmult_1_l. reflexivity. Qed.
Lemma single_chunk n c : (2 <= c)%nat -> (n / c = 1)%nat -> r_omega z t q n (Some c) = Ok (psum n).
Proof.
  intros Hc H1. assert (Hn : (c <= n)%nat). { destruct (Nat.le_gt_cases c n) as [L|L]; [exact L|]. rewrite Nat.div_small in H1 by exact L. discriminate. }
  unfold r_omega. destruct (Nat.eqb_spec c 1); [lia|]. destruct (Nat.eqb_spec c 0); [lia|]. fold ellf. fold phase. rewrite H1. cbv zeta.
  cbn [seq for_loop bind]. f_equal. rewrite cumprod_as_from. unfold slice. cbn [Nat.mul skipn]. rewrite Nat.sub_0_r.
  rewrite firstn_all2 by (rewrite !map_length, seq_length; lia).
  rewrite Cmult_plus_distr_l, (cumprod_from_sum 1%C (map (factor t) (seq 1 (n - 1))) 0).
  - rewrite map_length, seq_length. replace (1 + (n - 1))%nat with n by lia. cbn [psum omega]. ring.
  - rewrite map_length, seq_length. reflexivity.
  - cbn [omega]. ring.
Qed.
Lemma r_omega_none n : (1 <= n)%nat -> r_omega z t q n None = Ok (psum n).
Proof.
  intros H. change (r_omega z t q n None) with (r_omega z t q n (Some n)). destruct (Nat.eq_dec n 1) as [->|]; [apply r_omega_one; lia|].
  apply single_chunk; [lia|]. apply Nat.div_same. lia.
Qed.
Lemma big_chunk n c : (2 <= c)%nat -> (n < c)%nat -> r_omega z t q n (Some c) = Raise TypeError.
Proof.
  intros H1 H2. unfold r_omega. destruct (Nat.eqb_spec c 1); [lia|]. destruct (Nat.eqb_spec c 0); [lia|]. rewrite Nat.div_small by exact H2. reflexivity.
Qed.
End Series.
(** four terms in chunks of two: the last product is used twice *)
Lemma two_chunks z t q : r_omega z t q 4 (Some 2%nat) = Ok (psum z t q 4 + omega z t q 3 * (factor t 3 * phase z q))%C.
Proof.
  unfold r_omega. cbn [Nat.eqb]. cbv zeta. change (4 / 2)%nat with 2%nat. fold (ellf q). fold (phase z q).
  change (Nat.max ((0 + 1) * 2) 4) with 4%nat. change (Nat.max ((1 + 1) * 2) 4) with 4%nat.
  cbn [seq Nat.sub for_loop bind map]. unfold slice. cbn [Nat.sub firstn skipn map Nat.mul Nat.add Nat.max cumprod cumprod_from bind py_last rev app tl].
  f_equal. cbn [csum fold_right psum omega]. ring.
Qed.
Lemma phase_witness : phase (1, 0) (1 / 2) = RtoC (- (1 / 3)).
Proof. unfold phase, ellf, Cdiv, Cmult, Cinv, Cconj, Copp, RtoC. cbn [fst snd]. apply (f_equal2 pair); field. Qed.
Lemma chunk_witness : exists u v : C, r_omega (1, 0) 1 (1 / 2) 4 None = Ok u /\ r_omega (1, 0) 1 (1 / 2) 4 (Some 2%nat) = Ok v /\ u <> v.
Proof.
  exists (psum (1, 0) 1 (1 / 2) 4), (psum (1, 0) 1 (1 / 2) 4 + omega (1, 0) 1 (1 / 2) 3 * (factor 1 3 * phase (1, 0) (1 / 2)))%C.
  split; [apply r_omega_none; lia|]. split; [apply two_chunks|].
  set (d := (omega (1, 0) 1 (1 / 2) 3 * (factor 1 3 * phase (1, 0) (1 / 2)))%C). set (s := psum (1, 0) 1 (1 / 2) 4).
  assert (D : d = RtoC (factor 1 1 * factor 1 2 * factor 1 3 * factor 1 3 / 81)).
  { unfold d. cbn [omega]. rewrite phase_witness. change (1, 0) with (RtoC 1). rewrite <- !RtoC_mult. f_equal. field. }
  intros E. assert (E1 : fst d = 0). { assert (E2 := f_equal fst E). unfold Cplus in E2. cbn [fst] in E2. lra. }
  rewrite D in E1. cbn [RtoC fst] in E1. unfold factor in E1. cbn [INR] in E1. lra.
Qed.
