(** * Roots of complex polynomials, and the polynomial of a field of stars *)
From Coq Require Import Reals Lra Lia List.
From Coquelicot Require Import Coquelicot.
Import ListNotations.
Local Open Scope C_scope.

(** ** polynomial functions of bounded degree *)
Fixpoint pdeg (n : nat) (f : C -> C) : Prop :=
  match n with
  | O => exists c, forall z, f z = c
  | S k => exists c g, pdeg k g /\ forall z, f z = c + z * g z
  end.
Lemma pdeg_ext n f g : (forall z, f z = g z) -> pdeg n f -> pdeg n g.
Proof. destruct n as [|n]; cbn [pdeg]; intros E; [intros (c & H); exists c; intros z; rewrite <- E; apply H|intros (c & h & P & H); exists c, h; split; [exact P|intros z; rewrite <- E; apply H]]. Qed.
Lemma pdeg_S n f : pdeg n f -> pdeg (S n) f.
Proof.
  revert f. induction n as [|n IH]; intros f.
  - intros (c & H). exists c, (fun _ => 0). split; [exists 0; reflexivity|]. intros z. rewrite H. ring.
  - intros (c & g & P & H). exists c, g. split; [apply IH, P|exact H].
Qed.
Lemma pdeg_le n m f : (n <= m)%nat -> pdeg n f -> pdeg m f.
Proof. induction 1 as [|m L IH]; [auto|]. intros H. apply pdeg_S, IH, H. Qed.
Lemma pdeg_c n c : pdeg n (fun _ => c).
Proof. apply (pdeg_le 0); [lia|]. exists c. reflexivity. Qed.
Lemma pdeg_id : pdeg 1 (fun z => z).
Proof. exists 0, (fun _ => 1). split; [exists 1; reflexivity|]. intros z. ring. Qed.
Lemma pdeg_scal n c f : pdeg n f -> pdeg n (fun z => c * f z).
Proof.
  revert f. induction n as [|n IH]; intros f; [intros (d & H); exists (c * d); intros z; rewrite H; reflexivity|]. intros (d & g & P & H). exists (c * d), (fun z => c * g z). split; [apply IH, P|]. intros z. rewrite H. ring.
Qed.
Lemma pdeg_plus n f g : pdeg n f -> pdeg n g -> pdeg n (fun z => f z + g z).
Proof.
  revert f g. induction n as [|n IH]; intros f g.
  - intros (c & H) (d & K). exists (c + d). intros z. rewrite H, K. reflexivity.
  - intros (c & h & P & H) (d & k & Q & K). exists (c + d), (fun z => h z + k z). split; [apply IH; assumption|]. intros z. rewrite H, K. ring.
Qed.
Lemma pdeg_minus n f g : pdeg n f -> pdeg n g -> pdeg n (fun z => f z - g z).
Proof. intros F G. apply (pdeg_ext n (fun z => f z + (- (1)) * g z)); [intros z; ring|]. apply pdeg_plus; [exact F|]. apply pdeg_scal, G. Qed.
Lemma pdeg_mult n m f g : pdeg n f -> pdeg m g -> pdeg (n + m) (fun z => f z * g z).
Proof.
  intros F G. revert f F. induction n as [|n IH]; intros f.
  - intros (c & H). apply (pdeg_ext m (fun z => c * g z)); [intros z; rewrite H; reflexivity|]. apply pdeg_scal, G.
  - intros (c & h & P & H). apply (pdeg_ext (S n + m) (fun z => c * g z + z * (h z * g z))); [intros z; rewrite H; ring|]. apply pdeg_plus.
    + apply (pdeg_le m); [lia|]. apply pdeg_scal, G.
    + exists 0, (fun z => h z * g z). split; [apply IH, P|]. intros z. ring.
Qed.
(** ** no more roots than the degree *)
Lemma pdeg_factor n f a : pdeg (S n) f -> exists g, pdeg n g /\ forall z, f z = f a + (z - a) * g z.
Proof.
  revert f. induction n as [|n IH]; intros f (c & h & P & H).
  - destruct P as (d & P). exists (fun _ => d). split; [exists d; reflexivity|]. intros z. rewrite !H, !P. ring.
  - destruct (IH h P) as (k & Q & K). exists (fun z => h z + a * k z). split; [apply pdeg_plus; [exact P|]; apply pdeg_S, pdeg_scal, Q|]. intros z. rewrite !H. rewrite (K z). ring.
Qed.
Lemma Cmult_0 (u v : C) : u * v = 0 -> u = 0 \/ v = 0.
Proof. intros H. destruct (Ceq_dec u 0) as [U|U]; [left; exact U|]. right. replace v with (/ u * (u * v)) by (field; exact U). rewrite H. ring. Qed.
Lemma root_bound n f : pdeg n f -> (exists z, f z <> 0) -> forall l, NoDup l -> (forall z, In z l -> f z = 0) -> (length l <= n)%nat.
Proof.
  revert f. induction n as [|n IH]; intros f F (z0 & N) l ND R0.
  - destruct l as [|a l]; [cbn; lia|]. destruct F as (c & F). exfalso. apply N. rewrite F, <- (F a). apply R0. left. reflexivity.
  - destruct l as [|a l]; [cbn; lia|]. cbn [length]. apply le_n_S. destruct (pdeg_factor n f a F) as (g & G & E). rewrite (R0 a (or_introl eq_refl)) in E. inversion ND as [|? ? NI ND']; subst.
    apply (IH g G); [|exact ND'|].
    + exists z0. intros Z. apply N. rewrite E, Z. ring.
    + intros z I. assert (W := E z). rewrite (R0 z (or_intror I)) in W. assert (V : (z - a) * g z = 0) by (rewrite <- (Cplus_0_l ((z - a) * g z)); symmetry; exact W). destruct (Cmult_0 _ _ V) as [Q|Q]; [|exact Q]. exfalso. apply NI. replace a with z; [exact I|]. replace z with ((z - a) + a) by ring. rewrite Q. ring.
Qed.
(** ** the polynomials of a list of stars (position, strength) *)
Fixpoint Qf (l : list (C * C)) (z : C) : C := match l with [] => 1 | (a, _) :: l => (z - a) * Qf l z end.
Fixpoint Sf (l : list (C * C)) (z : C) : C := match l with [] => 0 | (a, e) :: l => e * Qf l z + (z - a) * Sf l z end.
(** pull at the conjugate position *)
Fixpoint pull (l : list (C * C)) (z : C) : C := match l with [] => 0 | (a, e) :: l => e / (z - a) + pull l z end.
Lemma C1_nz : RtoC 1 <> RtoC 0.
Proof. intros H. injection H. lra. Qed.
Lemma Q_nz l z : (forall s, In s l -> z <> fst s) -> Qf l z <> 0.
Proof.
  induction l as [|[a e] l IH]; intros H; cbn [Qf]; [apply C1_nz|]. intros Q. destruct (Cmult_0 _ _ Q) as [W|W].
  - apply (H (a, e) (or_introl eq_refl)). cbn. replace z with ((z - a) + a) by ring. rewrite W. ring.
  - revert W. apply IH. intros s I. apply H. right. exact I.
Qed.
Lemma minus_nz (z a : C) : z <> a -> z - a <> 0.
Proof. intros H W. apply H. replace z with ((z - a) + a) by ring. rewrite W. ring. Qed.
Lemma pull_quot l z : (forall s, In s l -> z <> fst s) -> pull l z = Sf l z / Qf l z.
Proof.
  induction l as [|[a e] l IH]; intros H; cbn [pull Sf Qf]; [field; apply C1_nz|]. rewrite IH by (intros s I; apply H; right; exact I).
  assert (N : Qf l z <> 0) by (apply Q_nz; intros s I; apply H; right; exact I). assert (M := minus_nz z a (H (a, e) (or_introl eq_refl))). field. split; assumption.
Qed.
Lemma Q_deg l : pdeg (length l) (Qf l).
Proof. induction l as [|[a e] l IH]; cbn [Qf length]; [apply pdeg_c|]. apply (pdeg_mult 1 (length l) (fun z => z - a) (Qf l)); [|exact IH]. apply pdeg_minus; [apply pdeg_id|apply pdeg_c]. Qed.
Lemma S_deg l : pdeg (length l) (Sf l).
Proof.
  induction l as [|[a e] l IH]; cbn [Sf length]; [apply pdeg_c|]. apply (pdeg_plus (S (length l)) (fun z => e * Qf l z) (fun z => (z - a) * Sf l z)).
  - apply pdeg_S, pdeg_scal, Q_deg.
  - apply (pdeg_mult 1 (length l) (fun z => z - a) (Sf l)); [|exact IH]. apply pdeg_minus; [apply pdeg_id|apply pdeg_c].
Qed.
Lemma at_star (l : list (C * C)) (a e : C) : NoDup (map fst l) -> (forall s, In s l -> snd s <> 0) -> In (a, e) l -> Qf l a = 0 /\ Sf l a <> 0.
Proof.
  induction l as [|[b d] l IH]; cbn [map fst]; intros ND NZ I; [destruct I|]. inversion ND as [|? ? NI ND']; subst. destruct I as [I|I].
  - injection I as -> ->. cbn [Qf Sf]. split; [ring|]. replace (e * Qf l a + (a - a) * Sf l a) with (e * Qf l a) by ring. intros Q. destruct (Cmult_0 _ _ Q) as [W|W]; [apply (NZ (a, e) (or_introl eq_refl)), W|]. revert W. apply Q_nz. intros s I' E. apply NI. rewrite E. apply in_map, I'.
  - destruct (IH ND' (fun s J => NZ s (or_intror J)) I) as [A B]. cbn [Qf Sf]. rewrite A. split; [ring|]. replace (d * 0 + (a - b) * Sf l a) with ((a - b) * Sf l a) by ring. intros Q. destruct (Cmult_0 _ _ Q) as [W|W]; [|exact (B W)]. revert W. apply minus_nz. intros E. apply NI. rewrite <- E. change a with (fst (a, e)). apply in_map, I.
Qed.
(** ** the same with the position given as a quotient u / v *)
Fixpoint QH (l : list (C * C)) (u v : C) : C := match l with [] => 1 | (a, _) :: l => (u - Cconj a * v) * QH l u v end.
Fixpoint SH (l : list (C * C)) (u v : C) : C := match l with [] => 0 | (a, e) :: l => e * v * QH l u v + (u - Cconj a * v) * SH l u v end.
Fixpoint cpull (l : list (C * C)) (w : C) : C := match l with [] => 0 | (a, e) :: l => e / (w - Cconj a) + cpull l w end.
Lemma QH_nz l (w u v : C) : v <> 0 -> w = u / v -> (forall s, In s l -> w <> Cconj (fst s)) -> QH l u v <> 0.
Proof.
  intros V E. induction l as [|[a e] l IH]; intros H; cbn [QH]; [apply C1_nz|]. intros Q. destruct (Cmult_0 _ _ Q) as [W|W].
  - apply (H (a, e) (or_introl eq_refl)). cbn. rewrite E. replace u with (Cconj a * v + (u - Cconj a * v)) by ring. rewrite W. field. exact V.
  - revert W. apply IH. intros s I. apply H. right. exact I.
Qed.
Lemma cpull_quot l (w u v : C) : v <> 0 -> w = u / v -> (forall s, In s l -> w <> Cconj (fst s)) -> cpull l w = SH l u v / QH l u v.
Proof.
  intros V E. induction l as [|[a e] l IH]; intros H; cbn [cpull SH QH]; [field; apply C1_nz|]. rewrite IH by (intros s I; apply H; right; exact I).
  assert (N : QH l u v <> 0) by (apply (QH_nz l w); [exact V|exact E|]; intros s I; apply H; right; exact I).
  assert (M := minus_nz w (Cconj a) (H (a, e) (or_introl eq_refl))). rewrite E. assert (M2 : u - Cconj a * v <> 0) by (intros Z; apply M; rewrite E; replace u with (Cconj a * v + (u - Cconj a * v)) by ring; rewrite Z; field; exact V). field. repeat split; assumption.
Qed.
Lemma QH_deg l D (u v : C -> C) : pdeg D u -> pdeg D v -> pdeg (length l * D) (fun z => QH l (u z) (v z)).
Proof.
  intros U V. induction l as [|[a e] l IH]; cbn [QH length]; [apply pdeg_c|]. apply (pdeg_mult D (length l * D) (fun z => u z - Cconj a * v z) (fun z => QH l (u z) (v z))); [|exact IH]. apply pdeg_minus; [exact U|apply pdeg_scal, V].
Qed.
Lemma SH_deg l D (u v : C -> C) : pdeg D u -> pdeg D v -> pdeg (length l * D) (fun z => SH l (u z) (v z)).
Proof.
  intros U V. induction l as [|[a e] l IH]; cbn [SH length]; [apply pdeg_c|]. apply (pdeg_plus (D + length l * D) (fun z => e * v z * QH l (u z) (v z)) (fun z => (u z - Cconj a * v z) * SH l (u z) (v z))).
  - apply (pdeg_mult D (length l * D) (fun z => e * v z) (fun z => QH l (u z) (v z))); [apply pdeg_scal, V|apply QH_deg; assumption].
  - apply (pdeg_mult D (length l * D) (fun z => u z - Cconj a * v z) (fun z => SH l (u z) (v z))); [|exact IH]. apply pdeg_minus; [exact U|apply pdeg_scal, V].
Qed.
Lemma at_zero (l : list (C * C)) (u : C) : SH l u 0 = 0 /\ (u <> 0 -> QH l u 0 <> 0).
Proof.
  induction l as [|[a e] l [A B]]; cbn [SH QH]; [split; [reflexivity|intros _; apply C1_nz]|]. rewrite A. split; [ring|]. intros U Q. replace (u - Cconj a * 0) with u in Q by ring. destruct (Cmult_0 _ _ Q) as [W|W]; [exact (U W)|exact (B U W)].
Qed.
(** ** conjugation *)
Lemma conj_plus u v : Cconj (u + v) = Cconj u + Cconj v.
Proof. apply injective_projections; cbn; ring. Qed.
Lemma conj_minus u v : Cconj (u - v) = Cconj u - Cconj v.
Proof. apply injective_projections; cbn; ring. Qed.
Lemma conj_mult u v : Cconj (u * v) = Cconj u * Cconj v.
Proof. apply injective_projections; cbn; ring. Qed.
Lemma conj_conj u : Cconj (Cconj u) = u.
Proof. apply injective_projections; cbn; ring. Qed.
Lemma conj_inj u v : Cconj u = Cconj v -> u = v.
Proof. intros H. rewrite <- (conj_conj u), <- (conj_conj v), H. reflexivity. Qed.
Lemma conj_real r : Cconj (RtoC r) = RtoC r.
Proof. apply injective_projections; cbn; ring. Qed.
Lemma conj_0 (u : C) : Cconj u = 0 -> u = 0.
Proof. intros H. apply conj_inj. rewrite H. symmetry. apply conj_real. Qed.
Lemma conj_inv (u : C) : u <> 0 -> Cconj (/ u) = / Cconj u.
Proof.
  intros H. assert (N : Cconj u <> 0) by (intros Z; apply H, conj_0, Z). replace (Cconj (/ u)) with (Cconj (/ u) * Cconj u / Cconj u) by (field; exact N). rewrite <- conj_mult, Cinv_l by exact H. rewrite conj_real. field. exact N.
Qed.
Lemma conj_pull l z : (forall s, In s l -> Cconj (snd s) = snd s) -> (forall s, In s l -> z <> fst s) -> Cconj (cpull l (Cconj z)) = pull l z.
Proof.
  induction l as [|[a e] l IH]; intros HE H; cbn [cpull pull]; [apply conj_real|]. assert (M := minus_nz z a (H (a, e) (or_introl eq_refl))).
  rewrite conj_plus, IH by (intros s I; (apply HE || apply H); right; exact I). f_equal. unfold Cdiv. rewrite conj_mult, <- conj_minus, conj_inv, conj_conj; [f_equal; apply (HE (a, e) (or_introl eq_refl))|]. intros Z. apply M, conj_0, Z.
Qed.
(** ** the bound *)
Section Field.
Variables (l : list (C * C)) (k : R) (g b : C).
Hypothesis Real : forall s, In s l -> Cconj (snd s) = snd s.
Hypothesis Mass : forall s, In s l -> snd s <> 0.
Hypothesis Apart : NoDup (map fst l).
Definition sees (z : C) : Prop := (forall s, In s l -> z <> fst s) /\ k * z - g * Cconj z - b = cpull l (Cconj z).
Let P := fun z => (Cconj b + Cconj g * z) * Qf l z + Sf l z.
Lemma sees_P z : sees z -> k * Cconj z * Qf l z = P z.
Proof.
  intros [H E]. apply (f_equal Cconj) in E. rewrite conj_pull in E by assumption. rewrite pull_quot in E by assumption. rewrite !conj_minus, !conj_mult, conj_conj, conj_real in E. unfold P. assert (N := Q_nz l z H).
  transitivity ((k * Cconj z - Cconj g * z - Cconj b) * Qf l z + (Cconj b + Cconj g * z) * Qf l z); [ring|]. rewrite E. field. exact N.
Qed.
Lemma P_deg : pdeg (S (length l)) P.
Proof.
  apply (pdeg_plus (S (length l)) (fun z => (Cconj b + Cconj g * z) * Qf l z) (Sf l)); [|apply pdeg_S, S_deg]. apply (pdeg_mult 1 (length l) (fun z => Cconj b + Cconj g * z) (Qf l)); [|apply Q_deg]. apply pdeg_plus; [apply pdeg_c|apply pdeg_scal, pdeg_id].
Qed.
Lemma P_deg0 : g = 0 -> pdeg (length l) P.
Proof.
  intros G. apply (pdeg_plus (length l) (fun z => (Cconj b + Cconj g * z) * Qf l z) (Sf l)); [|apply S_deg]. apply (pdeg_ext _ (fun z => Cconj b * Qf l z)); [|apply pdeg_scal, Q_deg]. intros z. rewrite G, conj_real. ring.
Qed.
Lemma P_star (a e : C) : In (a, e) l -> Qf l a = 0 /\ P a <> 0.
Proof. intros I. destruct (at_star l a e Apart Mass I) as [A B]. split; [exact A|]. unfold P. rewrite A. replace ((Cconj b + Cconj g * a) * 0 + Sf l a) with (Sf l a) by ring. exact B. Qed.
Lemma sheared : g <> 0 -> l <> [] -> forall zs, NoDup zs -> (forall z, In z zs -> sees z) -> (length zs <= (length l + 1) * (length l + 1))%nat.
Proof.
  intros G L zs ND HS. assert (I : exists a e, In (a, e) l) by (destruct l as [|[a e] l']; [contradiction|exists a, e; left; reflexivity]). destruct I as (a & e & I). destruct (P_star a e I) as [QA PA].
  destruct (Req_EM_T k 0) as [K|K].
  - apply (Nat.le_trans _ (S (length l))); [|nia]. apply (root_bound _ P P_deg (ex_intro _ a PA)); [exact ND|]. intros z J. rewrite <- (sees_P z (HS z J)), K. ring.
  - set (v := fun z => RtoC k * Qf l z). assert (KC : RtoC k <> 0) by (intros Z; apply K; injection Z; auto). set (F := fun z => (k * z - b) * v z * QH l (P z) (v z) - g * P z * QH l (P z) (v z) - v z * SH l (P z) (v z)).
    assert (VD : pdeg (length l) v) by (apply pdeg_scal, Q_deg). assert (VD1 : pdeg (S (length l)) v) by (apply pdeg_S, VD).
    assert (QD := QH_deg l (S (length l)) P v P_deg VD1). assert (SD := SH_deg l (S (length l)) P v P_deg VD1).
    apply (root_bound _ F).
    + unfold F. apply pdeg_minus; [apply pdeg_minus|].
      * apply (pdeg_le (1 + length l + length l * S (length l))); [nia|]. apply (pdeg_mult (1 + length l) _ (fun z => (k * z - b) * v z)); [|exact QD]. apply (pdeg_mult 1 (length l) (fun z => k * z - b) v); [|exact VD]. apply pdeg_minus; [apply pdeg_scal, pdeg_id|apply pdeg_c].
      * apply (pdeg_le (S (length l) + length l * S (length l))); [nia|]. apply (pdeg_mult (S (length l)) _ (fun z => g * P z)); [apply pdeg_scal, P_deg|exact QD].
      * apply (pdeg_le (length l + length l * S (length l))); [nia|]. apply pdeg_mult; assumption.
    + exists a. unfold F, v. rewrite QA. replace (RtoC k * 0) with (RtoC 0) by ring. destruct (at_zero l (P a)) as [Z1 Z2]. rewrite Z1. intros Z. set (q := QH l (P a) 0) in *. assert (W : g * P a * q = 0) by (transitivity (- (RtoC 0)); [rewrite <- Z; ring|ring]).
      destruct (Cmult_0 _ _ W) as [W1|W1]; [destruct (Cmult_0 _ _ W1); contradiction|exact (Z2 PA W1)].
    + exact ND.
    + intros z J. assert (E := sees_P z (HS z J)). destruct (HS z J) as [H LE]. assert (N := Q_nz l z H). assert (V : v z <> 0) by (intros Z; destruct (Cmult_0 _ _ Z); contradiction).
      assert (WE : Cconj z = P z / v z) by (rewrite <- E; unfold v; field; split; assumption). assert (HC : forall s, In s l -> Cconj z <> Cconj (fst s)) by (intros s J' Q; apply (H s J'), conj_inj, Q).
      rewrite (cpull_quot l (Cconj z) (P z) (v z) V WE HC) in LE. assert (QN := QH_nz l (Cconj z) (P z) (v z) V WE HC). unfold F.
      transitivity (v z * QH l (P z) (v z) * ((k * z - g * (P z / v z) - b) - SH l (P z) (v z) / QH l (P z) (v z))); [field; split; assumption|]. rewrite <- WE, LE. ring.
Qed.
Lemma unsheared : g = 0 -> l <> [] -> (k <> 0%R -> exists a e, In (a, e) l /\ k * a <> b) -> forall zs, NoDup zs -> (forall z, In z zs -> sees z) -> (length zs <= length l * length l + 1)%nat.
Proof.
  intros G L X zs ND HS.
  destruct (Req_EM_T k 0) as [K|K].
  - assert (I : exists a e, In (a, e) l) by (destruct l as [|[a e] l']; [contradiction|exists a, e; left; reflexivity]). destruct I as (a & e & I). destruct (P_star a e I) as [QA PA]. apply (Nat.le_trans _ (length l)); [|nia]. apply (root_bound _ P (P_deg0 G) (ex_intro _ a PA)); [exact ND|]. intros z J. rewrite <- (sees_P z (HS z J)), K. ring.
  - destruct (X K) as (a & e & I & NB). destruct (P_star a e I) as [QA PA]. set (v := fun z => RtoC k * Qf l z). assert (KC : RtoC k <> 0) by (intros Z; apply K; injection Z; auto). set (F := fun z => (k * z - b) * QH l (P z) (v z) - SH l (P z) (v z)).
    assert (VD : pdeg (length l) v) by (apply pdeg_scal, Q_deg).
    assert (QD := QH_deg l (length l) P v (P_deg0 G) VD). assert (SD := SH_deg l (length l) P v (P_deg0 G) VD).
    apply (root_bound _ F).
    + unfold F. apply pdeg_minus.
      * apply (pdeg_le (1 + length l * length l)); [nia|]. apply (pdeg_mult 1 _ (fun z => k * z - b)); [|exact QD]. apply pdeg_minus; [apply pdeg_scal, pdeg_id|apply pdeg_c].
      * apply (pdeg_le (length l * length l)); [nia|]. exact SD.
    + exists a. unfold F, v. rewrite QA. replace (RtoC k * 0) with (RtoC 0) by ring. destruct (at_zero l (P a)) as [Z1 Z2]. rewrite Z1. intros Z. set (q := QH l (P a) 0) in *. assert (W : (k * a - b) * q = 0) by (transitivity ((k * a - b) * q - 0); [ring|exact Z]).
      destruct (Cmult_0 _ _ W) as [W1|W1]; [exact (minus_nz _ _ NB W1)|exact (Z2 PA W1)].
    + exact ND.
    + intros z J. assert (E := sees_P z (HS z J)). destruct (HS z J) as [H LE]. assert (N := Q_nz l z H). assert (V : v z <> 0) by (intros Z; destruct (Cmult_0 _ _ Z); contradiction).
      assert (WE : Cconj z = P z / v z) by (rewrite <- E; unfold v; field; split; assumption). assert (HC : forall s, In s l -> Cconj z <> Cconj (fst s)) by (intros s J' Q; apply (H s J'), conj_inj, Q).
      rewrite (cpull_quot l (Cconj z) (P z) (v z) V WE HC) in LE. assert (QN := QH_nz l (Cconj z) (P z) (v z) V WE HC). unfold F.
      transitivity (QH l (P z) (v z) * ((k * z - g * Cconj z - b) - SH l (P z) (v z) / QH l (P z) (v z))); [rewrite G; field; assumption|]. rewrite LE. ring.
Qed.
End Field.
