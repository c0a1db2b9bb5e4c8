(** * Weak lenses on several planes *)
From Coq Require Import Reals Lra Lia Psatz List Sorting.
From Coquelicot Require Import Coquelicot.
From Verif Require Import Py RealFun Calc2 Const_Model Cosmo_Model LensBasic_Model Lens_Spec LensBase_Model Multiplane_Model LensBase_Proofs Multiplane_Proofs Multiplane2_Proofs Multiplane_Props Tri_Model Tri_Spec Tri2_Proofs Root_Proofs
  First_Spec First_Proofs First2_Proofs Single_Spec Single_Proofs Born_Proofs Twist_Spec Twist_Proofs CosmoTable_Model CosmoTable_Proofs First4_Proofs Gentle_Spec.
Import ListNotations.
Local Open Scope R_scope.

Lemma size_sq a b : size a b ^ 2 = a ^ 2 + b ^ 2.
Proof. unfold size, distance. cbn [fst snd]. rewrite pow2_sqrt by (apply Rplus_le_le_0_compat; apply pow2_ge_0). ring. Qed.
Lemma size_le a b m : 0 <= m -> a ^ 2 + b ^ 2 <= m ^ 2 -> size a b <= m.
Proof. intros M H. apply Rsqr_incr_0_var; [|exact M]. rewrite !Rsqr_pow2, size_sq. exact H. Qed.
Lemma size_dot a b c d : a * c + b * d <= size a b * size c d.
Proof.
  destruct (Rle_dec (a * c + b * d) 0) as [N|N]; [assert (P := Rmult_le_pos _ _ (size_pos a b) (size_pos c d)); lra|].
  apply Rsqr_incr_0_var; [|apply Rmult_le_pos; apply size_pos]. rewrite !Rsqr_pow2, Rpow_mult_distr, !size_sq. assert (0 <= (a * d - b * c) ^ 2) by apply pow2_ge_0. nra.
Qed.
Lemma size_opp a b : size (- a) (- b) = size a b.
Proof. unfold size, distance. cbn [fst snd]. f_equal. ring. Qed.
Lemma size_zero a b : size a b = 0 -> a = 0 /\ b = 0.
Proof. intros H. assert (S := size_sq a b). rewrite H in S. assert (A := pow2_ge_0 a). assert (B := pow2_ge_0 b). split; apply Rsqr_0_uniq; rewrite Rsqr_pow2; lra. Qed.
Lemma size_fst a b : Rabs a <= size a b.
Proof. rewrite <- sqrt_Rsqr_abs. unfold size, distance. cbn [fst snd]. apply sqrt_le_1_alt. rewrite Rsqr_pow2. assert (B := pow2_ge_0 (b - 0)). replace (a - 0) with a by ring. lra. Qed.
Lemma size_snd a b : Rabs b <= size a b.
Proof. rewrite <- sqrt_Rsqr_abs. unfold size, distance. cbn [fst snd]. apply sqrt_le_1_alt. rewrite Rsqr_pow2. assert (B := pow2_ge_0 (a - 0)). replace (b - 0) with b by ring. lra. Qed.
Lemma size_abs a b : size a b <= Rabs a + Rabs b.
Proof. assert (A := Rabs_pos a). assert (B := Rabs_pos b). apply size_le; [lra|]. assert (E : forall t, t ^ 2 = Rabs t ^ 2) by (intros t; rewrite RPow_abs, Rabs_right; [reflexivity|apply Rle_ge, pow2_ge_0]). rewrite (E a), (E b). nra. Qed.
Lemma distance_size p q : distance p q = size (fst p - fst q) (snd p - snd q).
Proof. rewrite (surjective_pairing p), (surjective_pairing q) at 1. apply size_dist. Qed.

(** ** contractions of the plane *)
Section Banach.
Variables (f : R * R -> R * R) (g : R).
Hypothesis Hg : 0 <= g < 1.
Hypothesis Hf : forall p q, distance (f p) (f q) <= g * distance p q.
Fixpoint orbit (n : nat) : R * R := match n with O => (0, 0) | S m => f (orbit m) end.
Let d0 := distance (orbit 1) (orbit 0).
Lemma orbit_step n : distance (orbit (S n)) (orbit n) <= g ^ n * d0.
Proof.
  induction n as [|n IH]; [cbn [pow]; unfold d0; lra|]. eapply Rle_trans; [apply (Hf (orbit (S n)) (orbit n))|]. cbn [pow]. rewrite Rmult_assoc. apply Rmult_le_compat_l; [lra|exact IH].
Qed.
Lemma orbit_lim (c : R * R -> R) : (forall p q, Rabs (c p - c q) <= distance p q) -> exists l, is_lim_seq (fun n => c (orbit n)) (Finite l).
Proof.
  intros Hc. assert (Se : ex_series (fun n => c (orbit (S n)) - c (orbit n))).
  { apply (ex_series_le (K := R_AbsRing) (V := R_CompleteNormedModule) _ (fun n => g ^ n * d0)); [intros n; eapply Rle_trans; [apply Hc|apply orbit_step]|]. apply ex_series_scal_r. exists (/ (1 - g)). apply is_series_geom. rewrite Rabs_right; lra. }
  destruct Se as [l Se]. exists (l + c (orbit 0)). apply is_lim_seq_incr_1. apply (is_lim_seq_ext (fun n => sum_n (fun n => c (orbit (S n)) - c (orbit n)) n + c (orbit 0))).
  - intros n. induction n as [|n IH]; [rewrite sum_O; ring|]. rewrite sum_Sn. unfold plus. cbn [AbelianGroup.plus]. simpl in *. lra.
  - apply is_lim_seq_plus'; [exact Se|apply is_lim_seq_const].
Qed.
Lemma fixed_point : exists p, f p = p.
Proof.
  destruct (orbit_lim fst) as [a A]; [intros p q; rewrite distance_size; apply size_fst|]. destruct (orbit_lim snd) as [b B]; [intros p q; rewrite distance_size; apply size_snd|].
  exists (a, b). assert (Z : distance (f (a, b)) (a, b) = 0).
  { destruct (Req_dec (distance (f (a, b)) (a, b)) 0) as [E|N]; [exact E|exfalso]. assert (P : 0 < distance (f (a, b)) (a, b)) by (assert (Q := dist_nonneg (f (a, b)) (a, b)); lra). set (D := distance (f (a, b)) (a, b)) in *.
    apply is_lim_seq_spec in A. apply is_lim_seq_spec in B. assert (Pe : 0 < D / 5) by lra. destruct (A (mkposreal _ Pe)) as [n1 A1]. destruct (B (mkposreal _ Pe)) as [n2 B1]. cbn [pos] in A1, B1.
    assert (Cl : forall n, (n1 + n2 <= n)%nat -> distance (a, b) (orbit n) <= 2 * (D / 5)).
    { intros n Hn. rewrite distance_size. cbn [fst snd]. eapply Rle_trans; [apply size_abs|]. rewrite (Rabs_minus_sym a), (Rabs_minus_sym b). specialize (A1 n ltac:(lia)). specialize (B1 n ltac:(lia)). lra. }
    assert (C1 := Cl (n1 + n2)%nat ltac:(lia)). assert (C2 := Cl (S (n1 + n2))%nat ltac:(lia)). assert (T := dist_triangle (f (a, b)) (orbit (S (n1 + n2))) (a, b)). fold D in T.
    assert (F := Hf (a, b) (orbit (n1 + n2))). change (f (orbit (n1 + n2))) with (orbit (S (n1 + n2))) in F. assert (Dn := dist_nonneg (a, b) (orbit (n1 + n2))). assert (Sy : distance (orbit (S (n1 + n2))) (a, b) = distance (a, b) (orbit (S (n1 + n2)))) by (rewrite !distance_size; rewrite <- size_opp; f_equal; ring). nra. }
  rewrite distance_size in Z. apply size_zero in Z. cbn [fst snd] in Z. rewrite (surjective_pairing (f (a, b))). f_equal; lra.
Qed.
End Banach.

(** ** several planes *)
Fixpoint prod_upto (k : nat -> R) (n : nat) : R := match n with O => 1 | S m => prod_upto k m * (1 + k m) end.
Lemma prod_shift k n : prod_upto k (S n) = (1 + k O) * prod_upto (fun i => k (S i)) n.
Proof. induction n as [|n IH]; [cbn; ring|]. change (prod_upto k (S (S n))) with (prod_upto k (S n) * (1 + k (S n))). rewrite IH. cbn [prod_upto]. ring. Qed.
Lemma prod_list ks : prod_upto (fun i => nth i ks 0) (length ks) = build_up ks + 1.
Proof.
  unfold build_up. induction ks as [|a l IH]; [cbn; ring|]. cbn [length]. rewrite prod_shift. cbn [nth map fold_right]. rewrite IH. ring.
Qed.
Section Planes.
Variables (cd : R -> R) (z_s : R) (lenses : list thin_lens) (ks : list R).
Hypothesis Fr : in_front cd z_s lenses.
Hypothesis Ge : Forall2 gentle ks lenses.
Let k i := nth i ks 0.
Let prod_below := prod_upto k.
Lemma gentle_at i t : nth_error lenses i = Some t -> gentle (k i) t.
Proof.
  unfold k. clear prod_below k Fr. revert i. induction Ge as [|a b l l' H F IH]; intros [|i] E; cbn in E; try discriminate; [injection E as <-; exact H|]. cbn [nth]. apply IH; assumption.
Qed.
Lemma k_nonneg i : 0 <= k i.
Proof.
  unfold k. clear prod_below k Fr. revert i. induction Ge as [|a b l l' [H _] F IH]; intros [|i]; cbn [nth]; try lra. apply IH; assumption.
Qed.
Lemma prod_sum n : prod_below n = 1 + sum_below n (fun i => k i * prod_below i).
Proof. unfold prod_below. induction n as [|n IH]; cbn [prod_upto sum_below]; [ring|]. lra. Qed.
Lemma prod_pos n : 1 <= prod_below n.
Proof. unfold prod_below. induction n as [|n IH]; cbn [prod_upto]; [lra|]. assert (K := k_nonneg n). nra. Qed.
Section Two.
Variables (x y x' y' : R) (th th' : nat -> R * R).
Hypothesis E : multiplane_equation cd cd z_s lenses x y th.
Hypothesis E' : multiplane_equation cd cd z_s lenses x' y' th'.
Let d := size (x - x') (y - y').
Let al i (p : R * R) := match nth_error lenses i with Some t => reduced_deflection_angle t (fst p) (snd p) | None => (0, 0) end.
Lemma bent j : (j <= length lenses)%nat -> size (fst (th j) - fst (th' j) - (x - x')) (snd (th j) - snd (th' j) - (y - y')) <= (prod_below j - 1) * d.
Proof.
  destruct Fr as (some & order & ahead & cdpos & incr & zs1).
  induction j as [j IH] using (well_founded_induction Wf_nat.lt_wf). intros Hj.
  destruct (E j Hj) as [E1 E2]. destruct (E' j Hj) as [F1 F2]. rewrite E1, E2, F1, F2.
  set (sh := fun i => (cd (plane_z z_s lenses j) - cd (plane_z z_s lenses i)) / cd (plane_z z_s lenses j) * (cd z_s / (cd z_s - cd (plane_z z_s lenses i)))).
  assert (W : forall i p, (i < j)%nat -> (cd (plane_z z_s lenses j) - cd (plane_z z_s lenses i)) / cd (plane_z z_s lenses j) * fst (phys cd z_s lenses i p) = sh i * fst (al i p) /\
     (cd (plane_z z_s lenses j) - cd (plane_z z_s lenses i)) / cd (plane_z z_s lenses j) * snd (phys cd z_s lenses i p) = sh i * snd (al i p)).
  { intros i p Hi. unfold al. destruct (nth_error lenses i) as [t|] eqn:Et; [|apply nth_error_None in Et; lia]. exact (share_phys cd z_s lenses some ahead cdpos incr zs1 i j t p Et). }
  rewrite (sum_below_ext j _ (fun i => sh i * fst (al i (th i)))) by (intros i Hi; apply (W i (th i) Hi)).
  rewrite (sum_below_ext j (fun i => _ * snd (phys cd z_s lenses i (th i))) (fun i => sh i * snd (al i (th i)))) by (intros i Hi; apply (W i (th i) Hi)).
  rewrite (sum_below_ext j (fun i => _ * fst (phys cd z_s lenses i (th' i))) (fun i => sh i * fst (al i (th' i)))) by (intros i Hi; apply (W i (th' i) Hi)).
  rewrite (sum_below_ext j (fun i => _ * snd (phys cd z_s lenses i (th' i))) (fun i => sh i * snd (al i (th' i)))) by (intros i Hi; apply (W i (th' i) Hi)).
  match goal with |- size ?u ?v <= _ => replace u with (- (sum_below j (fun i => sh i * fst (al i (th i)) - sh i * fst (al i (th' i))))) by (rewrite <- sum_below_sub; ring); replace v with (- (sum_below j (fun i => sh i * snd (al i (th i)) - sh i * snd (al i (th' i))))) by (rewrite <- sum_below_sub; ring) end.
  rewrite size_opp, prod_sum. replace ((1 + sum_below j (fun i => k i * prod_below i) - 1) * d) with (d * sum_below j (fun i => k i * prod_below i)) by ring. rewrite <- sum_below_scal. apply size_sum. intros i Hi.
  destruct (nth_error lenses i) as [t|] eqn:Et; [|apply nth_error_None in Et; lia]. assert (Sb : 0 <= sh i <= 1) by exact (share_bounds cd z_s lenses order ahead cdpos incr i j t Et Hi Hj).
  rewrite <- !Rmult_minus_distr_l, size_scal by lra. unfold al. rewrite Et. destruct (gentle_at i t Et) as [K G]. specialize (G (fst (th i)) (snd (th i)) (fst (th' i)) (snd (th' i))). rewrite !distance_size in G. cbn [fst snd] in G.
  assert (I := IH i Hi ltac:(lia)). set (D := size (fst (th i) - fst (th' i)) (snd (th i) - snd (th' i))) in *.
  assert (T : D <= prod_below i * d). { assert (S := size_add (fst (th i) - fst (th' i) - (x - x')) (snd (th i) - snd (th' i) - (y - y')) (x - x') (y - y')). replace (fst (th i) - fst (th' i) - (x - x') + (x - x')) with (fst (th i) - fst (th' i)) in S by ring. replace (snd (th i) - snd (th' i) - (y - y') + (y - y')) with (snd (th i) - snd (th' i)) in S by ring. fold D d in S. lra. }
  set (a := size (fst (reduced_deflection_angle t (fst (th i)) (snd (th i))) - fst (reduced_deflection_angle t (fst (th' i)) (snd (th' i)))) (snd (reduced_deflection_angle t (fst (th i)) (snd (th i))) - snd (reduced_deflection_angle t (fst (th' i)) (snd (th' i))))) in *.
  assert (A0 : 0 <= a) by apply size_pos. apply Rle_trans with a; [nra|]. eapply Rle_trans; [exact G|]. replace (d * (k i * prod_below i)) with (k i * (prod_below i * d)) by ring. apply Rmult_le_compat_l; assumption.
Qed.
End Two.
Lemma prod_end : prod_below (length lenses) = build_up ks + 1.
Proof.
  assert (L : length ks = length lenses) by (clear - Ge; induction Ge as [|a b l l' H F IH]; cbn; [reflexivity|f_equal; apply IH; assumption]). rewrite <- L. apply prod_list.
Qed.
Lemma build_up_nonneg : 0 <= build_up ks.
Proof. assert (P := prod_pos (length lenses)). rewrite prod_end in P. lra. Qed.
Lemma ray x y : exists th, multiplane_equation cd cd z_s lenses x y th /\ multiplane_raytrace cd cd lenses z_s x y = Ok (th (length lenses)).
Proof.
  destruct Fr as (some & order & ahead & cdpos & incr & zs1).
  destruct (raytrace_equation cd cd z_s lenses x y some order) as [[th E] H]; [intros t Ht; assert (A := cdpos t Ht); lra|assert (A := cd_zs cd z_s lenses some ahead cdpos incr); lra|]. exists th. split; [exact E|apply H, E].
Qed.
Lemma close x y x' y' p p' : multiplane_raytrace cd cd lenses z_s x y = Ok p -> multiplane_raytrace cd cd lenses z_s x' y' = Ok p' ->
  size (fst p - fst p' - (x - x')) (snd p - snd p' - (y - y')) <= build_up ks * size (x - x') (y - y').
Proof.
  intros H H'. destruct (ray x y) as (th & E & T). destruct (ray x' y') as (th' & E' & T'). rewrite H in T. rewrite H' in T'. injection T as ->. injection T' as ->.
  assert (B := bent x y x' y' th th' E E' _ (le_n _)). rewrite prod_end in B. replace (build_up ks + 1 - 1) with (build_up ks) in B by ring. exact B.
Qed.
Lemma close_deflection x y x' y' : exists a a', multiplane_effective_deflection cd cd lenses z_s x y = Ok a /\ multiplane_effective_deflection cd cd lenses z_s x' y' = Ok a' /\
  distance a a' <= build_up ks * distance (x, y) (x', y').
Proof.
  destruct (ray x y) as (th & _ & T). destruct (ray x' y') as (th' & _ & T'). unfold multiplane_effective_deflection. rewrite T, T'. cbn [bind]. eexists. eexists. split; [reflexivity|]. split; [reflexivity|].
  assert (C := close x y x' y' _ _ T T'). rewrite !size_dist. rewrite <- size_opp in C. eapply Rle_trans; [|exact C]. right. f_equal; ring.
Qed.
Lemma one_image_planes : build_up ks < 1 -> forall bx by_, exists x y, multiplane_raytrace cd cd lenses z_s x y = Ok (bx, by_) /\ forall x' y', multiplane_raytrace cd cd lenses z_s x' y' = Ok (bx, by_) -> x' = x /\ y' = y.
Proof.
  intros G bx by_. assert (G0 := build_up_nonneg).
  destruct (fixed_point (fun p => match multiplane_effective_deflection cd cd lenses z_s (fst p) (snd p) with Ok a => (bx + fst a, by_ + snd a) | Raise _ => (0, 0) end) (build_up ks) (conj G0 G)) as [[x y] F].
  - intros p q. destruct (close_deflection (fst p) (snd p) (fst q) (snd q)) as (a & a' & E & E' & D). rewrite E, E'. rewrite <- !surjective_pairing in D. eapply Rle_trans; [|exact D]. right. rewrite size_dist, distance_size. f_equal; ring.
  - cbn [fst snd] in F. destruct (ray x y) as (th & _ & T). unfold multiplane_effective_deflection in F. rewrite T in F. cbn [bind fst snd] in F. injection F as F1 F2. 
    assert (I : multiplane_raytrace cd cd lenses z_s x y = Ok (bx, by_)) by (rewrite T, (surjective_pairing (th (length lenses))); f_equal; f_equal; lra).
    exists x, y. split; [exact I|]. intros x' y' I'. assert (C := close x y x' y' _ _ I I'). cbn [fst snd] in C. replace (bx - bx - (x - x')) with (- (x - x')) in C by ring. replace (by_ - by_ - (y - y')) with (- (y - y')) in C by ring. rewrite size_opp in C.
    assert (P := size_pos (x - x') (y - y')). assert (Z : size (x - x') (y - y') = 0) by nra. apply size_zero in Z. lra.
Qed.
(** where the rays can be differentiated *)
Section Bright.
Variable rt : R -> R -> R * R.
Hypothesis Hrt : forall x y, multiplane_raytrace cd cd lenses z_s x y = Ok (rt x y).
Variables x y a b c d : R.
Hypothesis D1 : D2 (fun u v => fst (rt u v)) x y a b.
Hypothesis D2' : D2 (fun u v => snd (rt u v)) x y c d.
Let g := build_up ks.
Lemma matrix_close r s u v : r * (u - (a * u + b * v)) + s * (v - (c * u + d * v)) <= g * size r s * size u v.
Proof.
  assert (G0 := build_up_nonneg). fold g in G0. set (m := g * size r s * size u v).
  assert (De : is_derive (fun t => r * (t * u - fst (rt (x + t * u) (y + t * v))) + s * (t * v - snd (rt (x + t * u) (y + t * v))) - t * m) 0 (r * (u - (a * u + b * v)) + s * (v - (c * u + d * v)) - m)).
  { assert (X0 : x + 0 * u = x) by ring. assert (Y0 : y + 0 * v = y) by ring.
    assert (U : is_derive (fun t => x + t * u) 0 u) by (auto_derive; auto; ring). assert (V : is_derive (fun t => y + t * v) 0 v) by (auto_derive; auto; ring).
    assert (A1 : is_derive (fun t => fst (rt (x + t * u) (y + t * v))) 0 (a * u + b * v)) by (apply (D2_curve (fun u v => fst (rt u v)) (fun t => x + t * u) (fun t => y + t * v)); [rewrite X0, Y0; exact D1|exact U|exact V]).
    assert (A2 : is_derive (fun t => snd (rt (x + t * u) (y + t * v))) 0 (c * u + d * v)) by (apply (D2_curve (fun u v => snd (rt u v)) (fun t => x + t * u) (fun t => y + t * v)); [rewrite X0, Y0; exact D2'|exact U|exact V]).
    assert (L : forall w, is_derive (fun t => t * w) 0 w) by (intros w; auto_derive; auto; ring).
    apply (is_derive_minus (fun t => r * (t * u - fst (rt (x + t * u) (y + t * v))) + s * (t * v - snd (rt (x + t * u) (y + t * v)))) (fun t => t * m)); [|apply L].
    apply (is_derive_plus (fun t => r * (t * u - fst (rt (x + t * u) (y + t * v)))) (fun t => s * (t * v - snd (rt (x + t * u) (y + t * v))))).
    - apply (is_derive_scal (fun t => t * u - fst (rt (x + t * u) (y + t * v)))). apply (is_derive_minus (fun t => t * u) (fun t => fst (rt (x + t * u) (y + t * v)))); [apply L|exact A1].
    - apply (is_derive_scal (fun t => t * v - snd (rt (x + t * u) (y + t * v)))). apply (is_derive_minus (fun t => t * v) (fun t => snd (rt (x + t * u) (y + t * v)))); [apply L|exact A2]. }
  apply half_derive in De; [lra|]. intros t T. replace (x + 0 * u) with x by ring. replace (y + 0 * v) with y by ring.
  assert (C := close (x + t * u) (y + t * v) x y _ _ (Hrt _ _) (Hrt x y)). fold g in C. replace (x + t * u - x) with (t * u) in C by ring. replace (y + t * v - y) with (t * v) in C by ring. rewrite (size_scal t) in C by lra.
  set (p := rt (x + t * u) (y + t * v)) in *. set (q := rt x y) in *.
  assert (Dt := size_dot r s (- (fst p - fst q - t * u)) (- (snd p - snd q - t * v))). rewrite size_opp in Dt.
  assert (M : size r s * size (fst p - fst q - t * u) (snd p - snd q - t * v) <= t * m). { unfold m. apply Rle_trans with (size r s * (g * (t * size u v))); [apply Rmult_le_compat_l; [apply size_pos|exact C]|right; ring]. }
  nra.
Qed.
Lemma size_unit : size 1 0 = 1 /\ size 0 1 = 1.
Proof. unfold size, distance. cbn [fst snd]. replace ((1 - 0) ^ 2 + (0 - 0) ^ 2) with 1 by ring. replace ((0 - 0) ^ 2 + (1 - 0) ^ 2) with 1 by ring. rewrite sqrt_1. split; reflexivity. Qed.
Lemma row_bound u v : size u v = 1 -> (a * u + b * v) ^ 2 + (c * u + d * v) ^ 2 <= (1 + g) ^ 2.
Proof.
  intros Hu. assert (G0 := build_up_nonneg). fold g in G0. set (p := u - (a * u + b * v)). set (q := v - (c * u + d * v)).
  assert (M := matrix_close p q u v). fold p q in M. rewrite Hu, Rmult_1_r in M. assert (N := matrix_close (- u) (- v) u v). fold p q in N. rewrite size_opp, Hu, !Rmult_1_r in N.
  assert (S := size_sq p q). assert (P := size_pos p q). assert (Q : size p q <= g) by (destruct (Rle_dec (size p q) g) as [L|L]; [exact L|exfalso; nra]). assert (U := size_sq u v). rewrite Hu in U.
  replace (a * u + b * v) with (u - p) by (unfold p; ring). replace (c * u + d * v) with (v - q) by (unfold q; ring). nra.
Qed.
Lemma bright_here : g < 1 -> (exists m, pixel_magnification rt x y = Some m /\ / (1 + g) ^ 2 <= m <= / (1 - g) ^ 2) /\ not_mirrored (jacfwd rt x y).
Proof.
  intros Hg. assert (G0 := build_up_nonneg). fold g in G0. unfold pixel_magnification. rewrite (jacfwd_D2 _ _ _ _ _ _ _ D1 D2'). cbv zeta. unfold not_mirrored. cbn [m00 m01 m10 m11].
  destruct size_unit as [S1 S2]. assert (R1 := row_bound 1 0 S1). assert (R2 := row_bound 0 1 S2).
  destruct (quadratic_nonneg (a - (1 - g)) (- (b + c) / 2) (d - (1 - g))) as (A & D & Det).
  { intros u v. assert (M := matrix_close u v u v). rewrite Rmult_assoc in M. replace (size u v * size u v) with (size u v ^ 2) in M by ring. rewrite size_sq in M. nra. }
  assert (Lo : (1 - g) ^ 2 <= a * d - b * c).
  { assert (0 <= (b - c) ^ 2) by apply pow2_ge_0. assert (0 <= (1 - g) * (a - (1 - g))) by (apply Rmult_le_pos; lra). assert (0 <= (1 - g) * (d - (1 - g))) by (apply Rmult_le_pos; lra). nra. }
  assert (Hi : a * d - b * c <= (1 + g) ^ 2). { assert (0 <= (a - d) ^ 2) by apply pow2_ge_0. assert (0 <= (b + c) ^ 2) by apply pow2_ge_0. nra. }
  assert (P : 0 < (1 - g) ^ 2) by (apply pow_lt; lra). rewrite Rabs_right by lra. split; [|repeat split; lra].
  destruct (Req_EM_T _ 0) as [Z|Z]; [lra|]. eexists. split; [reflexivity|]. unfold Rdiv. rewrite Rmult_1_l. split; apply Rinv_le_contravar; lra.
Qed.
End Bright.
End Planes.
(** ** lenses that are gentle *)
Lemma dot_form axx axy ayy k : 0 <= k -> 0 <= axx + ayy -> (forall u v, axx * u ^ 2 + (axy + axy) * u * v + ayy * v ^ 2 <= k * (u ^ 2 + v ^ 2)) ->
  forall p q u v, p * (axx * u + axy * v) + q * (axy * u + ayy * v) <= k * size p q * size u v.
Proof.
  intros K Tr F p q u v.
  assert (F' : forall u v, - (k * (u ^ 2 + v ^ 2)) <= axx * u ^ 2 + (axy + axy) * u * v + ayy * v ^ 2).
  { intros r s. assert (A := F (- s) r). assert (0 <= (axx + ayy) * (r ^ 2 + s ^ 2)) by (apply Rmult_le_pos; [exact Tr|assert (0 <= r ^ 2) by apply pow2_ge_0; assert (0 <= s ^ 2) by apply pow2_ge_0; lra]). nra. }
  assert (H : forall p q u v, p * (axx * u + axy * v) + q * (axy * u + ayy * v) <= k / 2 * (p ^ 2 + q ^ 2 + u ^ 2 + v ^ 2)).
  { intros p' q' u' v'. assert (A := F (p' + u') (q' + v')). assert (B := F' (p' - u') (q' - v')). nra. }
  assert (P := size_pos p q). assert (U := size_pos u v).
  destruct (Req_dec (size p q) 0) as [Z|Z]; [apply size_zero in Z as Z'; destruct Z' as [-> ->]; rewrite Z; lra|]. destruct (Req_dec (size u v) 0) as [Y|Y]; [apply size_zero in Y as Y'; destruct Y' as [-> ->]; rewrite Y; lra|].
  set (a := size p q) in *. set (b := size u v) in *. assert (A := size_sq p q). assert (B := size_sq u v). fold a in A. fold b in B.
  assert (E := H (b * p) (b * q) (a * u) (a * v)).
  apply (Rmult_le_reg_l (a * b)); [apply Rmult_lt_0_compat; lra|].
  replace (a * b * (p * (axx * u + axy * v) + q * (axy * u + ayy * v))) with (b * p * (axx * (a * u) + axy * (a * v)) + b * q * (axy * (a * u) + ayy * (a * v))) by ring.
  eapply Rle_trans; [exact E|]. right. replace ((b * p) ^ 2 + (b * q) ^ 2 + (a * u) ^ 2 + (a * v) ^ 2) with (b ^ 2 * (p ^ 2 + q ^ 2) + a ^ 2 * (u ^ 2 + v ^ 2)) by ring. rewrite <- A, <- B. field.
Qed.
Lemma smooth_gentle k L : 0 <= k -> spreads k (reduced_deflection_angle L) -> (forall x y, smooth_at L x y) -> gentle k L.
Proof.
  intros K S Sm. split; [exact K|]. intros x y x' y'. rewrite distance_size, size_dist. set (al := reduced_deflection_angle L) in *.
  set (p := fst (al x y) - fst (al x' y')). set (q := snd (al x y) - snd (al x' y')). set (u := x - x'). set (v := y - y').
  set (h := fun t => p * fst (al (x' + t * u) (y' + t * v)) + q * snd (al (x' + t * u) (y' + t * v))).
  assert (De : forall t, exists e, is_derive h t e /\ e <= k * size p q * size u v).
  { intros t. destruct (Sm (x' + t * u) (y' + t * v)) as (_ & (axx & axy & ayx & ayy & E1 & E2 & Sy & Ka) & Po). fold al in E1, E2. subst ayx.
    exists (p * (axx * u + axy * v) + q * (axy * u + ayy * v)). split.
    - assert (U : is_derive (fun t => x' + t * u) t u) by (auto_derive; auto; ring). assert (V : is_derive (fun t => y' + t * v) t v) by (auto_derive; auto; ring).
      apply (is_derive_plus (fun t => p * fst (al (x' + t * u) (y' + t * v))) (fun t => q * snd (al (x' + t * u) (y' + t * v)))).
      + apply (is_derive_scal (fun t => fst (al (x' + t * u) (y' + t * v)))). apply (D2_curve (fun u v => fst (al u v)) (fun t => x' + t * u) (fun t => y' + t * v)); assumption.
      + apply (is_derive_scal (fun t => snd (al (x' + t * u) (y' + t * v)))). apply (D2_curve (fun u v => snd (al u v)) (fun t => x' + t * u) (fun t => y' + t * v)); assumption.
    - apply dot_form; [exact K|lra|]. exact (spreads_form k _ _ _ _ _ _ _ S E1 E2). }
  assert (Le : h 1 - h 0 <= k * size p q * size u v).
  { assert (Ex : forall t, ex_derive h t) by (intros t; destruct (De t) as (e & E & _); exists e; exact E).
    destruct (MVT_gen h 0 1 (Derive h)) as (t & _ & T); [intros; apply Derive_correct, Ex|intros; apply continuity_pt_filterlim, (ex_derive_continuous h), Ex|].
    rewrite T. destruct (De t) as (e & E & B). rewrite (is_derive_unique _ _ _ E). lra. }
  assert (H1 : h 1 - h 0 = size p q ^ 2). { rewrite size_sq. unfold h. replace (x' + 1 * u) with x by (unfold u; ring). replace (y' + 1 * v) with y by (unfold v; ring). replace (x' + 0 * u) with x' by ring. replace (y' + 0 * v) with y' by ring. unfold p at 3, q at 3. unfold p, q. ring. }
  rewrite H1 in Le. assert (P := size_pos p q). assert (U := size_pos u v). assert (KU : 0 <= k * size u v) by (apply Rmult_le_pos; assumption).
  destruct (Rle_dec (size p q) (k * size u v)) as [N|N]; [exact N|exfalso; nra].
Qed.
Lemma strength_nonneg p : ordinary p -> diffuse p -> 0 <= strength p.
Proof.
  destruct p as [| | |? ? q ? Rein s|]; cbn [ordinary diffuse strength]; intros H D; try lra; [apply sqrt_pos|]. apply Rlt_le, Rdiv_lt_0_compat; [lra|]. assert (Q := sqrt_lt_R0 q ltac:(lra)). apply Rmult_lt_0_compat; [apply Rmult_lt_0_compat; lra|lra].
Qed.
Lemma total_nonneg l : (forall p, In p l -> ordinary p) -> (forall p, In p l -> diffuse p) -> 0 <= total_strength l.
Proof.
  induction l as [|p t IH]; intros O D; unfold total_strength in *; cbn [map fold_right]; [lra|]. assert (A := strength_nonneg p (O p (or_introl eq_refl)) (D p (or_introl eq_refl))). assert (B := IH (fun r I => O r (or_intror I)) (fun r I => D r (or_intror I))). lra.
Qed.
Lemma plane_gentle z l : (forall p, In p l -> ordinary p) -> (forall p, In p l -> diffuse p) -> gentle (total_strength l) (singleplane z (map (lens_of z) l)).
Proof. intros O D. apply smooth_gentle; [apply total_nonneg; assumption|apply scene_spreads; assumption|intros x y; apply scene_smooth; assumption]. Qed.
Lemma planes_gentle ps : all_ordinary ps -> Forall2 gentle (strengths ps) (map plane_of ps).
Proof.
  intros O. unfold strengths. induction ps as [|P t IH]; cbn [map]; constructor; [|apply IH; intros Q p I J; apply (O Q p); [right; exact I|exact J]].
  apply plane_gentle; intros p I; apply (O P p); try (left; reflexivity); exact I.
Qed.
Lemma choose {A} (P : nat -> A -> Prop) (a : A) : (forall i, exists w, P i w) -> forall n, exists u, forall i, (i < n)%nat -> P i (u i).
Proof.
  intros H n. induction n as [|n [u IH]]; [exists (fun _ => a); intros; lia|]. destruct (H n) as [w W]. exists (fun i => if Nat.eqb i n then w else u i). intros i Hi. destruct (Nat.eqb_spec i n) as [->|N]; [exact W|apply IH; lia].
Qed.
Lemma front_line cd z_s lenses : in_front cd z_s lenses -> line_up cd z_s lenses.
Proof.
  intros (some & order & ahead & cdpos & incr & zs1). split; [exact some|]. split; [exact order|]. split; [|split; [assert (A := cd_zs cd z_s lenses some ahead cdpos incr); lra|exact zs1]].
  intros t I. assert (A := cdpos t I). destruct (ahead t I) as [B C]. assert (E := incr (z_l t) z_s B C (Rle_refl _)). lra.
Qed.
Lemma bright_planes cd z_s ps rt : all_ordinary ps -> in_front cd z_s (map plane_of ps) -> build_up (strengths ps) < 1 -> (forall x y, multiplane_raytrace cd cd (map plane_of ps) z_s x y = Ok (rt x y)) ->
  let g := build_up (strengths ps) in forall x y, (exists m, pixel_magnification rt x y = Some m /\ / (1 + g) ^ 2 <= m <= / (1 - g) ^ 2) /\ not_mirrored (jacfwd rt x y).
Proof.
  intros O F W Hrt g x y. destruct (ray cd z_s (map plane_of ps) F x y) as (th & E & _).
  assert (Ti : exists u, tides (map plane_of ps) th u).
  { assert (Ex : forall i, exists w, forall t, nth_error (map plane_of ps) i = Some t -> has_tide t (th i) w).
    { intros i. destruct (nth_error (map plane_of ps) i) as [t|] eqn:Et; [|exists (Tide 0 0 0); discriminate]. assert (I := nth_error_In _ _ Et). apply in_map_iff in I. destruct I as (P & <- & I).
      destruct (tide_exists (plane_of P) (th i)) as [w Hw]; [apply (scene_smooth (fst P) (snd P)); intros p J; apply (O P p I J)|]. exists w. intros t T. injection T as <-. exact Hw. }
    destruct (choose _ (Tide 0 0 0) Ex (length (map plane_of ps))) as [u Hu]. exists u. intros i t Et. apply (Hu i); [apply nth_error_Some; congruence|exact Et]. }
  destruct Ti as [u Hu]. destruct (matrices_exist cd z_s (map plane_of ps) u) as [A HA].
  destruct (rt_D2 cd z_s _ (front_line _ _ _ F) rt Hrt x y th u E Hu A HA) as [D1 D2'].
  exact (bright_here cd z_s _ _ F (planes_gentle ps O) rt Hrt x y _ _ _ _ D1 D2' W).
Qed.
Lemma flat_front h0 Om0 z_s lenses : 0 < h0 -> 0 < Om0 < 1 -> / 1000 <= Rpower (Om0 / (1 - Om0)) (1 / 3) -> (1 + z_s) * Rpower (Om0 / (1 - Om0)) (1 / 3) <= 10 ->
  lenses <> [] -> StronglySorted Rle (map z_l lenses) -> (forall t, In t lenses -> 0 < z_l t < z_s) -> in_front (fun z => flat_comoving_distance z h0 Om0) z_s lenses.
Proof.
  intros Hh HO Hl Hu Hne Hs Hz. set (r := Rpower (Om0 / (1 - Om0)) (1 / 3)) in *. set (cd := fun z => flat_comoving_distance z h0 Om0).
  assert (Inc : forall a b, 0 <= a -> a < b -> b <= z_s -> cd a < cd b).
  { intros a b Ha Hab Hb. unfold cd. apply distance_increasing; try assumption. change (ratio Om0) with r. nra. }
  assert (C0 : cd 0 = 0) by (unfold cd, flat_comoving_distance; apply flat_zero).
  assert (Zs : 0 < z_s). { assert (Ex : exists t, In t lenses) by (destruct lenses as [|t l]; [contradiction|exists t; left; reflexivity]). destruct Ex as [t Hin]. destruct (Hz t Hin). lra. }
  split; [exact Hne|]. split; [exact Hs|]. split; [intros t Hin; destruct (Hz t Hin); lra|]. split; [|split; [exact Inc|lra]].
  intros t Hin. destruct (Hz t Hin). rewrite <- C0. apply Inc; lra.
Qed.
Lemma flat_one_image h0 Om0 z_s ps : 0 < h0 -> 0 < Om0 < 1 -> / 1000 <= Rpower (Om0 / (1 - Om0)) (1 / 3) -> (1 + z_s) * Rpower (Om0 / (1 - Om0)) (1 / 3) <= 10 ->
  ps <> [] -> StronglySorted Rle (map fst ps) -> (forall P, In P ps -> 0 < fst P < z_s) -> all_ordinary ps -> build_up (strengths ps) < 1 ->
  let cd := fun z => flat_comoving_distance z h0 Om0 in
  forall bx by_, exists x y, multiplane_raytrace cd cd (map plane_of ps) z_s x y = Ok (bx, by_) /\ forall x' y', multiplane_raytrace cd cd (map plane_of ps) z_s x' y' = Ok (bx, by_) -> x' = x /\ y' = y.
Proof.
  intros Hh HO Hl Hu Hne Hs Hz O W cd. apply (one_image_planes cd z_s _ (strengths ps)); [|apply planes_gentle, O|exact W].
  apply flat_front; try assumption; [destruct ps; [contradiction|discriminate]|rewrite map_map; exact Hs|]. intros t I. apply in_map_iff in I. destruct I as (P & <- & I). apply (Hz P I).
Qed.
Definition weak_planes : list (R * list piece) := [(1 / 2, [Sheet 0 0 (1 / 10); Elliptical 2 1 (1 / 4) 1 (1 / 10) 1]); (1, [Shear 0 0 (6 / 100) (8 / 100); Sheet 1 0 (1 / 10)])].
Lemma weak_planes_fit : all_ordinary weak_planes /\ build_up (strengths weak_planes) < 1 /\ in_front (fun z => z) 2 (map plane_of weak_planes) /\
  StronglySorted Rle (map fst weak_planes) /\ (forall P, In P weak_planes -> 0 < fst P < 2) /\
  (/ 1000 <= Rpower (1 / 2 / (1 - 1 / 2)) (1 / 3) /\ (1 + 2) * Rpower (1 / 2 / (1 - 1 / 2)) (1 / 3) <= 10).
Proof.
  split; [|split; [|split; [|split; [|split]]]].
  - intros P p I J. repeat (destruct I as [<-|I]; [cbn [snd] in J; repeat (destruct J as [<-|J]; [cbn; lra|]); destruct J|]). destruct I.
  - unfold build_up, strengths, weak_planes, total_strength. cbn [map fold_right snd strength]. replace ((6 / 100) ^ 2 + (8 / 100) ^ 2) with ((1 / 10) ^ 2) by field. rewrite sqrt_pow2, sqrt_quarter by lra. lra.
  - split; [discriminate|]. split; [cbn; repeat constructor; lra|]. split; [intros t I; repeat (destruct I as [<-|I]; [cbn; lra|]); destruct I|]. split; [intros t I; repeat (destruct I as [<-|I]; [cbn; lra|]); destruct I|]. split; [intros; lra|lra].
  - cbn. repeat constructor; lra.
  - intros P I. repeat (destruct I as [<-|I]; [cbn; lra|]). destruct I.
  - replace (1 / 2 / (1 - 1 / 2)) with 1 by field. unfold Rpower. rewrite ln_1, Rmult_0_r, exp_0. lra.
Qed.
