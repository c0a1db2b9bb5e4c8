(** * How many images a round lens makes *)
From Coq Require Import Reals Ranalysis5 Lra Psatz List.
From Coquelicot Require Import Coquelicot.
From Verif Require Import Py RealFun Calc2 Lens_Lib LensBase_Model Ring_Spec Ring_Proofs Count_Spec.
Import ListNotations.
Local Open Scope R_scope.

Section Count.
Variables x0 y0 : R.
Variable alpha : R -> R -> R * R.
Variables m m' : R -> R.
Hypothesis Ha : forall x y, alpha x y = (m (sqrt ((x - x0) ^ 2 + (y - y0) ^ 2)) * (x - x0), m (sqrt ((x - x0) ^ 2 + (y - y0) ^ 2)) * (y - y0)).
Variable E : R.
Hypothesis One : one_outside alpha x0 y0 E.
Hypothesis Out : forall r, 0 < r -> E <= r -> m r <= 1.
Local Notation rad := (radius x0 y0).
Lemma count_from b rs : off x0 y0 b -> NoDup rs -> (forall r, 0 < r -> (r * (m r - 1) = rad b <-> In r rs)) -> (forall r, In r rs -> 0 < r) -> image_count alpha x0 y0 b (S (length rs)).
Proof.
  intros Hb ND HS HP. destruct (One b Hb) as (k & K1 & KE & KF & _ & KU). assert (B := rad_pos x0 y0 b Hb). set (f := fun r => out x0 y0 (- (r / rad b)) b).
  assert (RF : forall r, 0 < r -> rad (f r) = r). { intros r H. unfold f. rewrite rad_scale, Rabs_Ropp, Rabs_right by (left; apply Rdiv_lt_0_compat; assumption). field. lra. }
  assert (OF : forall p, 0 < rad p -> off x0 y0 p). { intros p H. unfold off. destruct (Req_EM_T (fst p) x0) as [X|X]; [|left; exact X]. right. intros Y. unfold radius in H. rewrite X, Y in H. replace ((x0 - x0) ^ 2 + (y0 - y0) ^ 2) with 0 in H by ring. rewrite sqrt_0 in H. lra. }
  assert (IN : forall r, In r rs -> r < E). { intros r I. apply Rnot_le_lt. intros Q. assert (T := Out r (HP r I) Q). assert (G := proj2 (HS r (HP r I)) I). assert (P := HP r I). nra. }
  exists (out x0 y0 k b :: map f rs). split; [cbn; rewrite map_length; reflexivity|]. split; [|split].
  - constructor.
    + intros I. apply in_map_iff in I. destruct I as (r & Q & I). assert (T := RF r (HP r I)). rewrite Q in T. assert (T2 := IN r I). lra.
    + clear HS IN. induction rs as [|r rs IH]; [constructor|]. inversion ND as [|? ? N1 N2]; subst. cbn [map]. constructor; [|apply IH; [exact N2|intros t T; apply HP; right; exact T]].
      intros I. apply in_map_iff in I. destruct I as (t & Q & I). apply (f_equal rad) in Q. rewrite !RF in Q by (apply HP; [right; exact I|left; reflexivity] || (apply HP; cbn; tauto)). subst t. exact (N1 I).
  - intros p [<-|I]; apply OF; [rewrite rad_scale, Rabs_right by lra; nra|]. apply in_map_iff in I. destruct I as (r & <- & I). rewrite RF by (apply HP, I). apply HP, I.
  - intros p Hp. split.
    + intros C. destruct (KU p Hp C) as [->|(L & j & J & PE)]; [left; reflexivity|]. right. assert (RP : rad p = j * rad b) by (rewrite PE, rad_scale, Rabs_Ropp, Rabs_right by lra; reflexivity).
      apply in_map_iff. exists (rad p). split; [unfold f; rewrite RP; replace (j * rad b / rad b) with j by (field; lra); symmetry; exact PE|]. assert (P := rad_pos x0 y0 p Hp). apply (HS _ P).
      apply (from_iff x0 y0 alpha m Ha) in C. destruct C as [C1 C2]. set (s := m (rad p) - 1) in *.
      assert (F1 : fst p - x0 = - j * (fst b - x0)) by (rewrite PE; unfold out; cbn [fst]; ring). assert (F2 : snd p - y0 = - j * (snd b - y0)) by (rewrite PE; unfold out; cbn [snd]; ring).
      assert (SJ : s * j = 1). { rewrite F1 in C1. rewrite F2 in C2. replace (1 - m (rad p)) with (- s) in C1, C2 by (unfold s; ring).
        destruct Hb as [X|X]; [apply (Rmult_eq_reg_r (fst b - x0)); [lra|intros Q; apply X; lra]|apply (Rmult_eq_reg_r (snd b - y0)); [lra|intros Q; apply X; lra]]. }
      rewrite RP. replace (j * rad b * s) with (s * j * rad b) by ring. rewrite SJ. ring.
    + intros [<-|I]; [exact KF|]. apply in_map_iff in I. destruct I as (r & <- & I). assert (P := HP r I). assert (G := proj2 (HS r P) I). apply (from_iff x0 y0 alpha m Ha). rewrite (RF r P). unfold f, out. cbn [fst snd].
      assert (T : (1 - m r) * - (r / rad b) = 1) by (rewrite <- G; field; split; [nra|lra]). split.
      * transitivity ((1 - m r) * - (r / rad b) * (fst b - x0)); [ring|rewrite T; ring].
      * transitivity ((1 - m r) * - (r / rad b) * (snd b - y0)); [ring|rewrite T; ring].
Qed.
(** ** one peak *)
Hypothesis HE : 0 < E.
Hypothesis At : m E = 1.
Hypothesis Dm : forall r, 0 < r -> is_derive m r (m' r).
Variable rc : R.
Hypothesis Hrc : 0 < rc < E.
Hypothesis Up : forall r, 0 < r < rc -> 1 < m r + r * m' r.
Hypothesis Down : forall r, rc < r -> m r + r * m' r < 1.
Hypothesis Near0 : forall B, 0 < B -> exists a, 0 < a < rc /\ a * (m a - 1) < B.
Let G := fun r => r * (m r - 1).
Let G' := fun r => m r + r * m' r - 1.
Lemma G_d r : 0 < r -> is_derive G r (G' r).
Proof.
  intros H. unfold G, G'. assert (D := Dm r H). assert (D1 : is_derive (fun r => m r - 1) r (m' r - 0)) by (apply (is_derive_minus m (fun _ => 1)); [exact D|apply (is_derive_const (K := R_AbsRing) (V := R_NormedModule))]).
  evar_last; [apply (is_derive_mult (fun r => r) (fun r => m r - 1) r 1 (m' r - 0)); [apply (is_derive_id (K := R_AbsRing))|exact D1|intros; apply Rmult_comm]|]. cbv beta. unfold plus, mult. cbn. ring.
Qed.
Lemma G_cont r : 0 < r -> continuity_pt G r.
Proof. intros H. apply derivable_continuous_pt. exists (G' r). apply is_derive_Reals, G_d, H. Qed.
Lemma G_mvt a b : 0 < a -> a < b -> exists c, a < c < b /\ G b - G a = G' c * (b - a).
Proof. intros A L. destruct (MVT_cor2 G G' a b L) as (c & Q & C); [intros c C; apply is_derive_Reals, G_d; lra|]. exists c. split; assumption. Qed.
Lemma G_up a b : 0 < a -> a < b -> b <= rc -> G a < G b.
Proof. intros A L B. destruct (G_mvt a b A L) as (c & C & Q). assert (T := Up c ltac:(lra)). unfold G' in Q. nra. Qed.
Lemma G_down a b : rc <= a -> a < b -> G b < G a.
Proof. intros A L. destruct (G_mvt a b ltac:(lra) L) as (c & C & Q). assert (T := Down c ltac:(lra)). unfold G' in Q. nra. Qed.
Lemma G_E : G E = 0. Proof. unfold G. rewrite At. ring. Qed.
Lemma G_peak : 0 < G rc. Proof. rewrite <- G_E. apply G_down; lra. Qed.
Lemma G_below r : 0 < r -> r <> rc -> G r < G rc.
Proof. intros H N. destruct (Rtotal_order r rc) as [L|[L|L]]; [apply G_up; lra|contradiction|apply G_down; lra]. Qed.
Lemma caustic : radial_caustic alpha x0 y0 (rc * (m rc - 1)).
Proof.
  split; [exact G_peak|]. intros b Hb. assert (B := rad_pos x0 y0 b Hb). change (rc * (m rc - 1)) with (G rc). split; [|split]; intros H.
  - destruct (Near0 (rad b) B) as (a & A & AB). change (a * (m a - 1)) with (G a) in AB.
    destruct (IVT_interv (fun r => G r - rad b) a rc) as (r1 & [R1 R1'] & E1); [intros r R; apply continuity_pt_minus; [apply G_cont; lra|apply continuity_pt_const; intros ? ?; reflexivity]|lra|lra|lra|].
    destruct (IVT_interv (fun r => rad b - G r) rc E) as (r2 & [R2 R2'] & E2); [intros r R; apply continuity_pt_minus; [apply continuity_pt_const; intros ? ?; reflexivity|apply G_cont; lra]|lra|lra|rewrite G_E; lra|].
    cbv beta in E1, E2. assert (Q1 : r1 < rc) by (destruct R1' as [L|L]; [exact L|rewrite L in E1; lra]). assert (Q2 : rc < r2) by (destruct R2 as [L|L]; [exact L|rewrite <- L in E2; lra]).
    apply (count_from b [r1; r2] Hb).
    + repeat constructor; cbn [In]; [intros [T|[]]; lra|intros []].
    + intros r P. change (r * (m r - 1)) with (G r). split; [|intros [<-|[<-|[]]]; lra]. intros Q. destruct (Rle_or_lt r rc) as [L|L].
      * left. destruct (Rtotal_order r1 r) as [T|[T|T]]; [|exact T|]; exfalso; [assert (Z := G_up r1 r ltac:(lra) T L)|assert (Z := G_up r r1 P T ltac:(lra))]; lra.
      * right; left. destruct (Rtotal_order r2 r) as [T|[T|T]]; [|exact T|]; exfalso; [assert (Z := G_down r2 r ltac:(lra) T)|assert (Z := G_down r r2 ltac:(lra) T)]; lra.
    + intros r [<-|[<-|[]]]; lra.
  - apply (count_from b [rc] Hb).
    + repeat constructor. intros [].
    + intros r P. change (r * (m r - 1)) with (G r). split; [|intros [<-|[]]; symmetry; exact H]. intros Q. left. destruct (Req_dec rc r) as [T|T]; [exact T|]. assert (Z := G_below r P ltac:(intros Y; apply T; symmetry; exact Y)). lra.
    + intros r [<-|[]]; lra.
  - apply (count_from b [] Hb); [constructor| |intros r []]. intros r P. change (r * (m r - 1)) with (G r). split; [|intros []]. intros Q. destruct (Req_dec r rc) as [T|T]; [rewrite T in Q; lra|]. assert (Z := G_below r P T). lra.
Qed.
End Count.
