(** * Automatic differentiation of the elliptical power law *)
From Coq Require Import Reals Lra Lia List Arith.
From Coquelicot Require Import Coquelicot.
From Verif Require Import Py RealFun Derive1 Geo_Model Epl_Model Ad_Model Ad_Spec Ad_Proofs AdLens_Model AdLens_Spec AdLens_Proofs AdLens2_Proofs AdLens3_Proofs
  Rev_Model Rev_Spec Rev_Proofs RevLens_Proofs AdEpl_Model AdEpl_Spec.
Import ListNotations.
Local Open Scope R_scope.

Definition rmap {A B} (g : A -> B) (r : result A) : result B := match r with Ok a => Ok (g a) | Raise e => Raise e end.
Lemma bind_rmap {A B A' B'} (g : A -> A') (h : B -> B') r k k' : (forall x, k' (g x) = rmap h (k x)) -> bind (rmap g r) k' = rmap h (bind r k).
Proof. intros H. destruct r; cbn; [apply H|reflexivity]. Qed.
Lemma for_loop_rmap {A S S'} (g : S -> S') (body : A -> S -> result S) (body' : A -> S' -> result S') l :
  (forall x s, body' x (g s) = rmap g (body x s)) -> forall s, for_loop body' l (g s) = rmap g (for_loop body l s).
Proof. intros H. induction l as [|x l IH]; intros s; cbn; [reflexivity|]. rewrite H. apply bind_rmap. exact IH. Qed.

(** ** The expressions have the values of the functions *)
Section Values.
Variable a : nat -> R.
Definition evc (c : cexpr) : C := (ev a (fst c), ev a (snd c)).
Lemma evc_scale s c : evc (t_cscale s c) = (RtoC (ev a s) * evc c)%C.
Proof. unfold evc, t_cscale, Cmult, RtoC; cbn [fst snd ev]. f_equal; ring. Qed.
Lemma evc_cumprod_from l : forall p, map evc (t_cumprod_from p l) = cumprod_from (evc p) (map evc l).
Proof. induction l as [|c l IH]; intros p; [reflexivity|]. cbn [t_cumprod_from map cumprod_from]. rewrite IH. reflexivity. Qed.
Lemma evc_cumprod l : map evc (t_cumprod l) = cumprod (map evc l).
Proof. destruct l; [reflexivity|]. cbn [t_cumprod map cumprod]. rewrite evc_cumprod_from. reflexivity. Qed.
Lemma evc_csum l : evc (t_csum l) = csum (map evc l).
Proof. induction l as [|c l IH]; [reflexivity|]. change (t_csum (c :: l)) with (t_cadd c (t_csum l)). cbn [map csum fold_right]. fold (csum (map evc l)). rewrite <- IH. reflexivity. Qed.
Lemma py_last_map {A B} (g : A -> B) l : py_last (map g l) = rmap g (py_last l).
Proof. unfold py_last. rewrite <- map_rev. destruct (rev l); reflexivity. Qed.
Lemma slice_map {A B} (g : A -> B) i j l : slice i j (map g l) = map g (slice i j l).
Proof. unfold slice. rewrite skipn_map, firstn_map. reflexivity. Qed.
Lemma tl_map {A B} (g : A -> B) l : tl (map g l) = map g (tl l).
Proof. destruct l; reflexivity. Qed.

Lemma r_omega_ev z t q n c : r_omega (evc z) (ev a t) (ev a q) n c = rmap evc (t_r_omega z t q n c).
Proof.
  unfold r_omega, t_r_omega. cbv zeta. set (cs := match c with Some c => c | None => n end).
  set (phi' := t_cscale _ _).
  assert (EP : (evc z / Cconj (evc z) * - RtoC ((1 - ev a q) / (1 + ev a q)))%C = evc phi').
  { unfold phi'. rewrite evc_scale. change (evc (t_cdiv z (t_conj z))) with (evc z / Cconj (evc z))%C. cbn [ev]. rewrite RtoC_opp. ring. }
  rewrite EP. clearbody phi'. destruct (Nat.eqb cs 1); [|destruct (Nat.eqb cs 0); [reflexivity|]].
  - cbn [rmap]. f_equal. generalize (seq 1 (n - 1)) as l. 
    assert (G : forall l o s, snd (fold_left (fun st i => let omega_i := (factor (ev a t) i * evc phi' * fst st)%C in (omega_i, (snd st + omega_i)%C)) l (evc o, evc s))
       = evc (snd (fold_left (fun st i => let omega_i := t_cmul (t_cscale (t_factor t i) phi') (fst st) in (omega_i, t_cadd (snd st) omega_i)) l (o, s)))).
    { induction l as [|i l IH]; intros o s; [reflexivity|]. cbn [fold_left fst snd]. cbv zeta.
      replace (factor (ev a t) i * evc phi' * evc o)%C with (evc (t_cmul (t_cscale (t_factor t i) phi') o)).
      - exact (IH _ (t_cadd s (t_cmul (t_cscale (t_factor t i) phi') o))).
      - change (evc (t_cmul (t_cscale (t_factor t i) phi') o)) with (evc (t_cscale (t_factor t i) phi') * evc o)%C. rewrite evc_scale. reflexivity. }
    intros l. apply G.
  - set (g := option_map (fun '(l, r) => (map evc l, evc r))).
    match goal with |- bind (for_loop ?b' ?l None) _ = rmap _ (bind (for_loop ?b ?l None) _) => assert (HL : for_loop b' l None = rmap g (for_loop b l None)); [refine (for_loop_rmap g b b' l _ None)|rewrite HL; clear HL] end.
    2: { apply bind_rmap. intros [[l r]|]; cbn [g option_map rmap]; [|reflexivity]. f_equal. }
    { intros i st. rewrite !map_map.
      assert (ER : map (fun a0 => (a0 * evc phi')%C) (slice (i * cs) (Nat.max ((i + 1) * cs) n) (map (fun x => RtoC (factor (ev a t) x)) (seq 1 (n - 1))))
        = map evc (map (fun a0 => t_cscale a0 phi') (slice (i * cs) (Nat.max ((i + 1) * cs) n) (map (t_factor t) (seq 1 (n - 1)))))).
      { rewrite !slice_map, !map_map. apply map_ext. intros j. rewrite evc_scale. reflexivity. }
      cbv zeta. rewrite ER. set (rec := map (fun a0 => t_cscale a0 phi') _). clearbody rec. destruct st as [[l r]|]; cbn [g option_map].
      * rewrite py_last_map. apply bind_rmap. intros x. cbn [rmap option_map]. do 2 f_equal. rewrite <- (map_cons evc), <- evc_cumprod, tl_map, <- evc_csum. reflexivity.
      * cbn [rmap option_map]. do 2 f_equal. rewrite <- evc_cumprod, <- evc_csum. reflexivity. }
Qed.
End Values.

Definition epl_z (x0 y0 q phi x y : expr) : cexpr := let '(x, y) := t_translate_rotate x y x0 y0 (Some phi) in (Mul q x, y).
Definition epl_r (x0 y0 q phi x y : expr) : expr := let z := epl_z x0 y0 q phi x y in Sqrt (Add (Pow (fst z) 2) (Pow (snd z) 2)).
Definition epl_scale (x0 y0 q phi R t x y : expr) : expr := Mul (Div (Cst 2) (Add (Cst 1) q)) (RPow (Div (Mul R (Sqrt q)) (epl_r x0 y0 q phi x y)) t).
Lemma deflection_unfold x0 y0 q phi R t x y n c : t_deflection_epl x0 y0 q phi R t x y n c =
  bind (t_r_omega (epl_z x0 y0 q phi x y) t q n c) (fun om => let al := t_cscale (epl_scale x0 y0 q phi R t x y) om in
    Ok (t_derotate (NanToNum (fst al)) (NanToNum (snd al)) (Some phi))).
Proof. reflexivity. Qed.

(** ** Every operation is inside its domain off the centre

    [P] is either "differentiated exactly" or "may be backpropagated through". *)
Section Domain.
Variable a : nat -> R.
Variable P : expr -> Prop.
Hypothesis Pcst : forall r, P (Cst r).
Hypothesis Padd : forall u w, P u -> P w -> P (Add u w).
Hypothesis Psub : forall u w, P u -> P w -> P (Sub u w).
Hypothesis Pmul : forall u w, P u -> P w -> P (Mul u w).
Hypothesis Pneg : forall u, P u -> P (Neg u).
Hypothesis Pdiv : forall u w, P u -> P w -> ev a w <> 0 -> P (Div u w).
Hypothesis Ppow : forall u n, P u -> P (Pow u n).
Hypothesis Psqrt : forall u, P u -> 0 < ev a u -> P (Sqrt u).
Hypothesis Prpow : forall u p, P u -> P p -> 0 < ev a u -> P (RPow u p).
Hypothesis Psin : forall u, P u -> P (Sin u).
Hypothesis Pcos : forall u, P u -> P (Cos u).
Hypothesis Pnan : forall u, P u -> P (NanToNum u).

Definition Pc (c : cexpr) : Prop := P (fst c) /\ P (snd c).
Lemma Pc_add c d : Pc c -> Pc d -> Pc (t_cadd c d).
Proof. intros [] []; split; cbn; auto. Qed.
Lemma Pc_mul c d : Pc c -> Pc d -> Pc (t_cmul c d).
Proof. intros [] []; split; cbn; auto. Qed.
Lemma Pc_scale s c : P s -> Pc c -> Pc (t_cscale s c).
Proof. intros ? []; split; cbn; auto. Qed.
Lemma Pc_cumprod_from l : forall p, Pc p -> List.Forall Pc l -> List.Forall Pc (t_cumprod_from p l).
Proof. induction l as [|c l IH]; intros p Hp Hl; cbn; [constructor|]. apply Forall_cons_iff in Hl as [Hc Hl]. constructor; [apply Pc_mul; assumption|apply IH; [apply Pc_mul|]; assumption]. Qed.
Lemma Pc_cumprod l : List.Forall Pc l -> List.Forall Pc (t_cumprod l).
Proof. destruct l as [|c l]; intros H; cbn; [constructor|]. apply Forall_cons_iff in H as [Hc Hl]. constructor; [assumption|apply Pc_cumprod_from; assumption]. Qed.
Lemma Pc_csum l : List.Forall Pc l -> Pc (t_csum l).
Proof. induction 1; [split; apply Pcst|]. apply Pc_add; assumption. Qed.
Lemma Pc_last l c : List.Forall Pc l -> py_last l = Ok c -> Pc c.
Proof.
  intros H E. unfold py_last in E. destruct (rev l) as [|d r] eqn:K; [discriminate|]. injection E as <-.
  assert (I : In d l) by (apply in_rev; rewrite K; left; reflexivity). rewrite Forall_forall in H. apply H, I.
Qed.
Lemma for_loop_inv {A S} (Q : S -> Prop) (body : A -> S -> result S) l : (forall x s s', In x l -> Q s -> body x s = Ok s' -> Q s') ->
  forall s s', Q s -> for_loop body l s = Ok s' -> Q s'.
Proof.
  induction l as [|x l IH]; intros H s s' Hs; cbn; [congruence|]. destruct (body x s) as [s1|] eqn:E; cbn; [|discriminate].
  apply IH; [intros y u u' Iy; apply H; right; exact Iy|apply (H x s s1); [left; reflexivity|exact Hs|exact E]].
Qed.
Lemma P_factor t i : P t -> ev a t < 4 -> (1 <= i)%nat -> P (t_factor t i).
Proof.
  intros Ht H Hi. unfold t_factor. apply Pdiv; auto. cbn [ev]. apply le_INR in Hi. cbn in Hi. lra.
Qed.
Lemma Pc_r_omega z t q n c w : Pc z -> P t -> P q -> ev a t < 4 -> 0 < ev a q -> ev a (fst z) <> 0 \/ ev a (snd z) <> 0 ->
  t_r_omega z t q n c = Ok w -> Pc w.
Proof.
  intros Hz Ht Hq Lt Pq NZ. unfold t_r_omega. cbv zeta. set (cs := match c with Some c => c | None => n end). set (phi := t_cscale _ _).
  assert (Hphi : Pc phi).
  { unfold phi. destruct Hz as [Hx Hy].
    assert (N2 : ev a (fst z) ^ 2 + (- ev a (snd z)) ^ 2 <> 0) by (replace ((- ev a (snd z)) ^ 2) with (ev a (snd z) ^ 2) by ring; pose proof (norm2_pos _ _ NZ); lra).
    apply Pc_scale; [apply Pneg, Pdiv; auto; cbn [ev]; lra|]. apply Pc_mul; [split; assumption|].
    split; cbn [t_cinv t_conj fst snd]; apply Pdiv; auto. }
  clearbody phi. destruct (Nat.eqb cs 1); [|destruct (Nat.eqb cs 0); [discriminate|]].
  - intros E. injection E as <-.
    assert (G : forall l o s, Pc o -> Pc s -> (forall i, In i l -> (1 <= i)%nat) ->
       Pc (snd (fold_left (fun st i => let omega_i := t_cmul (t_cscale (t_factor t i) phi) (fst st) in (omega_i, t_cadd (snd st) omega_i)) l (o, s)))).
    { induction l as [|i l IH]; intros o s Ho Hs Hl; [exact Hs|]. cbn [fold_left fst snd]. cbv zeta in IH |- *.
      assert (Hn : Pc (t_cmul (t_cscale (t_factor t i) phi) o)) by (apply Pc_mul; [apply Pc_scale; [apply P_factor; [exact Ht|exact Lt|apply Hl; left; reflexivity]|exact Hphi]|exact Ho]).
      apply IH; [exact Hn|apply Pc_add; assumption|intros j Hj; apply Hl; right; exact Hj]. }
    apply G; [exact Hz|exact Hz|]. intros i Hi. apply in_seq in Hi. lia.
  - match goal with |- bind (for_loop ?b ?l None) _ = _ -> _ => destruct (for_loop b l None) as [st|] eqn:E; [|discriminate] end. cbn [bind].
    destruct st as [[l r]|]; [|discriminate]. intros K. injection K as <-.
    assert (Q : match Some (l, r) with Some (l, r) => List.Forall Pc l /\ Pc r | None => True end).
    { apply (for_loop_inv (fun st => match st with Some (l, r) => List.Forall Pc l /\ Pc r | None => True end) _ _) with (3 := E); [|exact I].
      intros i s s' _ Hs. 
      assert (HR : List.Forall Pc (map (fun a0 => t_cscale a0 phi) (slice (i * cs) (Nat.max ((i + 1) * cs) n) (map (t_factor t) (seq 1 (n - 1)))))).
      { apply Forall_forall. intros x Ix. apply in_map_iff in Ix as (f & <- & Hf). apply Pc_scale; [|exact Hphi].
        assert (If : In f (map (t_factor t) (seq 1 (n - 1)))).
        { rewrite <- (firstn_skipn (i * cs) (map (t_factor t) (seq 1 (n - 1)))). apply in_or_app. right. unfold slice in Hf.
          rewrite <- (firstn_skipn (Nat.max ((i + 1) * cs) n - i * cs) (skipn _ _)). apply in_or_app. left. exact Hf. }
        apply in_map_iff in If as (j & <- & Hj). apply in_seq in Hj. apply P_factor; [exact Ht|exact Lt|lia]. }
      set (rec := map (fun a0 => t_cscale a0 phi) _) in *. clearbody rec. destruct s as [[l0 r0]|].
      - destruct Hs as [Hl0 Hr0]. destruct (py_last l0) as [x|] eqn:EL; cbn [bind]; [|discriminate]. intros K. injection K as <-.
        assert (HT : List.Forall Pc (tl (t_cumprod (x :: rec)))).
        { apply Pc_cumprod_from; [|exact HR]. apply (Pc_last l0); assumption. }
        split; [exact HT|apply Pc_add; [exact Hr0|apply Pc_csum; exact HT]].
      - intros K. injection K as <-. pose proof (Pc_cumprod rec HR). split; [assumption|apply Pc_csum; assumption]. }
    destruct Q as [_ Hr]. apply Pc_mul; [exact Hz|]. apply Pc_add; [split; apply Pcst|exact Hr].
Qed.
Section Lens.
Variables x y x0 y0 q phi R t : expr.
Hypothesis Hx : P x.
Hypothesis Hy : P y.
Hypothesis Hx0 : P x0.
Hypothesis Hy0 : P y0.
Hypothesis Hq : P q.
Hypothesis Hphi : P phi.
Hypothesis HR : P R.
Hypothesis Ht : P t.
Hypothesis Pq : 0 < ev a q.
Hypothesis PR : 0 < ev a R.
Hypothesis Lt : ev a t < 4.
Hypothesis Off : off a x y x0 y0.
Lemma P_z : Pc (epl_z x0 y0 q phi x y).
Proof. split; cbn; auto 10. Qed.
Lemma z_off : ev a (fst (epl_z x0 y0 q phi x y)) <> 0 \/ ev a (snd (epl_z x0 y0 q phi x y)) <> 0.
Proof.
  destruct (off_turned a x y x0 y0 phi Off) as [H|H]; [left|right; exact H]. cbn [turned t_translate_rotate epl_z fst snd ev] in *.
  apply Rmult_integral_contrapositive_currified; [lra|exact H].
Qed.
Lemma r_pos : 0 < ev a (epl_r x0 y0 q phi x y).
Proof. unfold epl_r. cbn [ev]. apply sqrt_lt_R0, norm2_pos, z_off. Qed.
Lemma P_r : P (epl_r x0 y0 q phi x y).
Proof. destruct P_z. apply Psqrt; [auto|]. cbn [ev]. apply norm2_pos, z_off. Qed.
Lemma base_pos : 0 < ev a R * sqrt (ev a q) / ev a (epl_r x0 y0 q phi x y).
Proof. apply Rdiv_lt_0_compat; [apply Rmult_lt_0_compat; [exact PR|apply sqrt_lt_R0, Pq]|exact r_pos]. Qed.
Lemma Pc_deflection n c w : t_deflection_epl x0 y0 q phi R t x y n c = Ok w -> Pc w.
Proof.
  rewrite deflection_unfold.
  destruct (t_r_omega (epl_z x0 y0 q phi x y) t q n c) as [om|] eqn:E; cbn [bind]; [|discriminate].
  pose proof (Pc_r_omega _ t q n c om P_z Ht Hq Lt Pq z_off E) as [H1 H2]. pose proof P_r as HPr. pose proof r_pos as HP. pose proof base_pos as HB.
  intros K. injection K as <-.
  assert (HS : P (epl_scale x0 y0 q phi R t x y)).
  { apply Pmul; [apply Pdiv; auto; cbn [ev]; lra|]. apply Prpow; [|exact Ht|exact HB]. apply Pdiv; [auto|exact HPr|lra]. }
  split; cbn [t_cscale t_derotate fst snd]; auto 10.
Qed.
Lemma P_potential n c w : ev a t <> 2 -> t_potential_epl x0 y0 q phi R t x y n c = Ok w -> P w.
Proof.
  intros N2. unfold t_potential_epl. destruct (t_deflection_epl x0 y0 q phi R t x y n c) as [d|] eqn:E; cbn [bind]; [|discriminate].
  destruct (Pc_deflection n c d E). cbn [t_derotate t_translate_rotate]. intros K. injection K as <-. apply Pdiv; [|auto|cbn [ev]; lra]. auto 20.
Qed.
End Lens.
End Domain.

(** ** The statements *)
Local Notation "a @ n" := (a n%nat) (at level 9, only parsing).
Local Notation V n := (Var n%nat).
Lemma deflection_ev a x0 y0 q phi R t x y n c : 0 < ev a (epl_r x0 y0 q phi x y) -> 0 < ev a R * sqrt (ev a q) / ev a (epl_r x0 y0 q phi x y) ->
  reduced_deflection_angle_epl (ev a x0) (ev a y0) (ev a q) (ev a phi) (ev a R) (ev a t) n c (ev a x) (ev a y) = rmap (evc a) (t_deflection_epl x0 y0 q phi R t x y n c).
Proof.
  intros Pr Pb. rewrite deflection_unfold. unfold reduced_deflection_angle_epl. cbn [translate_rotate].
  match goal with |- bind (r_omega ?z _ _ _ _) _ = _ => change z with (evc a (epl_z x0 y0 q phi x y)) end.
  rewrite r_omega_ev. apply bind_rmap. intros om. cbv zeta. cbn [rmap]. f_equal.
  match goal with |- context [Cmod ?z] => change (Cmod z) with (ev a (epl_r x0 y0 q phi x y)) end.
  destruct (Req_EM_T (ev a (epl_r x0 y0 q phi x y)) 0); [lra|].
  unfold power. destruct (Req_EM_T (ev a R * sqrt (ev a q) / ev a (epl_r x0 y0 q phi x y)) 0); [lra|].
  match goal with |- context [(RtoC ?s * evc a om)%C] => change s with (ev a (epl_scale x0 y0 q phi R t x y)) end.
  rewrite <- evc_scale. reflexivity.
Qed.
Lemma potential_ev a x0 y0 q phi R t x y n c : 0 < ev a (epl_r x0 y0 q phi x y) -> 0 < ev a R * sqrt (ev a q) / ev a (epl_r x0 y0 q phi x y) ->
  potential_epl (ev a x0) (ev a y0) (ev a q) (ev a phi) (ev a R) (ev a t) n c (ev a x) (ev a y) = rmap (ev a) (t_potential_epl x0 y0 q phi R t x y n c).
Proof.
  intros Pr Pb. unfold potential_epl, t_potential_epl. rewrite (deflection_ev a x0 y0 q phi R t x y n c Pr Pb). apply bind_rmap. intros [u w]. reflexivity.
Qed.
Section Thms.
Variable a : nat -> R.
Variable n : nat.
Variable c : option nat.
Let defl := fun a : nat -> R => reduced_deflection_angle_epl a@2 a@3 a@4 a@5 a@6 a@7 n c a@0 a@1.
Let pot := fun a : nat -> R => potential_epl a@2 a@3 a@4 a@5 a@6 a@7 n c a@0 a@1.
Let tdefl := t_deflection_epl (V 2) (V 3) (V 4) (V 5) (V 6) (V 7) (V 0) (V 1) n c.
Let tpot := t_potential_epl (V 2) (V 3) (V 4) (V 5) (V 6) (V 7) (V 0) (V 1) n c.
Hypothesis Pq : 0 < a@4.
Hypothesis PR : 0 < a@6.
Hypothesis Lt : a@7 < 4.
Hypothesis Off : a@0 <> a@2 \/ a@1 <> a@3.
Let rr := epl_r (V 2) (V 3) (V 4) (V 5) (V 0) (V 1).
Let bb := Div (Mul (V 6) (Sqrt (V 4))) rr.
Lemma ok_rr seed : ok a seed rr /\ ok a seed bb.
Proof.
  assert (O := fun m => ok_var a seed m).
  assert (A : ok a seed rr) by (apply (P_r a (ok a seed)); auto using ok_cst, ok_add, ok_sub, ok_mul, ok_neg, ok_pow, ok_sin, ok_cos; intros; apply ok_sqrt; auto).
  split; [exact A|]. apply ok_div; [apply ok_mul; [apply O|apply ok_sqrt; [apply O|right; exact Pq]]|exact A|]. apply Rgt_not_eq. apply (r_pos a); auto.
Qed.
Lemma near_pos seed : locally 0 (fun h => 0 < ev (along a seed h) rr /\ 0 < ev (along a seed h) bb).
Proof.
  destruct (ok_rr seed) as [O1 O2]. apply filter_and.
  - generalize (ok_lt a seed (Cst 0) rr (ok_cst _ _ 0) O1 (r_pos a (V 0) (V 1) (V 2) (V 3) (V 4) (V 5) Pq Off)). apply filter_imp. auto.
  - generalize (ok_lt a seed (Cst 0) bb (ok_cst _ _ 0) O2 (base_pos a (V 0) (V 1) (V 2) (V 3) (V 4) (V 5) (V 6) Pq PR Off)). apply filter_imp. auto.
Qed.
Ltac close_ok := auto using ok_cst, ok_add, ok_sub, ok_mul, ok_neg, ok_pow, ok_sin, ok_cos, ok_div, ok_rpow, ok_nan; try (intros; apply ok_sqrt; auto).
Ltac close_tm := auto using tm_cst, tm_add, tm_sub, tm_mul, tm_neg, tm_pow, tm_sin, tm_cos, tm_div, tm_rpow, tm_nan, tm_sqrt, tm_var.
Lemma defl_ok seed w : tdefl = Ok w -> ok a seed (fst w) /\ ok a seed (snd w).
Proof.
  intros E. assert (O := fun m => ok_var a seed m).
  apply (Pc_deflection a (ok a seed)) with (x := V 0) (y := V 1) (x0 := V 2) (y0 := V 3) (q := V 4) (phi := V 5) (R := V 6) (t := V 7) (n := n) (c := c); close_ok.
Qed.
Lemma pot_ok seed w : a@7 <> 2 -> tpot = Ok w -> ok a seed w.
Proof.
  intros N E. assert (O := fun m => ok_var a seed m).
  apply (P_potential a (ok a seed)) with (x := V 0) (y := V 1) (x0 := V 2) (y0 := V 3) (q := V 4) (phi := V 5) (R := V 6) (t := V 7) (n := n) (c := c); close_ok.
Qed.
Lemma defl_tm w : tdefl = Ok w -> tame a (fst w) /\ tame a (snd w).
Proof.
  intros E. apply (Pc_deflection a (tame a)) with (x := V 0) (y := V 1) (x0 := V 2) (y0 := V 3) (q := V 4) (phi := V 5) (R := V 6) (t := V 7) (n := n) (c := c); close_tm.
Qed.
Lemma pot_tm w : a@7 <> 2 -> tpot = Ok w -> tame a w.
Proof.
  intros N E. apply (P_potential a (tame a)) with (x := V 0) (y := V 1) (x0 := V 2) (y0 := V 3) (q := V 4) (phi := V 5) (R := V 6) (t := V 7) (n := n) (c := c); close_tm.
Qed.
Lemma epl_ad seed v : defl a = Ok v -> ad_exact2_ret defl tdefl a seed /\ (a@7 <> 2 -> ad_exact_ret pot tpot a seed).
Proof.
  intros E.
  assert (E0 : forall b, 0 < ev b rr -> 0 < ev b bb -> defl b = rmap (evc b) tdefl) by (intros b; exact (deflection_ev b (V 2) (V 3) (V 4) (V 5) (V 6) (V 7) (V 0) (V 1) n c)).
  assert (E1 : forall b, 0 < ev b rr -> 0 < ev b bb -> pot b = rmap (ev b) tpot) by (intros b; exact (potential_ev b (V 2) (V 3) (V 4) (V 5) (V 6) (V 7) (V 0) (V 1) n c)).
  pose proof (r_pos a (V 0) (V 1) (V 2) (V 3) (V 4) (V 5) Pq Off) as Pr. pose proof (base_pos a (V 0) (V 1) (V 2) (V 3) (V 4) (V 5) (V 6) Pq PR Off) as Pb.
  specialize (E0 a Pr Pb) as EA. rewrite E in EA. destruct tdefl as [w|] eqn:ET; [|discriminate]. clear EA.
  split.
  - exists w, v. split; [reflexivity|split; [exact E|]]. destruct (defl_ok seed w ET) as [O1 O2].
    split; (apply ad_of_loc; [assumption|]); generalize (near_pos seed); apply filter_imp; intros h [H1 H2]; rewrite (E0 _ H1 H2); reflexivity.
  - intros N. destruct tpot as [u|] eqn:EP; [|unfold tpot, t_potential_epl in EP; fold tdefl in EP; rewrite ET in EP; discriminate EP].
    exists u, (ev a u). split; [reflexivity|split; [exact (E1 a Pr Pb)|]].
    apply ad_of_loc; [exact (pot_ok seed u N EP)|]. generalize (near_pos seed). apply filter_imp. intros h [H1 H2]. rewrite (E1 _ H1 H2). reflexivity.
Qed.
Lemma epl_grad req v : defl a = Ok v -> grad_exact2_ret defl tdefl a req /\ (a@7 <> 2 -> grad_exact_ret pot tpot a req).
Proof.
  intros E. split.
  - destruct (epl_ad (fun _ => None) v E) as [(w & v' & ET & EV & _) _]. exists w, v'. split; [exact ET|split; [exact EV|]].
    destruct (defl_tm w ET) as [T1 T2].
    split; (apply grad_exact_of; [assumption|]); intros k _; destruct (epl_ad (one_of req k) v E) as [(w2 & v2 & ET2 & _ & A1 & A2) _]; rewrite ET in ET2; injection ET2 as <-; assumption.
  - intros N. destruct (epl_ad (fun _ => None) v E) as [_ A]. destruct (A N) as (w & v' & ET & EV & _). exists w, v'. split; [exact ET|split; [exact EV|]].
    apply grad_exact_of; [exact (pot_tm w N ET)|]. intros k _. destruct (epl_ad (one_of req k) v E) as [_ A']. destruct (A' N) as (w2 & v2 & ET2 & _ & D). rewrite ET in ET2. injection ET2 as <-. exact D.
Qed.
End Thms.
