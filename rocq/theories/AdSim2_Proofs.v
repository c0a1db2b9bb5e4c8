(** * Derivatives of a simulated image, forward and backward; an isothermal ellipsoid with Sersic lights *)
From Coq Require Import Reals Lra Lia Arith ZArith List Bool String FunctionalExtensionality.
From Coquelicot Require Import Coquelicot.
From Verif Require Import Py Fsum RealFun Derive1 Geo_Model LensBase_Model LensBasic_Model Light_Model Sim_Model Ad_Model Ad_Spec Ad_Proofs AdLens_Model AdLens_Proofs AdLens2_Proofs AdLens3_Proofs AdEpl_Model
  Rev_Model Rev_Spec Rev_Proofs RevLens_Proofs AdSim_Model AdSim_Spec AdSim_Proofs.
Import ListNotations.
Local Open Scope R_scope.

Section Fwd.
Variables (a : env) (seed : nat -> option R).
Notation Rel := (fun F t => ad_exact F t a seed).
Lemma ax_ext f g e : (forall b, f b = g b) -> Rel f e -> Rel g e.
Proof. intros H K. replace g with f; [exact K|]. apply functional_extensionality, H. Qed.
Lemma ax_cst r : Rel (fun _ => r) (Cst r).
Proof. exists 0. split; [reflexivity|split; [reflexivity|]]. apply (dv_const r). Qed.
Lemma along0 : along a seed 0 = a.
Proof. apply functional_extensionality. intros n. unfold along. ring. Qed.
Lemma ax_bin (op : expr -> expr -> expr) nf da db post (rop : R -> R -> R) pa pb f g d e :
  (forall u v, jvp a seed (op u v) = let va := fst (jvp a seed u) in let vb := fst (jvp a seed v) in
    (nf va vb, tan2 (da va vb) (db va vb) (post va vb) (snd (jvp a seed u)) (snd (jvp a seed v)))) ->
  nf (Fin (f a)) (Fin (g a)) = Fin (rop (f a) (g a)) ->
  (forall t, post (Fin (f a)) (Fin (g a)) (da (Fin (f a)) (Fin (g a)) (Fin t)) = Fin (pa * t)) ->
  (forall t, post (Fin (f a)) (Fin (g a)) (db (Fin (f a)) (Fin (g a)) (Fin t)) = Fin (pb * t)) ->
  (forall t s, post (Fin (f a)) (Fin (g a)) (nadd (da (Fin (f a)) (Fin (g a)) (Fin t)) (db (Fin (f a)) (Fin (g a)) (Fin s))) = Fin (pa * t + pb * s)) ->
  (forall (u v : R -> R) t s, u 0 = f a -> v 0 = g a -> is_derive u 0 t -> is_derive v 0 s -> is_derive (fun h => rop (u h) (v h)) 0 (pa * t + pb * s)) ->
  Rel f d -> Rel g e -> Rel (fun b => rop (f b) (g b)) (op d e).
Proof.
  intros HJ HV HA HB HAB HD (t & V1 & T1 & D1) (s & V2 & T2 & D2). exists (pa * t + pb * s). rewrite HJ. cbv zeta. cbn [fst snd]. rewrite V1, V2.
  split; [exact HV|split].
  - destruct (snd (jvp a seed d)) as [td|], (snd (jvp a seed e)) as [te|]; cbn [tval tan2] in *.
    + rewrite T1, T2. apply HAB.
    + rewrite T1, HA. injection T2 as <-. apply Fin_eq. ring.
    + rewrite T2, HB. injection T1 as <-. apply Fin_eq. ring.
    + injection T1 as <-. injection T2 as <-. apply Fin_eq. ring.
  - apply (HD (fun h => f (along a seed h)) (fun h => g (along a seed h))); [rewrite along0; reflexivity|rewrite along0; reflexivity|exact D1|exact D2].
Qed.
Ltac fin := intros; cbn; apply Fin_eq; ring.
Lemma ax_add f g d e : Rel f d -> Rel g e -> Rel (fun b => f b + g b) (Add d e).
Proof.
  apply (ax_bin Add nadd (fun _ _ t => t) (fun _ _ t => t) (fun _ _ n => n) Rplus 1 1); [reflexivity|reflexivity|fin|fin|fin|].
  intros u v t s _ _ H K. eapply dv_val; [apply dv_plus; eassumption|ring].
Qed.
Lemma ax_sub f g d e : Rel f d -> Rel g e -> Rel (fun b => f b - g b) (Sub d e).
Proof.
  apply (ax_bin Sub nsub (fun _ _ t => t) (fun _ _ t => nneg t) (fun _ _ n => n) Rminus 1 (-1)); [reflexivity|reflexivity|fin|fin|fin|].
  intros u v t s _ _ H K. eapply dv_val; [apply dv_minus; eassumption|ring].
Qed.
Lemma ax_mul f g d e : Rel f d -> Rel g e -> Rel (fun b => f b * g b) (Mul d e).
Proof.
  apply (ax_bin Mul nmul (fun _ vb t => nmul t vb) (fun va _ t => nmul va t) (fun _ _ n => n) Rmult (g a) (f a)); [reflexivity|reflexivity|fin|fin|fin|].
  intros u v t s U V H K. eapply dv_val; [apply dv_mult; eassumption|rewrite U, V; ring].
Qed.
Lemma ax_div f g d e : Rel f d -> Rel g e -> g a <> 0 -> Rel (fun b => f b / g b) (Div d e).
Proof.
  intros H K Z. revert H K.
  apply (ax_bin Div ndiv (fun _ _ t => t) (fun va vb t => nneg (nmul t (ndiv va vb))) (fun _ vb n => ndiv n vb) Rdiv (/ g a) (- f a / g a ^ 2)); [reflexivity|apply ndiv_fin, Z| | | |].
  - intros t. rewrite ndiv_fin by exact Z. apply Fin_eq. field; exact Z.
  - intros t. rewrite ndiv_fin by exact Z. cbn [nmul lift2 nneg lift1]. rewrite ndiv_fin by exact Z. apply Fin_eq. field; exact Z.
  - intros t s. rewrite ndiv_fin by exact Z. cbn [nmul lift2 nneg lift1 nadd]. rewrite ndiv_fin by exact Z. apply Fin_eq. field; exact Z.
  - intros u v t s U V H K. eapply dv_val; [apply dv_div; [eassumption|eassumption|rewrite V; exact Z]|rewrite U, V; field; exact Z].
Qed.
Lemma ax_neg f d : Rel f d -> Rel (fun b => - f b) (Neg d).
Proof.
  intros (t & V1 & T1 & D1). exists (- t). cbn [jvp fst snd]. rewrite V1. split; [reflexivity|split].
  - destruct (snd (jvp a seed d)) as [td|]; cbn [tan1 tval] in *; [rewrite T1; reflexivity|injection T1 as <-; apply Fin_eq; ring].
  - apply dv_opp, D1.
Qed.
Definition fwd_call := rel_call Rel a ax_ext ax_cst ax_add ax_sub ax_mul ax_div ax_neg.
End Fwd.
Section Bwd.
Variables (a : env) (req : nat -> bool).
Notation Rel := (fun F t => both_ways F t a req).
Lemma bw_ext f g e : (forall b, f b = g b) -> Rel f e -> Rel g e.
Proof. intros H K. replace g with f; [exact K|]. apply functional_extensionality, H. Qed.
Lemma bw_cst r : Rel (fun _ => r) (Cst r).
Proof. split; [exact I|split; [reflexivity|]]. intros. apply ax_cst. Qed.
Lemma bw_add f g d e : Rel f d -> Rel g e -> Rel (fun b => f b + g b) (Add d e).
Proof. intros (T & V & A) (T' & V' & A'). split; [split; assumption|split; [cbn [ev]; rewrite V, V'; reflexivity|]]. intros k K. apply ax_add; auto. Qed.
Lemma bw_sub f g d e : Rel f d -> Rel g e -> Rel (fun b => f b - g b) (Sub d e).
Proof. intros (T & V & A) (T' & V' & A'). split; [split; assumption|split; [cbn [ev]; rewrite V, V'; reflexivity|]]. intros k K. apply ax_sub; auto. Qed.
Lemma bw_mul f g d e : Rel f d -> Rel g e -> Rel (fun b => f b * g b) (Mul d e).
Proof. intros (T & V & A) (T' & V' & A'). split; [split; assumption|split; [cbn [ev]; rewrite V, V'; reflexivity|]]. intros k K. apply ax_mul; auto. Qed.
Lemma bw_div f g d e : Rel f d -> Rel g e -> g a <> 0 -> Rel (fun b => f b / g b) (Div d e).
Proof. intros (T & V & A) (T' & V' & A') Z. split; [split; [assumption|split; [assumption|rewrite V'; exact Z]]|split; [cbn [ev]; rewrite V, V'; reflexivity|]]. intros k K. apply ax_div; auto. Qed.
Lemma bw_neg f d : Rel f d -> Rel (fun b => - f b) (Neg d).
Proof. intros (T & V & A). split; [assumption|split; [cbn [ev]; rewrite V; reflexivity|]]. intros k K. apply ax_neg; auto. Qed.
Definition bwd_call := rel_call Rel a bw_ext bw_cst bw_add bw_sub bw_mul bw_div bw_neg.
End Bwd.

(** ** a Sersic profile seen at a traced position *)
Lemma k_ok a seed (lk : bool) n : ok a seed n -> ev a n <> 0 -> ok a seed (if lk then t_k_lenstronomy n else t_k_sersic n).
Proof. intros O Z. destruct lk; unfold t_k_lenstronomy, t_k_sersic; oks; exact Z. Qed.
Lemma k_tm a (lk : bool) n : tame a n -> ev a n <> 0 -> tame a (if lk then t_k_lenstronomy n else t_k_sersic n).
Proof. intros O Z. destruct lk; unfold t_k_lenstronomy, t_k_sersic; tms; exact Z. Qed.
Lemma k_ev b (lk : bool) n : ev b (if lk then t_k_lenstronomy n else t_k_sersic n) = (if lk then k_lenstronomy (ev b n) else k_sersic (ev b n)).
Proof. destruct lk; reflexivity. Qed.
Definition base_at (s : R) (m : nat) (x y : expr) := sersic_base (Var m) (Var (m + 1)) (Var (m + 2)) (Var (m + 3)) (Var (m + 5)) x y (Cst s).
Lemma sersic_light_ev lk s m b x y : 0 < ev b (base_at s m x y) -> sersic_light lk s m b (ev b x) (ev b y) = ev b (t_sersic_light lk s m x y).
Proof.
  intros P. unfold sersic_light, t_sersic_light, t_sersic_brightness, sersic_brightness.
  set (k := if lk then t_k_lenstronomy (Var (m + 4)) else t_k_sersic (Var (m + 4))).
  replace (if lk then k_lenstronomy (b (m + 4)%nat) else k_sersic (b (m + 4)%nat)) with (ev b k) by (apply (k_ev b lk (Var (m + 4)))). clearbody k.
  change (brightness_sersic (b m) (b (m + 1)%nat) (b (m + 2)%nat) (b (m + 3)%nat) (b (m + 4)%nat) (b (m + 5)%nat) (b (m + 6)%nat) (ev b x) (ev b y) (ev b k) s) with
    (match real_pow (ev b (base_at s m x y)) (1 / b (m + 4)%nat) with Some p => Some (b (m + 6)%nat * exp (- ev b k * (p - 1))) | None => None end).
  change (ev b (t_brightness_sersic (Var m) (Var (m + 1)) (Var (m + 2)) (Var (m + 3)) (Var (m + 4)) (Var (m + 5)) (Var (m + 6)) x y k (Cst s))) with
    (b (m + 6)%nat * exp (- ev b k * (Rpower (ev b (base_at s m x y)) (1 / b (m + 4)%nat) - 1))).
  unfold real_pow. destruct (Rlt_dec _ 0); [lra|]. destruct (Req_EM_T _ 0) as [Z|Z]; [lra|reflexivity].
Qed.
Lemma sersic_light_ad a seed lk s m x y : ok a seed x -> ok a seed y -> sersic_fine m a -> 0 <= s -> ev a x <> a m \/ ev a y <> a (m + 1)%nat ->
  ad_exact (fun b => sersic_light lk s m b (ev b x) (ev b y)) (t_sersic_light lk s m x y) a seed.
Proof.
  intros Ox Oy (Pq & Pn & PR) Ps H. assert (O := fun n => ok_var a seed n).
  destruct (sersic_ok a seed x y (Var m) (Var (m + 1)) (Var (m + 2)) (Var (m + 3)) (Var (m + 4)) (Var (m + 5)) (Var (m + 6)) (if lk then t_k_lenstronomy (Var (m + 4)) else t_k_sersic (Var (m + 4))) (Cst s)
    Ox Oy (O _) (O _) (O _) (O _) (O _) (O _) (O _) (k_ok a seed lk (Var (m + 4)) (O _) (Rgt_not_eq _ _ Pn)) (ok_cst a seed s) (Rgt_not_eq _ _ Pq) (Rgt_not_eq _ _ Pn) PR Ps H) as (O1 & O2 & P2).
  apply ad_of_loc; [exact O1|]. generalize (ok_lt a seed (Cst 0) _ (ok_cst _ _ 0) O2 P2). apply filter_imp. intros h L. apply sersic_light_ev. exact L.
Qed.
Lemma sersic_light_tm a lk s m x y : tame a x -> tame a y -> sersic_fine m a -> 0 <= s -> ev a x <> a m \/ ev a y <> a (m + 1)%nat ->
  tame a (t_sersic_light lk s m x y) /\ ev a (t_sersic_light lk s m x y) = sersic_light lk s m a (ev a x) (ev a y).
Proof.
  intros Ox Oy (Pq & Pn & PR) Ps H.
  destruct (sersic_tm a x y (Var m) (Var (m + 1)) (Var (m + 2)) (Var (m + 3)) (Var (m + 4)) (Var (m + 5)) (Var (m + 6)) (if lk then t_k_lenstronomy (Var (m + 4)) else t_k_sersic (Var (m + 4))) (Cst s)
    Ox Oy I I I I I I I (k_tm a lk (Var (m + 4)) I (Rgt_not_eq _ _ Pn)) I (Rgt_not_eq _ _ Pq) (Rgt_not_eq _ _ Pn) PR Ps H) as (O1 & O2 & P2).
  split; [exact O1|]. symmetry. apply sersic_light_ev. exact P2.
Qed.
(** ** the ray through an isothermal ellipsoid *)
Lemma sie_ray_ok a seed s x y : ok a seed x -> ok a seed y -> (ev a x <> a 2%nat \/ ev a y <> a 3%nat) \/ 0 < s -> 0 <= s -> 0 < a 4%nat <= 1 -> a 4%nat < 1 \/ seed 4%nat = None ->
  ok a seed (fst (t_sie_lens s x y)) /\ ok a seed (snd (t_sie_lens s x y)).
Proof.
  intros Ox Oy H S Q N. assert (O := fun n => ok_var a seed n).
  assert (N' : ev a (Var 4) < 1 \/ snd (jvp a seed (Var 4)) = None) by (destruct N as [N|N]; [left; exact N|right; cbn [jvp snd]; rewrite N; reflexivity]).
  destruct (sie_ok a seed x y (Var 2) (Var 3) (Var 4) (Var 5) (Cst s) Ox Oy (O _) (O _) (O _) (O _) (ok_cst a seed s) H S Q N' (Var 6) (O _)) as [O1 O2].
  unfold t_sie_lens, t_raytrace. rewrite (surjective_pairing (t_deflection_sie _ _ _ _ _ _ _ _)). cbn [fst snd]. split; oks.
Qed.
Lemma sie_ray_tm a s x y : tame a x -> tame a y -> (ev a x <> a 2%nat \/ ev a y <> a 3%nat) \/ 0 < s -> 0 <= s -> 0 < a 4%nat <= 1 ->
  tame a (fst (t_sie_lens s x y)) /\ tame a (snd (t_sie_lens s x y)).
Proof.
  intros Ox Oy H S Q.
  destruct (sie_tm a x y (Var 2) (Var 3) (Var 4) (Var 5) (Cst s) Ox Oy I I I I I H S Q (Var 6) I) as [O1 O2].
  unfold t_sie_lens, t_raytrace. rewrite (surjective_pairing (t_deflection_sie _ _ _ _ _ _ _ _)). cbn [fst snd]. split; tms.
Qed.
Lemma sie_ray_ev b s x y : sie_lens s b (ev b x) (ev b y) = (ev b (fst (t_sie_lens s x y)), ev b (snd (t_sie_lens s x y))).
Proof. reflexivity. Qed.

Section Image.
Variables (leg : nat -> (nat -> R) * (nat -> R)) (c : settings) (a : env) (lk lk' : bool) (s s1 s2 : R) (so lo le conv : bool) (chunk : option nat) (kr kc : nat).
Notation S := (rebuilt leg c).
Hypothesis CH : chunk <> Some 0%nat.
Hypothesis PS : 0 <= s.
Hypothesis PS1 : 0 <= s1.
Hypothesis PS2 : 0 <= s2.
Hypothesis Q : 0 < a 4%nat <= 1.
Hypothesis F1 : sersic_fine 7 a.
Hypothesis F2 : sersic_fine 14 a.
Hypothesis OFF : at_samples S (fun gx gy => let x := gx + a 0%nat in let y := gy + a 1%nat in
  ((x <> a 2%nat \/ y <> a 3%nat) \/ 0 < s) /\
  (let p := if le then sie_lens s a x y else (x, y) in fst p <> a 7%nat \/ snd p <> a 8%nat) /\
  (x <> a 14%nat \/ y <> a 15%nat)).
Hypothesis PSF : psf_sum kr kc (free_psf kc a) <> 0.
Notation X gx := (Add (Cst gx) (Var 0)).
Notation Y gy := (Add (Cst gy) (Var 1)).
Lemma src_fwd seed : a 4%nat < 1 \/ seed 4%nat = None ->
  light_follows (fun F t => ad_exact F t a seed) (sie_lens s) (t_sie_lens s) S (fun b => b 0%nat) (fun b => b 1%nat) (Var 0) (Var 1) (Some (sersic_light lk s1 7)) (Some (t_sersic_light lk s1 7)) so le.
Proof.
  intros N _ i j k Hi Hj Hk. destruct (OFF i j k Hi Hj Hk) as (A & B & C'). revert A B C'. set (gx := grid_x _ i j k). set (gy := grid_y _ i j k). cbv zeta. intros A B C'.
  assert (OX : ok a seed (X gx)) by oks. assert (OY : ok a seed (Y gy)) by oks. unfold seen_at. destruct le.
  - destruct (sie_ray_ok a seed s (X gx) (Y gy) OX OY A PS Q N) as [O1 O2].
    apply (sersic_light_ad a seed lk s1 7 (fst (t_sie_lens s (X gx) (Y gy))) (snd (t_sie_lens s (X gx) (Y gy)))); try assumption.
  - apply (sersic_light_ad a seed lk s1 7 (X gx) (Y gy)); assumption.
Qed.
Lemma ll_fwd seed :
  light_follows (fun F t => ad_exact F t a seed) (sie_lens s) (t_sie_lens s) S (fun b => b 0%nat) (fun b => b 1%nat) (Var 0) (Var 1) (Some (sersic_light lk' s2 14)) (Some (t_sersic_light lk' s2 14)) lo false.
Proof.
  intros _ i j k Hi Hj Hk. destruct (OFF i j k Hi Hj Hk) as (A & B & C'). revert A B C'. set (gx := grid_x _ i j k). set (gy := grid_y _ i j k). cbv zeta. intros A B C'.
  assert (OX : ok a seed (X gx)) by oks. assert (OY : ok a seed (Y gy)) by oks. unfold seen_at.
  apply (sersic_light_ad a seed lk' s2 14 (X gx) (Y gy)); assumption.
Qed.
Lemma var_exact seed n : ad_exact (fun b => b n) (Var n) a seed.
Proof. apply (ad_of_loc (fun b => b n) (Var n)); [apply ok_var|]. apply filter_forall. reflexivity. Qed.
Lemma psf_fwd seed : psf_follows (fun F t => ad_exact F t a seed) a kr kc (free_psf kc) (t_free_psf kc) conv.
Proof. intros _ _. split; [|exact PSF]. intros u v _ _. apply var_exact. Qed.
Definition the_image (b : env) : result image := call (sie_lens s b) S (Some (sersic_light lk s1 7 b)) (Some (sersic_light lk' s2 14 b)) kr kc (free_psf kc b) (b 0%nat) (b 1%nat) so lo le conv chunk.
Definition the_traced : result timage := t_call (t_sie_lens s) S (Some (t_sersic_light lk s1 7)) (Some (t_sersic_light lk' s2 14)) kr kc (t_free_psf kc) (Var 0) (Var 1) so lo le conv chunk.
Lemma sie_image_fwd seed : a 4%nat < 1 \/ seed 4%nat = None -> image_follows (fun F t => ad_exact F t a seed) the_image the_traced.
Proof. intros N. apply (fwd_call a seed (sie_lens s) (t_sie_lens s) S (fun b => b 0%nat) (fun b => b 1%nat) (Var 0) (Var 1) (Some (sersic_light lk s1 7)) (Some (sersic_light lk' s2 14)) _ _ so lo le chunk CH (src_fwd seed N) (ll_fwd seed) kr kc (free_psf kc) _ conv (psf_fwd seed)). Qed.
Lemma sie_image_bwd req : a 4%nat < 1 \/ req 4%nat = false -> image_follows (fun F t => grad_exact F t a req) the_image the_traced.
Proof.
  intros N.
  assert (NK : forall k, a 4%nat < 1 \/ one_of req k 4%nat = None) by (intros k; destruct N as [N|N]; [left; exact N|right; unfold one_of; rewrite N; reflexivity]).
  assert (B : image_follows (fun F t => both_ways F t a req) the_image the_traced).
  { apply (bwd_call a req (sie_lens s) (t_sie_lens s) S (fun b => b 0%nat) (fun b => b 1%nat) (Var 0) (Var 1) (Some (sersic_light lk s1 7)) (Some (sersic_light lk' s2 14)) _ _ so lo le chunk CH).
    - intros SO i j k Hi Hj Hk. destruct (OFF i j k Hi Hj Hk) as (A & B & C'). revert A B C'.
      pose proof (fun k' => src_fwd (one_of req k') (NK k') SO i j k Hi Hj Hk) as FW. revert FW. set (gx := grid_x _ i j k). set (gy := grid_y _ i j k). cbv zeta. intros FW A B C'.
      assert (T : tame a (if le then t_sersic_light lk s1 7 (fst (t_sie_lens s (X gx) (Y gy))) (snd (t_sie_lens s (X gx) (Y gy))) else t_sersic_light lk s1 7 (X gx) (Y gy)) /\
                  ev a (if le then t_sersic_light lk s1 7 (fst (t_sie_lens s (X gx) (Y gy))) (snd (t_sie_lens s (X gx) (Y gy))) else t_sersic_light lk s1 7 (X gx) (Y gy)) = seen_at (sie_lens s a) (sersic_light lk s1 7 a) le (gx + a 0%nat) (gy + a 1%nat)).
      { unfold seen_at. destruct le.
        - destruct (sie_ray_tm a s (X gx) (Y gy) (conj I I) (conj I I) A PS Q) as [O1 O2].
          apply (sersic_light_tm a lk s1 7 (fst (t_sie_lens s (X gx) (Y gy))) (snd (t_sie_lens s (X gx) (Y gy)))); assumption.
        - apply (sersic_light_tm a lk s1 7 (X gx) (Y gy)); try assumption; exact (conj I I). }
      destruct T as [T1 T2]. split; [exact T1|split; [exact T2|]]. intros k' _. apply FW.
    - intros LO i j k Hi Hj Hk. destruct (OFF i j k Hi Hj Hk) as (A & B & C'). revert A B C'.
      pose proof (fun k' => ll_fwd (one_of req k') LO i j k Hi Hj Hk) as FW. revert FW. set (gx := grid_x _ i j k). set (gy := grid_y _ i j k). cbv zeta. intros FW A B C'.
      destruct (sersic_light_tm a lk' s2 14 (X gx) (Y gy) (conj I I) (conj I I) F2 PS2 C') as [T1 T2].
      split; [exact T1|split; [exact T2|]]. intros k' _. apply FW.
    - intros _ _. split; [|exact PSF]. intros u v _ _. split; [exact I|split; [reflexivity|]]. intros k' _. apply var_exact. }
  unfold image_follows in *. destruct the_traced as [T|e]; [|exact B]. destruct B as [B1 B2]. split; [exact B1|].
  intros i j. destruct (B2 i j) as (T1 & _ & T3). apply grad_exact_of; assumption.
Qed.
End Image.
(** the reverse pass of any image *)
Lemma both_ways_grad (r : env -> result image) t a req : image_follows (fun F t => both_ways F t a req) r t -> image_follows (fun F t => grad_exact F t a req) r t.
Proof.
  unfold image_follows. destruct t as [T|e]; [|auto]. intros [B1 B2]. split; [exact B1|]. intros i j. destruct (B2 i j) as (T1 & _ & T3). apply grad_exact_of; assumption.
Qed.
