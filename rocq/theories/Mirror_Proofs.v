(** * Proofs for C106 *)
From Coq Require Import Reals Lra Lia Arith ZArith List.
From Coquelicot Require Import Coquelicot.
From Verif Require Import Py RealFun Geo_Model Const_Model Cosmo_Model LensBase_Model LensBasic_Model Round_Proofs Epl_Model Multipole_Model Jaffe_Model Nfw_Model Tnfw_Model EncMass_Model Light_Model Rigid_Spec Rigid_Proofs Mirror_Spec.
Import ListNotations.
Local Open Scope R_scope.

Lemma tm_none x y x0 y0 : translate_rotate x (- y) x0 (- y0) None = flip (translate_rotate x y x0 y0 None).
Proof. unfold translate_rotate, flip. cbn [fst snd]. apply (f_equal2 pair); ring. Qed.
Lemma tm_some x y x0 y0 p : translate_rotate x (- y) x0 (- y0) (Some (- p)) = flip (translate_rotate x y x0 y0 (Some p)).
Proof. unfold translate_rotate, flip. cbn [fst snd]. cbv zeta. rewrite cos_neg, sin_neg. apply (f_equal2 pair); ring. Qed.
Lemma derot_flip u v p : derotate u (- v) (Some (- p)) = flip (derotate u v (Some p)).
Proof. unfold derotate, flip. cbv zeta. cbn [fst snd]. rewrite cos_neg, sin_neg. apply (f_equal2 pair); ring. Qed.
Lemma sq_flip v : (- v) ^ 2 = v ^ 2.
Proof. ring. Qed.
Ltac begin_none := unfold mirrored, mirrored_vector; rewrite ?tm_none.

Lemma sheet_mirrored x0 y0 kappa x y :
  mirrored_vector (reduced_deflection_angle_mass_sheet x0 y0 kappa) (reduced_deflection_angle_mass_sheet x0 (- y0) kappa) x y /\
  mirrored (potential_mass_sheet x0 y0 kappa) (potential_mass_sheet x0 (- y0) kappa) x y /\
  mirrored (fun x _ => convergence_mass_sheet kappa x) (fun x _ => convergence_mass_sheet kappa x) x y.
Proof.
  unfold mirrored, mirrored_vector, reduced_deflection_angle_mass_sheet, potential_mass_sheet. rewrite tm_none. destruct (translate_rotate x y x0 y0 None) as [u v]. unfold flip. cbn [fst snd].
  split; [apply (f_equal2 pair); ring|]. split; [rewrite sq_flip|]; reflexivity.
Qed.
Lemma shear_mirrored x0 y0 g1 g2 x y :
  mirrored_vector (reduced_deflection_angle_external_shear x0 y0 g1 g2) (reduced_deflection_angle_external_shear x0 (- y0) g1 (- g2)) x y /\
  mirrored (potential_external_shear x0 y0 g1 g2) (potential_external_shear x0 (- y0) g1 (- g2)) x y.
Proof.
  unfold mirrored, mirrored_vector, reduced_deflection_angle_external_shear, potential_external_shear. rewrite tm_none. destruct (translate_rotate x y x0 y0 None) as [u v]. unfold flip. cbn [fst snd].
  split; [apply (f_equal2 pair); ring|]. unfold Rdiv. ring.
Qed.
Lemma sis_mirrored x0 y0 Rein s x y :
  mirrored_vector (reduced_deflection_angle_sis x0 y0 Rein s) (reduced_deflection_angle_sis x0 (- y0) Rein s) x y /\
  mirrored (potential_sis x0 y0 Rein s) (potential_sis x0 (- y0) Rein s) x y /\ mirrored (convergence_sis x0 y0 Rein s) (convergence_sis x0 (- y0) Rein s) x y.
Proof.
  unfold mirrored, mirrored_vector, reduced_deflection_angle_sis, potential_sis, convergence_sis. rewrite tm_none. destruct (translate_rotate x y x0 y0 None) as [u v]. unfold flip. cbn [fst snd]. rewrite sq_flip.
  split; [|split; reflexivity]. cbv zeta. apply (f_equal2 pair); unfold Rdiv; ring.
Qed.
Lemma point_mirrored x0 y0 Rein s x y :
  mirrored_vector (reduced_deflection_angle_point x0 y0 Rein s) (reduced_deflection_angle_point x0 (- y0) Rein s) x y /\
  mirrored (potential_point x0 y0 Rein s) (potential_point x0 (- y0) Rein s) x y /\ mirrored (convergence_point x0 y0) (convergence_point x0 (- y0)) x y.
Proof.
  unfold mirrored, mirrored_vector, reduced_deflection_angle_point, potential_point, convergence_point. rewrite tm_none. destruct (translate_rotate x y x0 y0 None) as [u v]. unfold flip. cbn [fst snd]. rewrite sq_flip.
  split; [|split; [reflexivity|]]. { cbv zeta. apply (f_equal2 pair); unfold Rdiv; ring. }
  destruct (Req_EM_T u 0); [|reflexivity]. destruct (Req_EM_T (- v) 0), (Req_EM_T v 0); try reflexivity; lra.
Qed.
Lemma tr_nonzero x y x0 y0 p : x <> x0 \/ y <> y0 -> fst (translate_rotate x y x0 y0 (Some p)) <> 0 \/ snd (translate_rotate x y x0 y0 (Some p)) <> 0.
Proof.
  intros H. cbn [translate_rotate]. cbv zeta. cbn [fst snd]. assert (T := sin2_cos2 p). unfold Rsqr in T. set (c := cos p) in *. set (s := sin p) in *. set (u := x - x0). set (v := y - y0).
  destruct (Req_EM_T (u * c + v * s) 0) as [A|A]; [|left; exact A]. right. intros B. assert (N : u ^ 2 + v ^ 2 = (u * c + v * s) ^ 2 + (v * c - u * s) ^ 2).
  { replace ((u * c + v * s) ^ 2 + (v * c - u * s) ^ 2) with ((s * s + c * c) * (u ^ 2 + v ^ 2)) by ring. rewrite T. ring. }
  rewrite A, B in N. assert (P : 0 < u ^ 2 + v ^ 2) by (apply norm2_pos; unfold u, v; destruct H; [left|right]; lra). lra.
Qed.
Lemma sie_argument q u v s : 0 < q < 1 -> 0 <= s -> u <> 0 \/ v <> 0 -> -1 < sqrt (1 - q ^ 2) * v / (sqrt (q ^ 2 * (u ^ 2 + s ^ 2) + v ^ 2) + q ^ 2 * s) < 1.
Proof.
  intros Q S H. assert (Q2 : 0 < q ^ 2 < 1) by nra. assert (U := pow2_ge_0 u). assert (V := pow2_ge_0 v). assert (SS := pow2_ge_0 s).
  assert (W : 0 < q ^ 2 * (u ^ 2 + s ^ 2) + v ^ 2). { destruct (Req_dec v 0) as [E|E]; [|assert (0 < v ^ 2) by nra; nra]. destruct H as [H|H]; [|contradiction]. assert (0 < u ^ 2) by nra. assert (0 < q ^ 2 * (u ^ 2 + s ^ 2)) by (apply Rmult_lt_0_compat; lra). lra. }
  set (psi := sqrt (q ^ 2 * (u ^ 2 + s ^ 2) + v ^ 2)). assert (P : 0 < psi) by (apply sqrt_lt_R0, W). assert (PV : Rabs v <= psi). { rewrite <- sqrt_Rsqr_abs. apply sqrt_le_1_alt. unfold Rsqr. assert (0 <= q ^ 2 * (u ^ 2 + s ^ 2)) by (apply Rmult_le_pos; lra). simpl in *. lra. }
  set (f := sqrt (1 - q ^ 2)). assert (F0 : 0 <= f) by apply sqrt_pos. assert (F1 : f < 1). { unfold f. rewrite <- sqrt_1 at 2. apply sqrt_lt_1; lra. }
  assert (D : 0 < psi + q ^ 2 * s) by nra. assert (B : Rabs (f * v) < psi + q ^ 2 * s). { rewrite Rabs_mult, (Rabs_pos_eq f) by exact F0. assert (A := Rabs_pos v). assert (0 <= q ^ 2 * s) by (apply Rmult_le_pos; lra). apply Rle_lt_trans with (f * psi); [apply Rmult_le_compat_l; assumption|]. assert (f * psi < 1 * psi) by (apply Rmult_lt_compat_r; assumption). lra. }
  apply Rabs_lt_between in B. split; apply Rmult_lt_reg_r with (psi + q ^ 2 * s); try exact D; replace (f * v / (psi + q ^ 2 * s) * (psi + q ^ 2 * s)) with (f * v) by (field; lra); lra.
Qed.
Lemma sie_mirrored x0 y0 q phi Rein s x y : 0 < q <= 1 -> 0 <= s -> x <> x0 \/ y <> y0 ->
  mirrored_vector (reduced_deflection_angle_sie x0 y0 q phi Rein s) (reduced_deflection_angle_sie x0 (- y0) q (- phi) Rein s) x y /\
  mirrored (potential_sie x0 y0 q phi Rein s) (potential_sie x0 (- y0) q (- phi) Rein s) x y /\
  mirrored (convergence_sie x0 y0 q phi Rein s) (convergence_sie x0 (- y0) q (- phi) Rein s) x y.
Proof.
  intros Q S H. assert (N := tr_nonzero x y x0 y0 phi H). unfold mirrored, mirrored_vector.
  assert (D : reduced_deflection_angle_sie x0 (- y0) q (- phi) Rein s x (- y) = flip (reduced_deflection_angle_sie x0 y0 q phi Rein s x y)).
  { unfold reduced_deflection_angle_sie. rewrite tm_some. destruct (translate_rotate x y x0 y0 (Some phi)) as [u v]. unfold flip at 1. cbn [fst snd] in *. rewrite sq_flip. cbv zeta. set (q' := if Req_EM_T q 1 then _ else _).
    assert (Q' : 0 < q' < 1) by (unfold q'; destruct (Req_EM_T q 1); lra). rewrite <- derot_flip. f_equal.
    match goal with |- context [atanh (?a * - v / ?b)] => replace (a * - v / b) with (- (a * v / b)) by (unfold Rdiv; ring) end. rewrite atanh_odd by (apply sie_argument; assumption). ring. }
  split; [exact D|]. unfold potential_sie, convergence_sie. rewrite tm_some, D. destruct (translate_rotate x y x0 y0 (Some phi)) as [u v]. destruct (reduced_deflection_angle_sie x0 y0 q phi Rein s x y) as [p r].
  unfold flip. cbn [fst snd]. rewrite sq_flip. split; [|reflexivity].
  assert (E := derot_flip p r (- phi)). rewrite E. destruct (derotate p r (Some (- phi))) as [p' r']. unfold flip. cbn [fst snd]. cbv zeta. rewrite Rmult_opp_opp. reflexivity.
Qed.

(** ** EPL: everything is conjugated *)
Lemma conj_mult (a b : C) : Cconj (a * b)%C = (Cconj a * Cconj b)%C.
Proof. unfold Cconj, Cmult. cbn [fst snd]. apply (f_equal2 pair); ring. Qed.
Lemma conj_plus (a b : C) : Cconj (a + b)%C = (Cconj a + Cconj b)%C.
Proof. unfold Cconj, Cplus. cbn [fst snd]. apply (f_equal2 pair); ring. Qed.
Lemma conj_real (a : R) : Cconj (RtoC a) = RtoC a.
Proof. unfold Cconj, RtoC. cbn [fst snd]. apply (f_equal2 pair); ring. Qed.
Lemma conj_inv (a : C) : Cconj (/ a)%C = (/ Cconj a)%C.
Proof. unfold Cconj, Cinv. cbn [fst snd]. rewrite sq_flip. apply (f_equal2 pair); unfold Rdiv; ring. Qed.
Lemma cumprod_from_conj p l : cumprod_from (Cconj p) (map Cconj l) = map Cconj (cumprod_from p l).
Proof. revert p. induction l as [|a l IH]; intros p; [reflexivity|]. cbn [cumprod_from map]. rewrite <- conj_mult, IH. reflexivity. Qed.
Lemma cumprod_conj l : cumprod (map Cconj l) = map Cconj (cumprod l).
Proof. destruct l as [|a l]; [reflexivity|]. cbn [cumprod map]. rewrite cumprod_from_conj. reflexivity. Qed.
Lemma csum_conj l : csum (map Cconj l) = Cconj (csum l).
Proof. induction l as [|a l IH]; [cbn; symmetry; apply conj_real|]. cbn [csum fold_right map]. unfold csum in IH. rewrite IH. symmetry. apply conj_plus. Qed.
Lemma last_conj l : py_last (map Cconj l) = bind (py_last l) (fun a => Ok (Cconj a)).
Proof. unfold py_last. rewrite <- map_rev. destruct (rev l) as [|a k]; reflexivity. Qed.
Definition conj_state (st : option (list C * C)) : option (list C * C) := match st with None => None | Some (c, r) => Some (map Cconj c, Cconj r) end.
Lemma r_omega_conj (z : C) t q n c : r_omega (Cconj z) t q n c = bind (r_omega z t q n c) (fun w => Ok (Cconj w)).
Proof.
  unfold r_omega. cbv zeta. assert (P : (Cconj z / Cconj (Cconj z) * - ((1 - q) / (1 + q))%R)%C = Cconj (z / Cconj z * - ((1 - q) / (1 + q))%R)%C).
  { rewrite conj_mult. unfold Cdiv. rewrite conj_mult, conj_inv. f_equal. unfold Cconj, Copp, RtoC. cbn [fst snd]. apply (f_equal2 pair); ring. }
  rewrite P. clear P. set (phi := (z / Cconj z * _)%C). clearbody phi. set (cs := match c with None => n | Some k => k end). clearbody cs. destruct (Nat.eqb cs 1).
  - cbn [bind]. f_equal. assert (F : forall ks a s, fold_left (fun (st : C * C) i => let o := (factor t i * Cconj phi * fst st)%C in (o, (snd st + o)%C)) ks (Cconj a, Cconj s) =
      (let st := fold_left (fun (st : C * C) i => let o := (factor t i * phi * fst st)%C in (o, (snd st + o)%C)) ks (a, s) in (Cconj (fst st), Cconj (snd st)))).
    { induction ks as [|k ks IH]; intros a s; [reflexivity|]. cbn [fold_left]. cbv zeta. cbn [fst snd]. cbv zeta in IH. rewrite <- IH. f_equal. rewrite conj_plus, !conj_mult, conj_real. reflexivity. }
    cbv zeta in F. rewrite F. reflexivity.
  - destruct (Nat.eqb cs 0); [reflexivity|].
    assert (M : forall i, map (fun a => (a * Cconj phi)%C) (slice (i * cs) (Nat.max ((i + 1) * cs) n) (map RtoC (map (factor t) (seq 1 (n - 1))))) = map Cconj (map (fun a => (a * phi)%C) (slice (i * cs) (Nat.max ((i + 1) * cs) n) (map RtoC (map (factor t) (seq 1 (n - 1))))))).
    { intros i. rewrite map_map. unfold slice. rewrite <- !firstn_map, <- !skipn_map. f_equal. f_equal. rewrite !map_map. apply map_ext. intros a. rewrite conj_mult, conj_real. reflexivity. }
    set (fs := map RtoC (map (factor t) (seq 1 (n - 1)))) in *. clearbody fs.
    match goal with |- bind (for_loop ?F1 ?l None) _ = bind (bind (for_loop ?F2 ?l None) _) _ => set (f1 := F1); set (f2 := F2) end.
    assert (ST : forall i st, f1 i (conj_state st) = bind (f2 i st) (fun st => Ok (conj_state st))).
    { intros i st. unfold f1, f2. rewrite M. set (rec := map _ (slice _ _ _)). destruct st as [[cc res]|]; cbn [conj_state bind].
      - rewrite last_conj. destruct (py_last cc) as [a|e]; [|reflexivity]. cbn [bind]. f_equal. cbn [conj_state]. f_equal. change (Cconj a :: map Cconj rec) with (map Cconj (a :: rec)). rewrite cumprod_conj. set (cp := cumprod (a :: rec)).
        rewrite conj_plus, <- csum_conj. destruct cp; reflexivity.
      - rewrite cumprod_conj, csum_conj. reflexivity. }
    assert (LP : forall ks st, for_loop f1 ks (conj_state st) = bind (for_loop f2 ks st) (fun st => Ok (conj_state st))).
    { induction ks as [|k ks IH]; intros st; [reflexivity|]. cbn [for_loop]. rewrite ST. destruct (f2 k st) as [st'|e]; [|reflexivity]. cbn [bind]. apply IH. }
    change (@None (list C * C)) with (conj_state None) at 1. rewrite LP. destruct (for_loop f2 _ None) as [[[cc res]|]|e]; cbn [bind conj_state]; [|reflexivity|reflexivity]. f_equal. rewrite conj_mult, conj_plus, conj_real. reflexivity.
Qed.
Lemma epl_mirrored x0 y0 q phi Rein t n c s x y :
  reduced_deflection_angle_epl x0 (- y0) q (- phi) Rein t n c x (- y) = bind (reduced_deflection_angle_epl x0 y0 q phi Rein t n c x y) (fun a => Ok (flip a)) /\
  mirrored (potential_epl x0 y0 q phi Rein t n c) (potential_epl x0 (- y0) q (- phi) Rein t n c) x y /\
  mirrored (convergence_epl x0 y0 q phi Rein t s) (convergence_epl x0 (- y0) q (- phi) Rein t s) x y.
Proof.
  unfold mirrored.
  assert (D : reduced_deflection_angle_epl x0 (- y0) q (- phi) Rein t n c x (- y) = bind (reduced_deflection_angle_epl x0 y0 q phi Rein t n c x y) (fun a => Ok (flip a))).
  { unfold reduced_deflection_angle_epl. rewrite tm_some. destruct (translate_rotate x y x0 y0 (Some phi)) as [u v]. unfold flip at 1. cbn [fst snd]. cbv zeta. change ((q * u)%R, (- v)%R) with (Cconj ((q * u)%R, v)). rewrite r_omega_conj.
    destruct (r_omega ((q * u)%R, v) t q n c) as [w|e]; [|reflexivity]. cbn [bind]. f_equal.
    assert (CM : Cmod (Cconj ((q * u)%R, v)) = Cmod ((q * u)%R, v)) by (unfold Cmod, Cconj; cbn [fst snd]; rewrite sq_flip; reflexivity). rewrite CM.
    destruct (Req_EM_T (Cmod ((q * u)%R, v)) 0).
    - rewrite <- derot_flip. cbn [RtoC fst snd]. f_equal. ring.
    - rewrite <- derot_flip. set (k := 2 / (1 + q) * _). unfold Cmult, Cconj, RtoC. cbn [fst snd]. f_equal; ring. }
  split; [exact D|]. split.
  - unfold potential_epl. rewrite D, tm_some. destruct (reduced_deflection_angle_epl x0 y0 q phi Rein t n c x y) as [[p r]|e]; [|reflexivity]. cbn [bind flip fst snd]. rewrite (derot_flip p r (- phi)).
    destruct (derotate p r (Some (- phi))) as [p' r']. destruct (translate_rotate x y x0 y0 (Some phi)) as [u v]. unfold flip. cbn [fst snd]. rewrite Rmult_opp_opp. reflexivity.
  - unfold convergence_epl. rewrite tm_some. destruct (translate_rotate x y x0 y0 (Some phi)) as [u v]. unfold flip. cbn [fst snd]. rewrite sq_flip. reflexivity.
Qed.
