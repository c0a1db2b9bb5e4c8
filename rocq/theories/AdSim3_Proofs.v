(** * One sample whose derivative is not a number *)
From Coq Require Import Reals Lra Lia Arith ZArith List Bool String FunctionalExtensionality.
From Coquelicot Require Import Coquelicot.
From Verif Require Import Py Fsum RealFun Geo_Model Light_Model Quad_Model PixConv_Model Sim_Model Sim_Proofs Ad_Model Ad_Spec Ad_Proofs AdLens_Model AdLens_Proofs AdEpl_Model
  Rev_Model Rev_Spec Rev_Proofs RevLens_Proofs AdSim_Model AdSim_Spec AdSim_Proofs.
Import ListNotations.
Local Open Scope R_scope.

Section Spread.
Variable P : expr -> Prop.
Hypothesis add_l : forall u v, P u -> P (Add u v).
Hypothesis add_r : forall u v, P v -> P (Add u v).
Hypothesis sub_l : forall u v, P u -> P (Sub u v).
Hypothesis mul_l : forall u v, P u -> P (Mul u v).
Hypothesis mul_r : forall u v, P v -> P (Mul u v).
Hypothesis div_l : forall u v, P u -> P (Div u v).
Hypothesis neg_ : forall u, P u -> P (Neg u).

Lemma sp_fsum n T i : (i < n)%nat -> P (T i) -> P (t_fsum n T).
Proof. induction n as [|n IH]; intros L H; [lia|]. cbn [t_fsum]. destruct (Nat.eq_dec i n) as [->|N]; [apply add_r, H|apply add_l, IH; [lia|exact H]]. Qed.
Definition PC (c : cexpr) : Prop := P (fst c) /\ P (snd c).
Lemma sp_csum n T i : (i < n)%nat -> PC (T i) -> PC (t_ccsum n T).
Proof.
  induction n as [|n IH]; intros L H; [lia|]. cbn [t_ccsum]. destruct (Nat.eq_dec i n) as [->|N].
  - destruct H. split; apply add_r; assumption.
  - destruct IH as [A B]; [lia|exact H|]. split; apply add_l; assumption.
Qed.
(** only the real part is needed: the products mix the parts *)
Lemma spc_mul_l u v : P (fst u) -> PC (t_cmul u v).
Proof. intros H. split; cbn [t_cmul fst snd]; [apply sub_l, mul_l, H|apply add_l, mul_l, H]. Qed.
Lemma spc_mul_r u v : P (fst v) -> P (snd v) -> PC (t_cmul u v).
Proof. intros H K. split; cbn [t_cmul fst snd]; [apply sub_l, mul_r, H|apply add_l, mul_r, K]. Qed.
Lemma sp_rfft2 h w T s0 s1 k l i j : (i < h)%nat -> (j < w)%nat -> (i < s0)%nat -> (j < s1)%nat -> P (T i j) -> PC (t_rfft2 h w T s0 s1 k l).
Proof.
  intros A B A' B' H. unfold t_rfft2, t_dft. apply (sp_csum s0 _ i A'). apply spc_mul_l. apply (sp_csum s1 _ j B'). apply spc_mul_l.
  cbn [fst]. unfold t_zero_pad. apply Nat.ltb_lt in A, B. rewrite A, B. exact H.
Qed.
Lemma sp_irfft2 Y s0 s1 p q : (1 <= s0)%nat -> (1 <= s1)%nat -> (forall k l, PC (Y k l)) -> P (t_irfft2 Y s0 s1 p q).
Proof.
  intros A B H. unfold t_irfft2, t_idft. assert (HH : forall k l, PC (t_hermitian s0 s1 Y k l)).
  { intros k l. unfold t_hermitian. destruct (Nat.leb _ _); [apply H|]. destruct (H ((s0 - k) mod s0)%nat (s1 - l)%nat) as [U V]. split; [exact U|apply neg_, V]. }
  apply spc_mul_r; apply (sp_csum s0 _ 0%nat A); apply spc_mul_l; apply spc_mul_r; apply (sp_csum s1 _ 0%nat B); apply spc_mul_l; apply HH.
Qed.
Lemma nth_flat {A B} h w q (G : nat -> nat -> nat -> A) (f : A -> B) d i j k : (i < h)%nat -> (j < w)%nat -> (k < q)%nat -> nth ((i * w + j) * q + k) (map f (flat h w q G)) d = f (G i j k).
Proof.
  intros Hi Hj Hk. unfold flat. rewrite map_map.
  assert (L : ((i * w + j) * q + k < h * w * q)%nat).
  { assert (LA : (i * w + j + 1 <= h * w)%nat) by nia. assert (LB := Nat.mul_le_mono_r _ _ q LA). rewrite Nat.mul_add_distr_r in LB. lia. }
  rewrite nth_map_seq. apply Nat.ltb_lt in L. rewrite L.
  assert (E1 : (((i * w + j) * q + k) / q = i * w + j)%nat) by (rewrite (Nat.add_comm _ k), Nat.div_add, (Nat.div_small k q) by lia; lia).
  assert (E2 : (((i * w + j) * q + k) mod q = k)%nat) by (rewrite (Nat.add_comm _ k), Nat.mod_add, Nat.mod_small by lia; reflexivity).
  assert (E3 : (((i * w + j) * q + k) / (w * q) = i)%nat).
  { rewrite (Nat.mul_comm w q), <- Nat.div_div by lia. rewrite E1, (Nat.add_comm _ j), Nat.div_add, (Nat.div_small j w) by lia. lia. }
  assert (E4 : ((i * w + j) mod w = j)%nat) by (rewrite (Nat.add_comm _ j), Nat.mod_add, Nat.mod_small by lia; reflexivity).
  rewrite E1, E2, E3, E4. reflexivity.
Qed.
Variables (t_ray : expr -> expr -> expr * expr) (S : sim) (x0 y0 : expr) (tsrc : option t_light) (tll : t_light) (so le : bool) (chunk : option nat).
Hypothesis CH : chunk <> Some 0%nat.
Variables i j k : nat.
Hypothesis Hi : (i < snd (n_pix (bld S)))%nat.
Hypothesis Hj : (j < fst (n_pix (bld S)))%nat.
Hypothesis Hk : (k < depth (bld S))%nat.
Hypothesis HB : P (tll (Add (Cst (grid_x (bld S) i j k)) x0) (Add (Cst (grid_y (bld S) i j k)) y0)).
Lemma sp_scene : exists tmu, t_scene t_ray S tsrc (Some tll) x0 y0 so true le chunk = Ok tmu /\ P (tmu i j).
Proof.
  unfold t_scene.
  assert (M : exists m, (match tsrc with
        | Some f => if so then
            if le then
              bind (vmap chunk (fun p => t_ray (fst p) (snd p)) (t_points S x0 y0)) (fun b =>
              bind (vmap chunk (fun p => f (fst p) (snd p)) b) (fun mu_fine => Ok (t_integrate S mu_fine)))
            else bind (vmap chunk (fun p => f (fst p) (snd p)) (t_points S x0 y0)) (fun mu_fine => Ok (t_integrate S mu_fine))
          else Ok (fun _ _ => Cst 0)
        | None => Ok (fun _ _ => Cst 0) end) = Ok m).
  { destruct tsrc as [f|]; [|eexists; reflexivity]. destruct so; [|eexists; reflexivity]. destruct le; rewrite !vmap_val by exact CH; cbn [bind]; rewrite ?vmap_val by exact CH; eexists; reflexivity. }
  destruct M as [m ->]. cbn [bind]. rewrite vmap_val by exact CH. cbn [bind]. eexists. split; [reflexivity|].
  apply add_r. unfold t_integrate. apply (sp_fsum _ _ k Hk). apply mul_l. unfold t_points. rewrite nth_flat by assumption. exact HB.
Qed.
Variables (kr kc : nat) (tpsf : nat -> nat -> expr).
Hypothesis SQ : fst (n_pix (bld S)) = snd (n_pix (bld S)).
Hypothesis FS : fft_s (bld S) = (next_fast_len (fst (n_pix (bld S))), next_fast_len (snd (n_pix (bld S)))).
Lemma sp_fft_call T : psf_mode (cfg S) = "fft"%string -> (kr <> 1 \/ kc <> 1)%nat -> t_call t_ray S tsrc (Some tll) kr kc tpsf x0 y0 so true le true chunk = Ok T -> forall u v, P (t_at T u v).
Proof.
  intros MO KK E u v. destruct sp_scene as (tmu & E1 & E2). unfold t_call in E. rewrite E1 in E. cbn [bind] in E. unfold t_convolve in E.
  replace (true && negb (Nat.eqb kr 1 && Nat.eqb kc 1))%bool with true in E by (symmetry; cbn [andb]; apply negb_true_iff, andb_false_iff; destruct KK as [K|K]; apply Nat.eqb_neq in K; auto).
  rewrite MO, FS in E. cbn [String.eqb Ascii.eqb Bool.eqb] in E. revert E.
  set (s0 := next_fast_len (fst (n_pix (bld S)))). set (s1 := next_fast_len (snd (n_pix (bld S)))).
  pose proof (nfl_ge (fst (n_pix (bld S)))) as G0. pose proof (nfl_ge (snd (n_pix (bld S)))) as G1. fold s0 in G0. fold s1 in G1.
  unfold t_native, t_avg_pool2d. cbn [t_rows t_cols t_at]. set (up := upsample_factor (cfg S)).
  destruct (Nat.eqb_spec (slice_len s0 (snd (psf_pad (bld S))) (pixels_y (cfg S) * up + snd (psf_pad (bld S))) / up) 0) as [Z|Z]; cbn [orb]; [discriminate|].
  destruct (Nat.eqb _ 0); cbn [orb]; [discriminate|]. intros E. injection E as <-. cbn [t_at].
  assert (UP : (0 < up)%nat) by (destruct up; [exfalso; apply Z; reflexivity|lia]).
  apply div_l. apply (sp_fsum up _ 0%nat UP). apply (sp_fsum up _ 0%nat UP).
  apply sp_irfft2; [lia|lia|]. intros k' l'. apply spc_mul_l. apply (sp_rfft2 _ _ _ _ _ _ _ i j); try assumption; lia.
Qed.
(** without a PSF only the pixel of the sample is affected; here every pixel is one sample wide *)
Lemma sp_plain_call T : psf_pad (bld S) = (0, 0)%nat -> n_pix (bld S) = (pixels_x (cfg S) * upsample_factor (cfg S), pixels_y (cfg S) * upsample_factor (cfg S))%nat ->
  t_call t_ray S tsrc (Some tll) kr kc tpsf x0 y0 so true le false chunk = Ok T -> P (t_at T (i / upsample_factor (cfg S)) (j / upsample_factor (cfg S))).
Proof.
  clear SQ FS. intros PD NP E. destruct sp_scene as (tmu & E1 & E2). unfold t_call in E. rewrite E1 in E. cbn [bind] in E. unfold t_convolve in E. cbn [andb] in E. revert E.
  unfold t_native, t_avg_pool2d. cbn [t_rows t_cols t_at]. rewrite PD, NP. cbn [fst snd]. rewrite !Nat.add_0_r. rewrite NP in Hi, Hj. cbn [fst snd] in Hi, Hj. set (up := upsample_factor (cfg S)) in *.
  destruct (Nat.eqb_spec (slice_len (pixels_y (cfg S) * up) 0 (pixels_y (cfg S) * up) / up) 0) as [Z|Z]; cbn [orb]; [discriminate|].
  destruct (Nat.eqb _ 0); cbn [orb]; [discriminate|]. intros E. injection E as <-. cbn [t_at].
  assert (UP : (0 < up)%nat) by (destruct up; [lia|lia]).
  apply div_l. apply (sp_fsum up _ (i mod up)%nat); [apply Nat.mod_upper_bound; lia|]. apply (sp_fsum up _ (j mod up)%nat); [apply Nat.mod_upper_bound; lia|].
  cbn [slice_start Nat.min Nat.add].
  rewrite (Nat.mul_comm (i / up)), (Nat.mul_comm (j / up)), <- !Nat.div_mod by lia. exact E2.
Qed.
End Spread.

(** ** forward: the tangent is NaN *)
Section Fwd.
Variables (a : env) (seed : nat -> option R).
Definition spoilt (e : expr) : Prop := snd (jvp a seed e) = Some NaN.
Lemma so_add_l u v : spoilt u -> spoilt (Add u v).
Proof. unfold spoilt. cbn [jvp snd]. intros ->. destruct (snd (jvp a seed v)); reflexivity. Qed.
Lemma nadd_nan_r x : nadd x NaN = NaN. Proof. destruct x; reflexivity. Qed.
Lemma nmul_nan_r x : nmul x NaN = NaN. Proof. destruct x; reflexivity. Qed.
Lemma so_add_r u v : spoilt v -> spoilt (Add u v).
Proof. unfold spoilt. cbn [jvp snd]. intros ->. destruct (snd (jvp a seed u)); cbn [tan2]; rewrite ?nadd_nan_r; reflexivity. Qed.
Lemma so_sub_l u v : spoilt u -> spoilt (Sub u v).
Proof. unfold spoilt. cbn [jvp snd]. intros ->. destruct (snd (jvp a seed v)); reflexivity. Qed.
Lemma so_mul_l u v : spoilt u -> spoilt (Mul u v).
Proof. unfold spoilt. cbn [jvp snd]. intros ->. destruct (snd (jvp a seed v)); reflexivity. Qed.
Lemma so_mul_r u v : spoilt v -> spoilt (Mul u v).
Proof. unfold spoilt. cbn [jvp snd]. intros ->. destruct (snd (jvp a seed u)); cbn [tan2]; rewrite nmul_nan_r, ?nadd_nan_r; reflexivity. Qed.
Lemma so_div_l u v : spoilt u -> spoilt (Div u v).
Proof. unfold spoilt. cbn [jvp snd]. intros ->. destruct (snd (jvp a seed v)); reflexivity. Qed.
Lemma so_neg u : spoilt u -> spoilt (Neg u).
Proof. unfold spoilt. cbn [jvp snd]. intros ->. reflexivity. Qed.
Lemma so_exp u : spoilt u -> spoilt (Exp u).
Proof. unfold spoilt. cbn [jvp snd]. intros ->. reflexivity. Qed.
Lemma so_rpow u v : spoilt u -> spoilt (RPow u v).
Proof. unfold spoilt. cbn [jvp snd]. intros ->. destruct (snd (jvp a seed v)); reflexivity. Qed.
(** the square root at zero of something that is moving *)
Lemma so_sqrt u : fst (jvp a seed u) = Fin 0 -> snd (jvp a seed u) = Some (Fin 0) -> spoilt (Sqrt u).
Proof.
  unfold spoilt. cbn [jvp snd]. intros -> ->. cbn [tan1]. unfold nsqrt, lift1. destruct (Rlt_dec 0 0); [lra|]. rewrite sqrt_0. unfold nmul, lift2.
  unfold ndiv, lift2. destruct (Req_EM_T (2 * 0) 0); [|lra]. destruct (Req_EM_T 0 0); [reflexivity|lra].
Qed.
End Fwd.
(** ** backward: the gradient is not finite *)
Section Bwd.
Variables (a : env) (req : nat -> bool) (k : nat).
Definition poisoned (e : expr) : Prop := needs a req e = true /\ forall bar, bad (back a req e bar k).
Definition conducts (e : expr) : Prop := needs a req e = true /\ forall bar, bad bar -> bad (back a req e bar k).
Lemma bad_nan : bad NaN. Proof. intros r; discriminate. Qed.
Lemma bad_unk : bad Unk. Proof. intros r; discriminate. Qed.
Lemma bad_lift2_l f x y : bad x -> bad (lift2 f x y).
Proof. destruct x as [r| |]; intros H; [exfalso; apply (H r); reflexivity|apply bad_nan|destruct y; [apply bad_unk|apply bad_nan|apply bad_unk]]. Qed.
Lemma bad_lift2_r f x y : bad y -> bad (lift2 f x y).
Proof. destruct y as [r| |]; intros H; [exfalso; apply (H r); reflexivity|destruct x; apply bad_nan|destruct x; [apply bad_unk|apply bad_nan|apply bad_unk]]. Qed.
Lemma bad_nneg x : bad x -> bad (nneg x).
Proof. destruct x as [r| |]; intros H; [exfalso; apply (H r); reflexivity|apply bad_nan|apply bad_unk]. Qed.
Ltac go := unfold poisoned, conducts; cbn [needs back]; let A := fresh in let B := fresh in intros [A B]; rewrite ?A, ?orb_true_r; cbn [orb]; split; [reflexivity|intros].
Lemma po_add_l u v : poisoned u -> poisoned (Add u v). Proof. go. apply bad_lift2_l. auto. Qed.
Lemma po_add_r u v : poisoned v -> poisoned (Add u v). Proof. go. apply bad_lift2_r. auto. Qed.
Lemma po_sub_l u v : poisoned u -> poisoned (Sub u v). Proof. go. apply bad_lift2_l. auto. Qed.
Lemma po_mul_l u v : poisoned u -> poisoned (Mul u v). Proof. go. apply bad_lift2_l. auto. Qed.
Lemma po_mul_r u v : poisoned v -> poisoned (Mul u v). Proof. go. apply bad_lift2_r. auto. Qed.
Lemma po_div_l u v : poisoned u -> poisoned (Div u v). Proof. go. apply bad_lift2_l. auto. Qed.
Lemma po_rpow u v : poisoned u -> poisoned (RPow u v). Proof. go. apply bad_lift2_l. auto. Qed.
Lemma po_neg u : poisoned u -> poisoned (Neg u). Proof. go. auto. Qed.
Lemma po_exp u : poisoned u -> poisoned (Exp u). Proof. go. auto. Qed.
Lemma co_add_l u v : conducts u -> conducts (Add u v). Proof. go. apply bad_lift2_l. auto. Qed.
Lemma co_sub_r u v : conducts v -> conducts (Sub u v). Proof. go. apply bad_lift2_r. apply H0, bad_nneg. assumption. Qed.
Lemma co_mul_l u v : conducts u -> conducts (Mul u v). Proof. go. apply bad_lift2_l. apply H0, bad_lift2_l. assumption. Qed.
Lemma co_pow u : conducts u -> conducts (Pow u 2). Proof. go. apply H0, bad_lift2_l. assumption. Qed.
Lemma co_var : req k = true -> conducts (Var k).
Proof. intros H. split; [exact H|]. intros bar B. cbn [back needs]. rewrite H, Nat.eqb_refl. exact B. Qed.
Lemma po_sqrt u : val a u = Fin 0 -> conducts u -> poisoned (Sqrt u).
Proof.
  intros V. go. apply H0. rewrite V. unfold nsqrt, lift1. destruct (Rlt_dec 0 0); [lra|]. rewrite sqrt_0. unfold nmul, lift2. replace (2 * 0) with 0 by ring.
  destruct bar as [r| |]; unfold ndiv, lift2; [|apply bad_nan|apply bad_unk]. destruct (Req_EM_T 0 0); [|lra]. destruct (Req_EM_T r 0); [apply bad_nan|apply bad_unk].
Qed.
End Bwd.
(** ** a Sersic profile at its centre *)
Section Centre.
Variables (a : env) (lk : bool) (s : R) (m : nat) (x y : expr).
Hypothesis Q : a (m + 2)%nat <> 0.
Hypothesis EX : ev a x = a m.
Hypothesis EY : ev a y = a (m + 1)%nat.
Notation X := (fst (turned x y (Var m) (Var (m + 1)) (Var (m + 3)))).
Notation Y := (snd (turned x y (Var m) (Var (m + 1)) (Var (m + 3)))).
Notation rad2 := (Add (Pow X 2) (Pow (Div Y (Var (m + 2))) 2)).
Lemma light_shape : t_sersic_light lk s m x y = Mul (Var (m + 6)) (Exp (Mul (Neg (if lk then t_k_lenstronomy (Var (m + 4)) else t_k_sersic (Var (m + 4))))
  (Sub (RPow (Div (Add (Sqrt rad2) (Cst s)) (Var (m + 5))) (Div (Cst 1) (Var (m + 4)))) (Cst 1)))).
Proof. reflexivity. Qed.
Lemma XY0 : ev a X = 0 /\ ev a Y = 0.
Proof. unfold turned, t_translate_rotate. cbn [fst snd ev]. rewrite EX, EY. split; ring. Qed.
Lemma rad2_0 : ev a rad2 = 0.
Proof. destruct XY0 as [A B]. cbn [ev]. rewrite A, B. field. exact Q. Qed.
Lemma centre_fwd seed : ok a seed x -> ok a seed y -> seed m <> None -> spoilt a seed (t_sersic_light lk s m x y).
Proof.
  intros Ox Oy SM. assert (O := fun n => ok_var a seed n). rewrite light_shape.
  apply so_mul_r, so_exp, so_mul_r, so_sub_l, so_rpow, so_div_l, so_add_l.
  destruct (ok_turned a seed x y (Var m) (Var (m + 1)) (Var (m + 3)) Ox Oy (O _) (O _) (O _)) as [OX OY].
  assert (OD : ok a seed (Div Y (Var (m + 2)))) by (apply ok_div; [exact OY|apply O|exact Q]).
  assert (OR : ok a seed rad2) by (apply ok_add; apply ok_pow; assumption).
  destruct (ok_exact _ _ _ OR) as (d & V & T & _). rewrite rad2_0 in V.
  apply so_sqrt; [exact V|].
  (* the tangent is there, and each of its terms carries the factor X or Y *)
  destruct XY0 as [X0' Y0'].
  destruct (ok_exact _ _ _ OX) as (dx & VX & TX & _). destruct (ok_exact _ _ _ OD) as (dy & VY & TY & _). rewrite X0' in VX.
  assert (Y0'' : ev a (Div Y (Var (m + 2))) = 0) by (cbn [ev]; rewrite Y0'; field; exact Q). rewrite Y0'' in VY.
  assert (HX : exists t, snd (jvp a seed X) = Some (Fin t)).
  { destruct (snd (jvp a seed X)) as [t|] eqn:E; [exists dx; cbn [tval] in TX; rewrite TX; reflexivity|exfalso].
    revert E. unfold turned, t_translate_rotate. cbn [fst snd jvp]. destruct (seed m) as [w|]; [|congruence].
    destruct (snd (jvp a seed x)); cbn [tan2]; destruct (match seed (m + 3)%nat with Some d0 => Some (Fin d0) | None => None end); cbn [tan1 tan2]; 
      destruct (snd (jvp a seed y)), (match seed (m + 1)%nat with Some d0 => Some (Fin d0) | None => None end); cbn [tan2]; discriminate. }
  destruct HX as [t HX]. set (X' := X) in *. set (D' := Div Y (Var (m + 2))) in *. clearbody X' D'. clear -VX VY HX TY. cbn [jvp snd]. rewrite VX, VY, HX.
  destruct (snd (jvp a seed D')) as [ty|]; cbn [tan1 tan2]; [cbn [tval] in TY; rewrite TY|]; unfold npow, lift1, nmul, nadd, lift2; apply f_equal, Fin_eq; ring.
Qed.
Lemma centre_bwd req : tame a x -> tame a y -> req m = true -> poisoned a req m (t_sersic_light lk s m x y).
Proof.
  intros Tx Ty RM. rewrite light_shape. apply po_mul_r, po_exp, po_mul_r, po_sub_l, po_rpow, po_div_l, po_add_l. apply po_sqrt.
  - destruct (tm_turned a x y (Var m) (Var (m + 1)) (Var (m + 3)) Tx Ty I I I) as [TX TY].
    assert (TR : tame a rad2) by (split; [exact TX|split; [exact TY|split; [exact I|exact Q]]]).
    destruct (dual_all a req m rad2 TR) as [V _]. rewrite V, rad2_0. reflexivity.
  - apply co_add_l, co_pow. unfold turned, t_translate_rotate. cbn [fst]. apply co_add_l, co_mul_l, co_sub_r, co_var, RM.
Qed.
End Centre.

Section Spoils.
Variables (leg : nat -> (nat -> R) * (nat -> R)) (c : settings) (t_ray : expr -> expr -> expr * expr) (tsrc : option t_light) (so le : bool) (chunk : option nat) (kr kc : nat) (tpsf : nat -> nat -> expr)
  (a : env) (lk : bool) (s : R) (i j k : nat).
Notation S := (rebuilt leg c).
Hypothesis CH : chunk <> Some 0%nat.
Hypothesis Hi : (i < snd (n_pix (bld S)))%nat.
Hypothesis Hj : (j < fst (n_pix (bld S)))%nat.
Hypothesis Hk : (k < depth (bld S))%nat.
Hypothesis Q : a 16%nat <> 0.
Hypothesis EX : grid_x (bld S) i j k + a 0%nat = a 14%nat.
Hypothesis EY : grid_y (bld S) i j k + a 1%nat = a 15%nat.
Lemma fields : fft_s (bld S) = (next_fast_len (fst (n_pix (bld S))), next_fast_len (snd (n_pix (bld S)))).
Proof. destruct (built_fields leg c) as (_ & B & C'). unfold rebuilt; cbn [bld]. rewrite C', B. reflexivity. Qed.
Lemma square_of : pixels_x c = pixels_y c -> (fst (psf_shape c) / 2 = snd (psf_shape c) / 2)%nat -> fst (n_pix (bld S)) = snd (n_pix (bld S)).
Proof. intros A B. destruct (built_fields leg c) as (_ & N & _). unfold rebuilt; cbn [bld]. rewrite N. cbn [fst snd]. unfold nx, ny, padx, pady. rewrite A, B. reflexivity. Qed.
Lemma fft_spoils_fwd seed T : seed 14%nat <> None -> pixels_x c = pixels_y c -> (fst (psf_shape c) / 2 = snd (psf_shape c) / 2)%nat ->
  psf_mode c = "fft"%string -> (kr <> 1 \/ kc <> 1)%nat ->
  t_call t_ray S tsrc (Some (t_sersic_light lk s 14)) kr kc tpsf (Var 0) (Var 1) so true le true chunk = Ok T -> forall u v, snd (jvp a seed (t_at T u v)) = Some NaN.
Proof.
  intros SD P1 P2 MO KK E.
  apply (sp_fft_call (spoilt a seed) (so_add_l a seed) (so_add_r a seed) (so_sub_l a seed) (so_mul_l a seed) (so_mul_r a seed) (so_div_l a seed) (so_neg a seed)
    t_ray S (Var 0) (Var 1) tsrc (t_sersic_light lk s 14) so le chunk CH i j k Hi Hj Hk) with (kr := kr) (kc := kc) (tpsf := tpsf); try assumption; [|apply square_of; assumption|apply fields].
  apply centre_fwd; [exact Q|exact EX|exact EY|oks|oks|exact SD].
Qed.
Lemma fft_spoils_bwd req T : req 14%nat = true -> pixels_x c = pixels_y c -> (fst (psf_shape c) / 2 = snd (psf_shape c) / 2)%nat ->
  psf_mode c = "fft"%string -> (kr <> 1 \/ kc <> 1)%nat ->
  t_call t_ray S tsrc (Some (t_sersic_light lk s 14)) kr kc tpsf (Var 0) (Var 1) so true le true chunk = Ok T -> forall u v, bad (grad a req (t_at T u v) 14).
Proof.
  intros SD P1 P2 MO KK E u v.
  refine (proj2 (sp_fft_call (poisoned a req 14) (po_add_l a req 14) (po_add_r a req 14) (po_sub_l a req 14) (po_mul_l a req 14) (po_mul_r a req 14) (po_div_l a req 14) (po_neg a req 14)
    t_ray S (Var 0) (Var 1) tsrc (t_sersic_light lk s 14) so le chunk CH i j k Hi Hj Hk _ kr kc tpsf _ _ T MO KK E u v) (Fin 1)); [|apply square_of; assumption|apply fields].
  apply centre_bwd; [exact Q|exact EX|exact EY|exact (conj I I)|exact (conj I I)|exact SD].
Qed.
Lemma plain_spoils seed req T : seed 14%nat <> None -> req 14%nat = true -> (fst (psf_shape c) <= 1)%nat -> (snd (psf_shape c) <= 1)%nat ->
  t_call t_ray S tsrc (Some (t_sersic_light lk s 14)) kr kc tpsf (Var 0) (Var 1) so true le false chunk = Ok T ->
  let e := t_at T (i / upsample_factor c) (j / upsample_factor c) in snd (jvp a seed e) = Some NaN /\ bad (grad a req e 14).
Proof.
  intros SD RQ P1 P2 E. cbv zeta.
  assert (PD : psf_pad (bld S) = (0, 0)%nat /\ n_pix (bld S) = (pixels_x (cfg S) * upsample_factor (cfg S), pixels_y (cfg S) * upsample_factor (cfg S))%nat).
  { destruct (built_fields leg c) as (A & B & _). unfold rebuilt; cbn [bld cfg]. rewrite A, B. unfold nx, ny, padx, pady.
    rewrite (Nat.div_small (snd (psf_shape c)) 2), (Nat.div_small (fst (psf_shape c)) 2) by lia. split; [reflexivity|]. f_equal; lia. }
  destruct PD as [PD NP]. split.
  - apply (sp_plain_call (spoilt a seed) (so_add_l a seed) (so_add_r a seed) (so_mul_l a seed) (so_div_l a seed)
      t_ray S (Var 0) (Var 1) tsrc (t_sersic_light lk s 14) so le chunk CH i j k Hi Hj Hk) with (kr := kr) (kc := kc) (tpsf := tpsf); try assumption.
    apply centre_fwd; [exact Q|exact EX|exact EY|oks|oks|exact SD].
  - refine (proj2 (sp_plain_call (poisoned a req 14) (po_add_l a req 14) (po_add_r a req 14) (po_mul_l a req 14) (po_div_l a req 14)
      t_ray S (Var 0) (Var 1) tsrc (t_sersic_light lk s 14) so le chunk CH i j k Hi Hj Hk _ kr kc tpsf T PD NP E) (Fin 1)).
    apply centre_bwd; [exact Q|exact EX|exact EY|exact (conj I I)|exact (conj I I)|exact RQ].
Qed.
End Spoils.
