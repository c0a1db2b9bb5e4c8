(** * The images of a field of stars *)
From Coq Require Import Reals Lra Lia List.
From Coquelicot Require Import Coquelicot.
From Verif Require Import Geo_Model LensBasic_Model LensBase_Model LensBase_Proofs Fsum First_Spec Stars_Spec Stars_Proofs.
Import ListNotations.
Local Open Scope R_scope.

Definition sts (l : list piece) : list (C * C) := flat_map (fun p => match p with PointMass x0 y0 R0 => [((x0, y0), RtoC (R0 ^ 2))] | _ => [] end) l.
Definition kap (l : list piece) : R := fold_right Rplus 0 (map (fun p => match p with Sheet _ _ k => k | _ => 0 end) l).
Definition cst1 (p : piece) : C := match p with Sheet x0 y0 k => (k * x0, k * y0) | Shear x0 y0 g1 g2 => (g1 * x0 + g2 * y0, g2 * x0 - g1 * y0) | _ => (0, 0) end.
Definition cst (l : list piece) : C := (fold_right Rplus 0 (map (fun p => fst (cst1 p)) l), fold_right Rplus 0 (map (fun p => snd (cst1 p)) l)).

Lemma point_pull x0 y0 R0 x y : x <> x0 \/ y <> y0 -> reduced_deflection_angle_point x0 y0 R0 0 x y = (RtoC (R0 ^ 2) / (Cconj (x, y) - Cconj (x0, y0)))%C.
Proof.
  intros H. unfold reduced_deflection_angle_point. cbn [translate_rotate]. cbv zeta. set (X := x - x0). set (Y := y - y0). assert (P : 0 < X ^ 2 + Y ^ 2) by (destruct H; [assert (X <> 0) by (unfold X; lra)|assert (Y <> 0) by (unfold Y; lra)]; nra).
  rewrite Rplus_0_r, pow2_sqrt by lra. apply injective_projections; cbn [fst snd Cdiv Cmult Cinv Cconj Cminus Cplus Copp RtoC].
  - fold (Rminus x x0). fold X. replace (- y + - - y0) with (- Y) by (unfold Y; ring). field. nra.
  - fold (Rminus x x0). fold X. replace (- y + - - y0) with (- Y) by (unfold Y; ring). field. nra.
Qed.
Lemma deflection_form z l x y : star_field l -> clear l x y ->
  singleplane_deflection (map (lens_of z) l) x y = (RtoC (kap l) * (x, y) + (total_shear l : C) * Cconj (x, y) - cst l + cpull (sts l) (Cconj (x, y)))%C.
Proof.
  intros SF CL. induction l as [|p l IH].
  - apply injective_projections; cbn; ring.
  - assert (IH' := IH (fun q J => SF q (or_intror J)) (fun q J => CL q (or_intror J))). clear IH. destruct (singleplane_sums (map (lens_of z) l) x y) as (_ & _ & E1). destruct (singleplane_sums (map (lens_of z) (p :: l)) x y) as (_ & _ & E2).
    assert (E3 : singleplane_deflection (map (lens_of z) (p :: l)) x y = Cplus (reduced_deflection_angle (lens_of z p) x y) (singleplane_deflection (map (lens_of z) l) x y)) by (rewrite E1, E2; reflexivity).
    rewrite E3, IH'. clear E1 E2 E3 IH'. assert (HP := SF p (or_introl eq_refl)). assert (HC := CL p (or_introl eq_refl)).
    destruct p as [x0 y0 k|x0 y0 g1 g2|x0 y0 R0|x0 y0 q phi R0 s|x0 y0 R0]; try contradiction.
    + change (sts (Sheet x0 y0 k :: l)) with (sts l). set (cp := cpull _ _). apply injective_projections; cbn; unfold reduced_deflection_angle_mass_sheet; cbn; unfold shear_of, kap, total_shear; cbn; try ring.
    + change (sts (Shear x0 y0 g1 g2 :: l)) with (sts l). set (cp := cpull _ _). apply injective_projections; cbn; unfold reduced_deflection_angle_external_shear; cbn; unfold shear_of, kap, total_shear; cbn; try ring.
    + change (sts (PointMass x0 y0 R0 :: l)) with (((x0, y0) : C, RtoC (R0 ^ 2)) :: sts l). cbn [cpull lens_of reduced_deflection_angle]. rewrite (point_pull x0 y0 R0 x y HC). set (cp := cpull _ _). set (pp := Cdiv _ _).
      assert (T : total_shear (PointMass x0 y0 R0 :: l) = total_shear l) by (unfold total_shear, cst; apply injective_projections; cbn; ring). assert (K : kap (PointMass x0 y0 R0 :: l) = kap l) by (unfold kap; cbn; ring). assert (D : cst (PointMass x0 y0 R0 :: l) = cst l) by (unfold total_shear, cst; apply injective_projections; cbn; ring).
      rewrite T, K, D. match goal with |- ?a = ?b => change (@eq C a b) end. ring.
Qed.
Lemma sts_in l s : In s (sts l) -> exists x0 y0 R0, In (PointMass x0 y0 R0) l /\ s = ((x0, y0), RtoC (R0 ^ 2)).
Proof. unfold sts. rewrite in_flat_map. intros (p & I & J). destruct p as [x0 y0 k|x0 y0 g1 g2|x0 y0 R0|x0 y0 q phi R0 s0|x0 y0 R0]; try contradiction. destruct J as [J|[]]. exists x0, y0, R0. split; [exact I|]. symmetry. exact J. Qed.
Lemma sts_pos l : map fst (sts l) = stars l.
Proof. induction l as [|p l IH]; [reflexivity|]. destruct p; cbn; try exact IH. f_equal. exact IH. Qed.
Lemma sts_len l : length (sts l) = length (stars l).
Proof. rewrite <- sts_pos, map_length. reflexivity. Qed.
Lemma image_sees z l bx by_ x y : star_field l -> image (singleplane z (map (lens_of z) l)) l bx by_ x y -> sees (sts l) (1 - kap l) (total_shear l) ((bx, by_) - cst l)%C (x, y).
Proof.
  intros SF [CL E]. split.
  - intros s I. destruct (sts_in l s I) as (x0 & y0 & R0 & J & ->). cbn [fst]. intros Q. injection Q as -> ->. destruct (CL _ J); congruence.
  - unfold raytrace in E. cbn [reduced_deflection_angle singleplane] in E. rewrite (deflection_form z l x y SF CL) in E. set (cp := cpull (sts l) (Cconj (x, y))) in *. set (g := (total_shear l : C)) in *. set (c := cst l) in *.
    assert (W : ((x, y) - (RtoC (kap l) * (x, y) + g * Cconj (x, y) - c + cp))%C = (bx, by_)). { rewrite <- E. destruct (_ + cp)%C as [ax ay] eqn:D. apply injective_projections; cbn; ring. }
    rewrite <- W. rewrite RtoC_minus. ring.
Qed.
Section Bound.
Variables (z : R) (l : list piece).
Hypotheses (SF : star_field l) (Apart : NoDup (stars l)).
Let L := singleplane z (map (lens_of z) l).
Lemma reals s : In s (sts l) -> Cconj (snd s) = snd s.
Proof. intros I. destruct (sts_in l s I) as (x0 & y0 & R0 & J & ->). apply conj_real. Qed.
Lemma masses s : In s (sts l) -> snd s <> RtoC 0.
Proof. intros I. destruct (sts_in l s I) as (x0 & y0 & R0 & J & ->). cbn. intros Q. injection Q. assert (P := SF _ J). cbn in P. nra. Qed.
Lemma apart : NoDup (map fst (sts l)). Proof. rewrite sts_pos. exact Apart. Qed.
Lemma field_sheared : stars l <> [] -> total_shear l <> (0, 0) -> forall bx by_, at_most ((length (stars l) + 1) ^ 2) L l bx by_.
Proof.
  intros NE G bx by_ ims ND HI. replace ((length (stars l) + 1) ^ 2)%nat with ((length (sts l) + 1) * (length (sts l) + 1))%nat by (rewrite sts_len; cbn; lia).
  apply (sheared (sts l) (1 - kap l) (total_shear l) ((bx, by_) - cst l)%C reals masses apart); [exact G| |exact ND|].
  - intros Q. apply NE. rewrite <- sts_pos, Q. reflexivity.
  - intros p I. destruct p as [x y]. apply (image_sees z). exact SF. exact (HI _ I).
Qed.
Lemma field_unsheared : (2 <= length (stars l))%nat -> total_shear l = (0, 0) -> forall bx by_, at_most (length (stars l) ^ 2 + 1) L l bx by_.
Proof.
  intros NE G bx by_ ims ND HI. replace (length (stars l) ^ 2 + 1)%nat with (length (sts l) * length (sts l) + 1)%nat by (rewrite sts_len; cbn; lia).
  apply (unsheared (sts l) (1 - kap l) (total_shear l) ((bx, by_) - cst l)%C reals masses apart); [exact G| | |exact ND|].
  - intros Q. rewrite <- sts_len, Q in NE. cbn in NE. lia.
  - intros K. set (b := ((bx, by_) - cst l)%C). assert (A := apart). rewrite <- sts_len in NE. destruct (sts l) as [|[a1 e1] [|[a2 e2] r]]; [cbn in NE; lia|cbn in NE; lia|]. cbn in A. inversion A as [|? ? NI _]; subst.
    assert (KC : RtoC (1 - kap l) <> RtoC 0) by (intros Z; apply K; injection Z; auto).
    destruct (Ceq_dec (RtoC (1 - kap l) * a1)%C b) as [E1|E1]; [|exists a1, e1; split; [left; reflexivity|exact E1]]. exists a2, e2. split; [right; left; reflexivity|]. intros E2. apply NI. left.
    replace a2 with (/ RtoC (1 - kap l) * (RtoC (1 - kap l) * a2))%C by (field; exact KC). rewrite E2, <- E1. field. exact KC.
  - intros p I. destruct p as [x y]. apply (image_sees z). exact SF. exact (HI _ I).
Qed.
End Bound.
(** ** the bounds are reached *)
Lemma reached n L l bx by_ ims : at_most n L l bx by_ -> length ims = n -> NoDup ims -> (forall p, In p ims -> image L l bx by_ (fst p) (snd p)) -> exactly n L l bx by_.
Proof.
  intros AM LE ND HI. exists ims. split; [exact LE|]. split; [exact ND|]. intros p. split; [apply HI|]. intros H.
  assert (D : forall p q : R * R, {p = q} + {p <> q}) by (intros [a b] [c d]; destruct (Req_EM_T a c); [destruct (Req_EM_T b d); [left; congruence|right; congruence]|right; congruence]).
  destruct (in_dec D p ims) as [I|I]; [exact I|]. exfalso. assert (Q := AM (p :: ims)). cbn [length] in Q. assert (S (length ims) <= n)%nat; [|lia]. apply Q; [constructor; assumption|]. intros q [<-|J]; [exact H|apply HI, J].
Qed.
Lemma point_at x0 y0 R0 x y : reduced_deflection_angle_point x0 y0 R0 0 x y = ((x - x0) * R0 ^ 2 / ((x - x0) ^ 2 + (y - y0) ^ 2), (y - y0) * R0 ^ 2 / ((x - x0) ^ 2 + (y - y0) ^ 2)).
Proof. unfold reduced_deflection_angle_point. cbn [translate_rotate]. cbv zeta. rewrite Rplus_0_r, pow2_sqrt by (apply Rplus_le_le_0_compat; apply pow2_ge_0). reflexivity. Qed.
Lemma star_in_shear z x0 y0 R0 g : 0 < R0 -> g <> 0 -> -1 < g < 1 -> let l := [PointMass x0 y0 R0; Shear x0 y0 g 0] in exactly 4 (singleplane z (map (lens_of z) l)) l x0 y0.
Proof.
  intros HR G0 G1 l. set (u := R0 / sqrt (1 - g)). set (v := R0 / sqrt (1 + g)). assert (S1 : 0 < sqrt (1 - g)) by (apply sqrt_lt_R0; lra). assert (S2 : 0 < sqrt (1 + g)) by (apply sqrt_lt_R0; lra).
  assert (U : 0 < u) by (apply Rdiv_lt_0_compat; assumption). assert (V : 0 < v) by (apply Rdiv_lt_0_compat; assumption).
  assert (UU : (1 - g) * u ^ 2 = R0 ^ 2) by (unfold u; rewrite <- (pow2_sqrt (1 - g)) at 1 by lra; field; lra). assert (VV : (1 + g) * v ^ 2 = R0 ^ 2) by (unfold v; rewrite <- (pow2_sqrt (1 + g)) at 1 by lra; field; lra).
  apply (reached 4 _ l x0 y0 [(x0 + u, y0); (x0 - u, y0); (x0, y0 + v); (x0, y0 - v)]); [|reflexivity| |].
  - apply (field_sheared z l); [intros p [<-|[<-|[]]]; cbn; auto|repeat constructor; intros []|discriminate|]. cbn. intros Q. injection Q. lra.
  - repeat constructor; cbn; intros Q; repeat (destruct Q as [Q|Q]; [injection Q; lra|]); exact Q.
  - intros p I. assert (N : forall x y, x <> x0 \/ y <> y0 -> let r := (x - x0) ^ 2 + (y - y0) ^ 2 in (x - x0) * (1 - g) = (x - x0) * R0 ^ 2 / r -> (y - y0) * (1 + g) = (y - y0) * R0 ^ 2 / r -> image (singleplane z (map (lens_of z) l)) l x0 y0 x y).
    { intros x y O r E1 E2. split; [intros q [<-|[<-|[]]]; [exact O|exact Logic.I]|]. unfold raytrace, l. cbn [singleplane map lens_of reduced_deflection_angle]. unfold singleplane_deflection. cbn [fold_left reduced_deflection_angle]. rewrite point_at. unfold reduced_deflection_angle_external_shear. cbn [translate_rotate fst snd]. fold r. rewrite <- E1, <- E2. f_equal; ring. }
    cbn [In] in I. destruct I as [<-|[<-|[<-|[<-|[]]]]]; cbn [fst snd]; apply N.
    + left. lra.
    + replace ((x0 + u - x0) ^ 2 + (y0 - y0) ^ 2) with (u ^ 2) by ring. rewrite <- UU. field. lra.
    + replace (y0 - y0) with 0 by ring. unfold Rdiv. ring.
    + left. lra.
    + replace ((x0 - u - x0) ^ 2 + (y0 - y0) ^ 2) with (u ^ 2) by ring. rewrite <- UU. field. lra.
    + replace (y0 - y0) with 0 by ring. unfold Rdiv. ring.
    + right. lra.
    + replace (x0 - x0) with 0 by ring. unfold Rdiv. ring.
    + replace ((x0 - x0) ^ 2 + (y0 + v - y0) ^ 2) with (v ^ 2) by ring. rewrite <- VV. field. lra.
    + right. lra.
    + replace (x0 - x0) with 0 by ring. unfold Rdiv. ring.
    + replace ((x0 - x0) ^ 2 + (y0 - v - y0) ^ 2) with (v ^ 2) by ring. rewrite <- VV. field. lra.
Qed.
Lemma two_stars z R0 a : 0 < R0 -> 0 < a -> a ^ 2 < 2 * R0 ^ 2 -> let l := [PointMass (- a) 0 R0; PointMass a 0 R0] in exactly 5 (singleplane z (map (lens_of z) l)) l 0 0.
Proof.
  intros HR HA H l. set (u := sqrt (a ^ 2 + 2 * R0 ^ 2)). set (v := sqrt (2 * R0 ^ 2 - a ^ 2)).
  assert (U : a < u) by (unfold u; rewrite <- (sqrt_pow2 a) at 1 by lra; apply sqrt_lt_1_alt; nra). assert (V : 0 < v) by (apply sqrt_lt_R0; lra).
  assert (UU : u ^ 2 = a ^ 2 + 2 * R0 ^ 2) by (apply pow2_sqrt; nra). assert (VV : v ^ 2 = 2 * R0 ^ 2 - a ^ 2) by (apply pow2_sqrt; nra).
  apply (reached 5 _ l 0 0 [(0, 0); (u, 0); (- u, 0); (0, v); (0, - v)]); [|reflexivity| |].
  - apply (field_unsheared z l); [intros p [<-|[<-|[]]]; exact HR|repeat constructor; cbn; [intros [Q|[]]; injection Q; lra|intros []]|cbn; lia|]. unfold total_shear. apply injective_projections; cbn; ring.
  - repeat constructor; cbn; intros Q; repeat (destruct Q as [Q|Q]; [injection Q; lra|]); exact Q.
  - intros p I. assert (N : forall x y, (x <> - a \/ y <> 0) -> (x <> a \/ y <> 0) -> x = (x - - a) * R0 ^ 2 / ((x - - a) ^ 2 + (y - 0) ^ 2) + (x - a) * R0 ^ 2 / ((x - a) ^ 2 + (y - 0) ^ 2) -> y = (y - 0) * R0 ^ 2 / ((x - - a) ^ 2 + (y - 0) ^ 2) + (y - 0) * R0 ^ 2 / ((x - a) ^ 2 + (y - 0) ^ 2) -> image (singleplane z (map (lens_of z) l)) l 0 0 x y).
    { intros x y O1 O2 E1 E2. split; [intros q [<-|[<-|[]]]; [exact O1|exact O2]|]. unfold raytrace, l. cbn [singleplane map lens_of reduced_deflection_angle]. unfold singleplane_deflection. cbn [fold_left reduced_deflection_angle]. rewrite !point_at. cbn [fst snd]. f_equal; lra. }
    cbn [In] in I. destruct I as [<-|[<-|[<-|[<-|[<-|[]]]]]]; cbn [fst snd]; apply N; try (left; lra); try (right; lra).
    + field; repeat split; nra.
    + field; repeat split; nra.
    + replace (u - - a) with (u + a) by ring. transitivity (2 * R0 ^ 2 * u / (u ^ 2 - a ^ 2)); [rewrite UU; field; nra|]. field; repeat split; nra.
    + field; repeat split; nra.
    + replace (- u - - a) with (a - u) by ring. transitivity (- (2 * R0 ^ 2 * u / (u ^ 2 - a ^ 2))); [rewrite UU; field; nra|]. field; repeat split; nra.
    + field; repeat split; nra.
    + replace ((0 - - a) ^ 2) with (a ^ 2) by ring. replace ((0 - a) ^ 2) with (a ^ 2) by ring. field. nra.
    + replace ((0 - - a) ^ 2) with (a ^ 2) by ring. replace ((0 - a) ^ 2) with (a ^ 2) by ring. transitivity (2 * R0 ^ 2 * v / (v ^ 2 + a ^ 2)); [rewrite VV; field; nra|]. field. nra.
    + replace ((0 - - a) ^ 2) with (a ^ 2) by ring. replace ((0 - a) ^ 2) with (a ^ 2) by ring. field. nra.
    + replace ((0 - - a) ^ 2) with (a ^ 2) by ring. replace ((0 - a) ^ 2) with (a ^ 2) by ring. transitivity (- (2 * R0 ^ 2 * v / (v ^ 2 + a ^ 2))); [rewrite VV; field; nra|]. field. nra.
Qed.
