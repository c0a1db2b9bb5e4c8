(** * Proofs for C158: many shears and sheets are one shear and one sheet *)
From Coq Require Import Reals Lra List.
From Verif Require Import Geo_Model LensBase_Model LensBasic_Model First_Spec First2_Proofs Pile_Spec.
Import ListNotations.
Local Open Scope R_scope.

Lemma joined_is z X Y l x y : let J := singleplane z (map (lens_of z) (joined X Y l)) in let k := sum kappa_in l in let a := sum gamma_1_in l in let b := sum gamma_2_in l in
  reduced_deflection_angle J x y = (a * (x - X) + b * (y - Y) + k * (x - X), b * (x - X) - a * (y - Y) + k * (y - Y)) /\
  potential J x y = / 2 * a * ((x - X) ^ 2 - (y - Y) ^ 2) + b * (x - X) * (y - Y) + k / 2 * ((x - X) ^ 2 + (y - Y) ^ 2) /\ convergence J x y = k.
Proof.
  cbv zeta. unfold joined. cbn [map lens_of]. unfold singleplane, singleplane_deflection, singleplane_potential, singleplane_convergence. cbn [fold_left reduced_deflection_angle potential convergence fst snd].
  unfold reduced_deflection_angle_external_shear, reduced_deflection_angle_mass_sheet, potential_external_shear, potential_mass_sheet, convergence_external_shear, convergence_mass_sheet, translate_rotate. cbv zeta. cbn [fst snd].
  repeat split; [f_equal|..]; ring.
Qed.
Lemma pile z X Y l : Forall smooth l -> exists bx by_ c, shifted (singleplane z (map (lens_of z) (joined X Y l))) (singleplane z (map (lens_of z) l)) bx by_ c.
Proof.
  induction l as [|p l IH]; intros H.
  - exists 0, 0, 0. intros x y. destruct (joined_is z X Y [] x y) as (A & B & C). rewrite A, B, C. unfold sum, singleplane, singleplane_deflection, singleplane_potential, singleplane_convergence. cbn [map fold_left fold_right fst snd reduced_deflection_angle potential convergence]. (split; [f_equal; ring|]); (split; [field|ring]).
  - inversion H as [|p' l' Hp Hl]; subst p' l'. destruct (IH Hl) as (bx & by_ & c & IHs). cbn [map]. rewrite singleplane_cons.
    destruct p as [u v k|u v g h|? ? ?|? ? ? ? ? ?|? ? ?]; try contradiction.
    + exists (bx + k * (X - u)), (by_ + k * (Y - v)), (c + k / 2 * (u ^ 2 + v ^ 2 - X ^ 2 - Y ^ 2)). intros x y. destruct (IHs x y) as (D & P & K). destruct (joined_is z X Y l x y) as (A & B & C). destruct (joined_is z X Y (Sheet u v k :: l) x y) as (A' & B' & C'). rewrite A', B', C'. clear A' B' C'.
      unfold lplus. cbn [reduced_deflection_angle potential convergence lens_of]. rewrite D, P, K, A, B, C. unfold sum. cbn [map fold_right kappa_in gamma_1_in gamma_2_in]. fold (sum kappa_in l) (sum gamma_1_in l) (sum gamma_2_in l).
      unfold reduced_deflection_angle_mass_sheet, potential_mass_sheet, convergence_mass_sheet, translate_rotate. cbv zeta. cbn [fst snd]. (split; [f_equal; ring|]); (split; [field|ring]).
    + exists (bx + g * (X - u) + h * (Y - v)), (by_ + h * (X - u) - g * (Y - v)), (c + / 2 * g * (u ^ 2 - v ^ 2 - X ^ 2 + Y ^ 2) + h * (u * v - X * Y)). intros x y. destruct (IHs x y) as (D & P & K). destruct (joined_is z X Y l x y) as (A & B & C). destruct (joined_is z X Y (Shear u v g h :: l) x y) as (A' & B' & C'). rewrite A', B', C'. clear A' B' C'.
      unfold lplus. cbn [reduced_deflection_angle potential convergence lens_of]. rewrite D, P, K, A, B, C. unfold sum. cbn [map fold_right kappa_in gamma_1_in gamma_2_in]. fold (sum kappa_in l) (sum gamma_1_in l) (sum gamma_2_in l).
      unfold reduced_deflection_angle_external_shear, potential_external_shear, convergence_external_shear, translate_rotate. cbv zeta. cbn [fst snd]. (split; [f_equal; ring|]); (split; [field|ring]).
Qed.
(** where the constant goes away *)
Lemma centre z l : Forall smooth l -> sum kappa_in l ^ 2 <> sum gamma_1_in l ^ 2 + sum gamma_2_in l ^ 2 ->
  exists X Y c, shifted (singleplane z (map (lens_of z) (joined X Y l))) (singleplane z (map (lens_of z) l)) 0 0 c /\
    forall X' Y', (forall x y, reduced_deflection_angle (singleplane z (map (lens_of z) (joined X' Y' l))) x y = reduced_deflection_angle (singleplane z (map (lens_of z) l)) x y) -> X' = X /\ Y' = Y.
Proof.
  intros H N. destruct (pile z 0 0 l H) as (bx & by_ & c & Q). set (k := sum kappa_in l) in *. set (a := sum gamma_1_in l) in *. set (b := sum gamma_2_in l) in *. set (D := k ^ 2 - (a ^ 2 + b ^ 2)). assert (ND : D <> 0) by (unfold D; lra).
  assert (N' : k ^ 2 - a ^ 2 - b ^ 2 <> 0) by lra. set (X := - ((k - a) * bx - b * by_) / D). set (Y := - ((k + a) * by_ - b * bx) / D).
  assert (E1 : (k + a) * X + b * Y = - bx) by (unfold X, Y, D; field; lra). assert (E2 : b * X + (k - a) * Y = - by_) by (unfold X, Y, D; field; lra).
  exists X, Y, (c - (/ 2 * a * (X ^ 2 - Y ^ 2) + b * X * Y + k / 2 * (X ^ 2 + Y ^ 2))). clearbody X Y. split.
  - intros x y. destruct (Q x y) as (D1 & P1 & K1). destruct (joined_is z 0 0 l x y) as (A & B & C). destruct (joined_is z X Y l x y) as (A' & B' & C'). rewrite D1, P1, K1, A, B, C, A', B', C'. fold k a b. cbn [fst snd].
    replace bx with (- ((k + a) * X + b * Y)) by lra. replace by_ with (- (b * X + (k - a) * Y)) by lra. (split; [f_equal; ring|]); (split; [field|ring]).
  - intros X' Y' F. assert (F0 := F 0 0). destruct (Q 0 0) as (D1 & _). destruct (joined_is z 0 0 l 0 0) as (A & _). destruct (joined_is z X' Y' l 0 0) as (A' & _). rewrite D1, A, A' in F0. fold k a b in F0. assert (F1 := f_equal fst F0). assert (F2 := f_equal snd F0). cbn [fst snd] in F1, F2.
    assert (G1 : (k + a) * (X' - X) + b * (Y' - Y) = 0) by lra. assert (G2 : b * (X' - X) + (k - a) * (Y' - Y) = 0) by lra.
    assert (Z1 : D * (X' - X) = 0) by (unfold D; replace ((k ^ 2 - (a ^ 2 + b ^ 2)) * (X' - X)) with ((k - a) * ((k + a) * (X' - X) + b * (Y' - Y)) - b * (b * (X' - X) + (k - a) * (Y' - Y))) by ring; rewrite G1, G2; ring).
    assert (Z2 : D * (Y' - Y) = 0) by (unfold D; replace ((k ^ 2 - (a ^ 2 + b ^ 2)) * (Y' - Y)) with ((k + a) * (b * (X' - X) + (k - a) * (Y' - Y)) - b * ((k + a) * (X' - X) + b * (Y' - Y))) by ring; rewrite G1, G2; ring).
    split; [destruct (Rmult_integral _ _ Z1)|destruct (Rmult_integral _ _ Z2)]; lra.
Qed.
Lemma scene z A B bx by_ c others : shifted (singleplane z A) (singleplane z B) bx by_ c -> shifted (singleplane z (others ++ A)) (singleplane z (others ++ B)) bx by_ c.
Proof.
  intros H. induction others as [|t others IH]; [exact H|]. cbn [app]. rewrite !singleplane_cons. intros x y. destruct (IH x y) as (D & P & K). unfold lplus. cbn [reduced_deflection_angle potential convergence]. rewrite D, P, K. cbn [fst snd].
  (split; [f_equal; ring|]); (split; ring).
Qed.
Lemma pile_scene z others X Y l : Forall smooth l -> exists bx by_ c, shifted (singleplane z (others ++ map (lens_of z) (joined X Y l))) (singleplane z (others ++ map (lens_of z) l)) bx by_ c.
Proof. intros H. destruct (pile z X Y l H) as (bx & by_ & c & Q). exists bx, by_, c. apply scene. exact Q. Qed.
Lemma centre_scene z others l : Forall smooth l -> sum kappa_in l ^ 2 <> sum gamma_1_in l ^ 2 + sum gamma_2_in l ^ 2 ->
  exists X Y c, shifted (singleplane z (others ++ map (lens_of z) (joined X Y l))) (singleplane z (others ++ map (lens_of z) l)) 0 0 c.
Proof. intros H N. destruct (centre z l H N) as (X & Y & c & Q & _). exists X, Y, c. apply scene. exact Q. Qed.
Lemma shifted_rays A B bx by_ c : shifted A B bx by_ c -> forall x y, raytrace (reduced_deflection_angle B) x y = (fst (raytrace (reduced_deflection_angle A) x y) - bx, snd (raytrace (reduced_deflection_angle A) x y) - by_).
Proof. intros H x y. destruct (H x y) as (D & _). unfold raytrace. rewrite D. destruct (reduced_deflection_angle A x y) as [p q]. cbn [fst snd]. f_equal; ring. Qed.
