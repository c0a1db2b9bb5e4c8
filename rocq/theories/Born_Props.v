(** * C119: weak lenses on several planes add up as on one plane *)
From Coq Require Import Reals List Lra Lia Sorting.
From Verif Require Import Py Const_Model Cosmo_Model CosmoTable_Model CosmoTable_Proofs LensBase_Model Multiplane_Model Tri_Model Tri_Spec Born_Proofs.
Import ListNotations.
Local Open Scope R_scope.

Fixpoint total (n : nat) (f : nat -> R) : R := match n with O => 0 | S m => total m f + f m end.
(** On the way of the ray through (x, y), lens i deflects by at most B i and its deflection changes by at most L i times the displacement;
    the way stays within the sum of the deflections before it *)
Definition tame_lenses (lenses : list thin_lens) (x y : R) (B L : nat -> R) : Prop :=
  forall i t, nth_error lenses i = Some t -> 0 <= L i /\ forall u v, distance (u, v) (x, y) <= total i B ->
    distance (reduced_deflection_angle t u v) (0, 0) <= B i /\
    distance (reduced_deflection_angle t u v) (reduced_deflection_angle t x y) <= L i * distance (u, v) (x, y).

(** any cosmology in which distances grow up to the source, any lenses listed by redshift: Multiplane and SinglePlane differ by at
    most one term L i * B k for every pair of lenses k in front of i *)
Theorem C119_pairs : forall cd z_s lenses x y B L, lenses <> [] -> StronglySorted Rle (map z_l lenses) ->
  (forall t, In t lenses -> 0 <= z_l t < z_s) -> (forall t, In t lenses -> 0 < cd (z_l t)) ->
  (forall a b, 0 <= a -> a < b -> b <= z_s -> cd a < cd b) -> 1 + z_s <> 0 -> tame_lenses lenses x y B L ->
  exists p, multiplane_raytrace cd cd lenses z_s x y = Ok p /\
  distance p (raytrace (singleplane_deflection lenses) x y) <= total (length lenses) (fun i => L i * total i B).
Proof. exact born. Qed.
Print Assumptions C119_pairs.

(** the same lenses made weaker by a factor eps: the difference is of second order *)
Definition weaker (eps : R) (t : thin_lens) : thin_lens :=
  ThinLens (z_l t) (fun u v => (eps * fst (reduced_deflection_angle t u v), eps * snd (reduced_deflection_angle t u v)))
    (fun u v => eps * potential t u v) (fun u v => eps * convergence t u v).
Theorem C119_second_order : forall cd z_s lenses x y B L eps, 0 <= eps <= 1 -> lenses <> [] -> StronglySorted Rle (map z_l lenses) ->
  (forall t, In t lenses -> 0 <= z_l t < z_s) -> (forall t, In t lenses -> 0 < cd (z_l t)) ->
  (forall a b, 0 <= a -> a < b -> b <= z_s -> cd a < cd b) -> 1 + z_s <> 0 -> tame_lenses lenses x y B L ->
  exists p, multiplane_raytrace cd cd (map (weaker eps) lenses) z_s x y = Ok p /\
  distance p (raytrace (singleplane_deflection (map (weaker eps) lenses)) x y) <= eps ^ 2 * total (length lenses) (fun i => L i * total i B).
Proof. exact born_scaled. Qed.
Print Assumptions C119_second_order.

(** FlatLambdaCDM, source and observer within its table *)
Theorem C119_flat : forall h0 Om0 z_s lenses x y B L, 0 < h0 -> 0 < Om0 < 1 -> / 1000 <= Rpower (Om0 / (1 - Om0)) (1 / 3) ->
  (1 + z_s) * Rpower (Om0 / (1 - Om0)) (1 / 3) <= 10 -> lenses <> [] -> StronglySorted Rle (map z_l lenses) ->
  (forall t, In t lenses -> 0 < z_l t < z_s) -> tame_lenses lenses x y B L ->
  let cd := fun z => flat_comoving_distance z h0 Om0 in
  exists p, multiplane_raytrace cd cd lenses z_s x y = Ok p /\
  distance p (raytrace (singleplane_deflection lenses) x y) <= total (length lenses) (fun i => L i * total i B).
Proof. exact born_flat. Qed.
Print Assumptions C119_flat.

(** two mass sheets; the two ways of combining them do differ, by a share of the bound that approaches it when the second plane is close to the source *)
Definition sheet (z k : R) : thin_lens := ThinLens z (fun u v => (k * u, k * v)) (fun u v => k / 2 * (u ^ 2 + v ^ 2)) (fun _ _ => k).
Theorem C119_sheets : forall cd z_s z1 z2 k1 k2 x y, z1 <= z2 -> 0 < cd z1 -> 0 < cd z2 -> cd z1 < cd z_s -> cd z2 < cd z_s -> 1 + z_s <> 0 ->
  multiplane_raytrace cd cd [sheet z1 k1; sheet z2 k2] z_s x y =
  Ok (let c := 1 - k1 - k2 + k1 * k2 * ((1 - cd z1 / cd z2) / (1 - cd z1 / cd z_s)) in (c * x, c * y)).
Proof. exact two_sheets. Qed.
Print Assumptions C119_sheets.

Example C119_hyps : let lenses := [sheet 1 (1 / 10); sheet 2 (1 / 10)] in
  StronglySorted Rle (map z_l lenses) /\ (forall t, In t lenses -> 0 < z_l t < 3) /\
  tame_lenses lenses 1 0 (fun i => match i with O => 1 / 10 | _ => 11 / 100 end) (fun _ => 1 / 10) /\
  total (length lenses) (fun i => (fun _ => 1 / 10) i * total i (fun i => match i with O => 1 / 10 | _ => 11 / 100 end)) = 1 / 100.
Proof. exact two_sheets_hyps. Qed.
