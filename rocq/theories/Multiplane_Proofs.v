From Coq Require Import Reals List Lra Lia Permutation Sorting Bool.
From Verif Require Import Py Const_Model Cosmo_Model LensBase_Model Multiplane_Model LensBase_Proofs.
Import ListNotations.
Open Scope R_scope.

(** ** sorted lists are left alone by the stable sort *)
Lemma sort_insert_head {A} (key : A -> R) a l :
  (forall b, In b l -> key a <= key b) -> sort_insert key a l = a :: l.
Proof.
  destruct l as [|b t]; intros H; simpl; [reflexivity|].
  destruct (Rle_dec (key a) (key b)) as [|N]; [reflexivity|]. exfalso; apply N, H; left; reflexivity.
Qed.
Lemma py_sorted_id {A} (key : A -> R) l :
  StronglySorted (fun a b => key a <= key b) l -> py_sorted key l = l.
Proof.
  induction 1 as [|a l Hs IH Hf]; simpl; [reflexivity|]. rewrite IH. apply sort_insert_head.
  apply Forall_forall, Hf.
Qed.
Lemma combine_snd_sorted zs : StronglySorted Rle zs -> forall k,
  StronglySorted (fun a b : nat * R => snd a <= snd b) (combine (seq k (length zs)) zs).
Proof.
  induction 1 as [|z zs Hs IH Hf]; intros k; simpl; constructor; [apply IH|].
  apply Forall_forall. intros [i w] Hin. simpl. apply in_combine_r in Hin.
  rewrite Forall_forall in Hf. apply Hf, Hin.
Qed.
Lemma map_fst_combine {A B} (l : list A) (l' : list B) : length l = length l' -> map fst (combine l l') = l.
Proof.
  revert l'; induction l as [|a l IH]; intros [|b l'] H; simpl in *; try discriminate; [reflexivity|].
  f_equal; apply IH; congruence.
Qed.
Lemma lens_planes_sorted zs : StronglySorted Rle zs -> lens_planes zs = seq 0 (length zs).
Proof.
  intros H. unfold lens_planes, enumerate. rewrite py_sorted_id by (apply combine_snd_sorted, H).
  apply map_fst_combine. apply seq_length.
Qed.

Section MP.
Variables cd tcd : R -> R.
Variables (z_s : R).
Local Notation alphahat t := (physical_deflection_angle cd t z_s).

(** ** specification: the multi-plane lens equation *)
(** [th j] is the angular position of the ray on plane j (j = number of planes: source plane) *)
Definition plane_z (lenses : list thin_lens) (j : nat) : R := nth j (map z_l lenses) z_s.
Definition phys (lenses : list thin_lens) (j : nat) (p : R * R) : R * R :=
  match nth_error lenses j with Some t => alphahat t (fst p) (snd p) | None => (0, 0) end.
Fixpoint sum_below (n : nat) (f : nat -> R) : R :=
  match n with O => 0 | S m => sum_below m f + f m end.
Definition multiplane_equation (lenses : list thin_lens) (x y : R) (th : nat -> R * R) : Prop :=
  forall j, (j <= length lenses)%nat ->
    fst (th j) = x - sum_below j (fun i =>
       (tcd (plane_z lenses j) - tcd (plane_z lenses i)) / tcd (plane_z lenses j) * fst (phys lenses i (th i))) /\
    snd (th j) = y - sum_below j (fun i =>
       (tcd (plane_z lenses j) - tcd (plane_z lenses i)) / tcd (plane_z lenses j) * snd (phys lenses i (th i))).

Lemma sum_below_ext n f g : (forall i, (i < n)%nat -> f i = g i) -> sum_below n f = sum_below n g.
Proof.
  induction n; intros H; simpl; [reflexivity|]. rewrite IHn, (H n) by (intros; auto with arith). reflexivity.
Qed.
Lemma sum_below_scal n c f : sum_below n (fun i => c * f i) = c * sum_below n f.
Proof. induction n; simpl; [ring|]. rewrite IHn; ring. Qed.
Lemma sum_below_plus n f g : sum_below n (fun i => f i + g i) = sum_below n f + sum_below n g.
Proof. induction n; simpl; [ring|]. rewrite IHn; ring. Qed.

Lemma nth_map_z (lenses : list thin_lens) j t : nth_error lenses j = Some t -> plane_z lenses j = z_l t.
Proof.
  intros H. unfold plane_z. apply nth_error_nth. rewrite nth_error_map, H. reflexivity.
Qed.

(** the loop over the remaining planes j, j+1, ..., n-1 *)
Lemma plane_loop lenses shapiro geometric x y th D_s :
  (forall j, (j <= length lenses)%nat -> tcd (plane_z lenses j) <> 0) ->
  multiplane_equation lenses x y th ->
  forall m j X Y tx ty TD, (j + m = length lenses)%nat -> (m >= 1)%nat ->
  X = fst (th j) * tcd (plane_z lenses j) * arcsec_to_rad ->
  Y = snd (th j) * tcd (plane_z lenses j) * arcsec_to_rad ->
  tx = x - sum_below j (fun i => fst (phys lenses i (th i))) ->
  ty = y - sum_below j (fun i => snd (phys lenses i (th i))) ->
  exists tx' ty' TD',
  for_loop (plane_step cd tcd lenses z_s shapiro geometric (length lenses - 1) D_s) (seq j m) (X, Y, tx, ty, TD) =
  Ok (fst (th (length lenses)) * tcd z_s * arcsec_to_rad,
      snd (th (length lenses)) * tcd z_s * arcsec_to_rad, tx', ty', TD').
Proof.
  intros Hd Heq. induction m as [|m IH]; intros j X Y tx ty TD Hj Hm HX HY Htx Hty; [lia|].
  assert (Hlt : (j < length lenses)%nat) by lia.
  destruct (nth_error lenses j) as [t|] eqn:Et.
  2:{ apply nth_error_None in Et; lia. }
  cbn [seq for_loop plane_step].
  assert (Ez : z_next_of lenses z_s j (length lenses - 1) = Ok (plane_z lenses (S j))).
  { unfold z_next_of, py_get. destruct (Nat.eqb_spec j (length lenses - 1)).
    - unfold plane_z. rewrite nth_overflow; [reflexivity|]. rewrite map_length; lia.
    - destruct (nth_error (map z_l lenses) (j + 1)) as [w|] eqn:Ew.
      + unfold plane_z. replace (S j) with (j + 1)%nat by lia. rewrite (nth_error_nth _ _ _ Ew). reflexivity.
      + apply nth_error_None in Ew. rewrite map_length in Ew. lia. }
  rewrite Ez. unfold bind at 2. unfold py_get at 1. rewrite Et. unfold bind at 2.
  assert (Zt := nth_map_z _ _ _ Et).
  assert (Hdj := Hd j ltac:(lia)). assert (Hdj1 := Hd (S j) ltac:(lia)).
  rewrite <- Zt.
  assert (Ar := arcsec_rad_inv).
  replace (X * rad_to_arcsec / tcd (plane_z lenses j)) with (fst (th j)).
  2:{ rewrite HX. transitivity (fst (th j) * (arcsec_to_rad * rad_to_arcsec)); [rewrite Ar; ring|field; exact Hdj]. }
  replace (Y * rad_to_arcsec / tcd (plane_z lenses j)) with (snd (th j)).
  2:{ rewrite HY. transitivity (snd (th j) * (arcsec_to_rad * rad_to_arcsec)); [rewrite Ar; ring|field; exact Hdj]. }
  destruct (alphahat t (fst (th j)) (snd (th j))) as [ax ay] eqn:Ea.
  assert (Ep : phys lenses j (th j) = (ax, ay)) by (unfold phys; rewrite Et; exact Ea).
  cbv beta iota zeta.
  set (TD2 := if (shapiro || geometric)%bool then _ else TD). clearbody TD2.
  unfold transverse_comoving_distance_z1z2.
  destruct (Heq j ltac:(lia)) as [E1 E2]. destruct (Heq (S j) ltac:(lia)) as [E1' E2'].
  assert (KX : X + (tcd (plane_z lenses (S j)) - tcd (plane_z lenses j)) * (tx - ax) * arcsec_to_rad =
               fst (th (S j)) * tcd (plane_z lenses (S j)) * arcsec_to_rad).
  { rewrite E1', HX, E1, Htx. cbn [sum_below]. rewrite Ep. cbn [fst].
    set (Dj := tcd (plane_z lenses j)) in *. set (D1 := tcd (plane_z lenses (S j))) in *.
    rewrite (sum_below_ext j (fun i => (Dj - tcd (plane_z lenses i)) / Dj * fst (phys lenses i (th i)))
       (fun i => fst (phys lenses i (th i)) + (- / Dj) * (tcd (plane_z lenses i) * fst (phys lenses i (th i))))).
    2:{ intros; field; assumption. }
    rewrite (sum_below_ext j (fun i => (D1 - tcd (plane_z lenses i)) / D1 * fst (phys lenses i (th i)))
       (fun i => fst (phys lenses i (th i)) + (- / D1) * (tcd (plane_z lenses i) * fst (phys lenses i (th i))))).
    2:{ intros; field; assumption. }
    rewrite !sum_below_plus, !sum_below_scal. field. split; assumption. }
  assert (KY : Y + (tcd (plane_z lenses (S j)) - tcd (plane_z lenses j)) * (ty - ay) * arcsec_to_rad =
               snd (th (S j)) * tcd (plane_z lenses (S j)) * arcsec_to_rad).
  { rewrite E2', HY, E2, Hty. cbn [sum_below]. rewrite Ep. cbn [snd].
    set (Dj := tcd (plane_z lenses j)) in *. set (D1 := tcd (plane_z lenses (S j))) in *.
    rewrite (sum_below_ext j (fun i => (Dj - tcd (plane_z lenses i)) / Dj * snd (phys lenses i (th i)))
       (fun i => snd (phys lenses i (th i)) + (- / Dj) * (tcd (plane_z lenses i) * snd (phys lenses i (th i))))).
    2:{ intros; field; assumption. }
    rewrite (sum_below_ext j (fun i => (D1 - tcd (plane_z lenses i)) / D1 * snd (phys lenses i (th i)))
       (fun i => snd (phys lenses i (th i)) + (- / D1) * (tcd (plane_z lenses i) * snd (phys lenses i (th i))))).
    2:{ intros; field; assumption. }
    rewrite !sum_below_plus, !sum_below_scal. field. split; assumption. }
  rewrite KX, KY. unfold bind at 1.
  destruct m as [|m].
  - exists (tx - ax), (ty - ay), TD2. cbn [seq for_loop].
    replace (S j) with (length lenses) by lia.
    replace (plane_z lenses (length lenses)) with z_s; [reflexivity|].
    unfold plane_z. rewrite nth_overflow; [reflexivity|]. rewrite map_length; lia.
  - apply IH; try lia; try reflexivity.
    + rewrite Htx. cbn [sum_below]. rewrite Ep. cbn [fst]; ring.
    + rewrite Hty. cbn [sum_below]. rewrite Ep. cbn [snd]; ring.
Qed.

Theorem raytrace_core_equation lenses shapiro geometric x y th :
  lenses <> [] -> StronglySorted Rle (map z_l lenses) ->
  (forall t, In t lenses -> tcd (z_l t) <> 0) -> tcd z_s <> 0 ->
  multiplane_equation lenses x y th ->
  exists TD, raytrace_core cd tcd lenses z_s shapiro geometric x y =
    Ok (fst (th (length lenses)), snd (th (length lenses)), TD).
Proof.
  intros Hne Hs Hd Hds Heq.
  assert (Hd' : forall j, (j <= length lenses)%nat -> tcd (plane_z lenses j) <> 0).
  { intros j Hj. destruct (nth_error lenses j) as [t|] eqn:Et.
    - rewrite (nth_map_z _ _ _ Et). apply Hd. eapply nth_error_In, Et.
    - apply nth_error_None in Et. unfold plane_z. rewrite nth_overflow; [exact Hds|]. rewrite map_length; lia. }
  assert (Hl : (1 <= length lenses)%nat) by (destruct lenses; [congruence|simpl; lia]).
  unfold raytrace_core. rewrite lens_planes_sorted by exact Hs. rewrite map_length, seq_length.
  assert (P0 : py_get (seq 0 (length lenses)) 0 = Ok 0%nat).
  { unfold py_get. destruct lenses; [congruence|reflexivity]. }
  assert (P1 : py_get (seq 0 (length lenses)) (length lenses - 1) = Ok (length lenses - 1)%nat).
  { unfold py_get. destruct (nth_error (seq 0 (length lenses)) (length lenses - 1)) as [w|] eqn:E.
    - apply nth_error_nth with (d := 0%nat) in E. rewrite seq_nth in E by lia. f_equal; lia.
    - apply nth_error_None in E. rewrite seq_length in E; lia. }
  assert (P2 : py_get (map z_l lenses) 0 = Ok (plane_z lenses 0)).
  { unfold py_get, plane_z. destruct lenses; [congruence|reflexivity]. }
  rewrite P0, P1. unfold bind. rewrite P2.
  destruct (Heq 0%nat ltac:(lia)) as [E1 E2]. cbn [sum_below] in E1, E2.
  destruct (plane_loop lenses shapiro geometric x y th (tcd z_s) Hd' Heq (length lenses) 0
     (x * arcsec_to_rad * tcd (plane_z lenses 0)) (y * arcsec_to_rad * tcd (plane_z lenses 0)) x y (Some 0)
     ltac:(lia) ltac:(lia)) as (tx' & ty' & TD' & HL).
  - rewrite E1; ring.
  - rewrite E2; ring.
  - cbn; ring.
  - cbn; ring.
  - rewrite HL. exists TD'. f_equal. f_equal.
    assert (Ar := arcsec_rad_inv). f_equal.
    + transitivity (fst (th (length lenses)) * (arcsec_to_rad * rad_to_arcsec)); [field; exact Hds|rewrite Ar; ring].
    + transitivity (snd (th (length lenses)) * (arcsec_to_rad * rad_to_arcsec)); [field; exact Hds|rewrite Ar; ring].
Qed.

(** the equation has a solution, by recursion on the plane number *)
Fixpoint positions (lenses : list thin_lens) (x y : R) (n : nat) : nat -> R * R :=
  match n with
  | O => fun _ => (x, y)
  | S m =>
    let th := positions lenses x y m in
    fun j => if Nat.eqb j n then
      (x - sum_below n (fun i =>
         (tcd (plane_z lenses n) - tcd (plane_z lenses i)) / tcd (plane_z lenses n) * fst (phys lenses i (th i))),
       y - sum_below n (fun i =>
         (tcd (plane_z lenses n) - tcd (plane_z lenses i)) / tcd (plane_z lenses n) * snd (phys lenses i (th i))))
      else th j
  end.
Lemma positions_equation lenses x y n : forall j, (j <= n)%nat ->
    fst (positions lenses x y n j) = x - sum_below j (fun i =>
       (tcd (plane_z lenses j) - tcd (plane_z lenses i)) / tcd (plane_z lenses j) * fst (phys lenses i (positions lenses x y n i))) /\
    snd (positions lenses x y n j) = y - sum_below j (fun i =>
       (tcd (plane_z lenses j) - tcd (plane_z lenses i)) / tcd (plane_z lenses j) * snd (phys lenses i (positions lenses x y n i))).
Proof.
  induction n as [|n IH]; intros j Hj.
  - assert (j = 0)%nat by lia; subst; cbn. split; ring.
  - cbn [positions].
    destruct (Nat.eqb_spec j (S n)).
    + subst j. cbn [fst snd]. split; f_equal; apply sum_below_ext; intros i Hi;
        (destruct (Nat.eqb_spec i (S n)); [lia|reflexivity]).
    + destruct (IH j ltac:(lia)) as [-> ->].
      split; f_equal; apply sum_below_ext; intros i Hi; (destruct (Nat.eqb_spec i (S n)); [lia|reflexivity]).
Qed.
Lemma multiplane_equation_solvable lenses x y : multiplane_equation lenses x y (positions lenses x y (length lenses)).
Proof. intros j Hj. apply positions_equation, Hj. Qed.

Lemma raytrace_equation lenses x y :
  lenses <> [] -> StronglySorted Rle (map z_l lenses) ->
  (forall t, In t lenses -> tcd (z_l t) <> 0) -> tcd z_s <> 0 ->
  (exists th, multiplane_equation lenses x y th) /\
  forall th, multiplane_equation lenses x y th ->
    multiplane_raytrace cd tcd lenses z_s x y = Ok (th (length lenses)).
Proof.
  intros H1 H2 H3 H4. split; [eexists; apply multiplane_equation_solvable|].
  intros th Ht. destruct (raytrace_core_equation lenses false false x y th H1 H2 H3 H4 Ht) as [TD E].
  unfold multiplane_raytrace. rewrite E. simpl. destruct (th (length lenses)); reflexivity.
Qed.
End MP.
