(** * Pixel positions of the interpolated maps *)
From Coq Require Import Reals Lra Lia Psatz Arith String.
From Verif Require Import Py Interp2_Model Interp2_Spec Interp2_Proofs PixMap_Model PixMap_Spec.
Local Open Scope R_scope.

Lemma centre_scaled x0 ps n i : (i < n)%nat -> 0 < ps -> (pixel_centre x0 ps n i - x0) / (INR n * ps) * 2 = centre n i.
Proof. intros H P. assert (0 < INR n) by (apply lt_0_INR; lia). unfold pixel_centre, centre. field. lra. Qed.
Lemma beyond_scaled x0 ps n x : (1 <= n)%nat -> 0 < ps -> beyond x0 ps n x -> (x - x0) / (INR n * ps) * 2 < -1 \/ 1 < (x - x0) / (INR n * ps) * 2.
Proof.
  intros H P B. assert (NP : 0 < INR n) by (apply lt_0_INR; lia). assert (F : 0 < INR n * ps) by nra. set (t := (x - x0) / (INR n * ps) * 2).
  assert (E : x - x0 = t * (INR n * ps) / 2) by (unfold t; field; lra). destruct B as [B|B]; [left|right]; nra.
Qed.
Lemma pd_centre h w m x0 y0 ps i j : 0 < ps -> (i < h)%nat -> (j < w)%nat ->
  pd_reduced_deflection_angle h w m x0 y0 ps (pixel_centre x0 ps w j) (pixel_centre y0 ps h i) = Ok (m 0%nat i j, m 1%nat i j).
Proof.
  intros P Hi Hj. unfold pd_reduced_deflection_angle. rewrite !centre_scaled by assumption.
  unfold centre. rewrite !centre2 by (lia || (left; reflexivity) || (right; right; reflexivity)). reflexivity.
Qed.
Lemma pd_outside h w m x0 y0 ps x y : (1 <= h)%nat -> (1 <= w)%nat -> 0 < ps -> beyond x0 ps w x \/ beyond y0 ps h y ->
  pd_reduced_deflection_angle h w m x0 y0 ps x y = Ok (0, 0).
Proof.
  intros Hh Hw P B. unfold pd_reduced_deflection_angle.
  assert (O : (x - x0) / (INR w * ps) * 2 < -1 \/ 1 < (x - x0) / (INR w * ps) * 2 \/ (y - y0) / (INR h * ps) * 2 < -1 \/ 1 < (y - y0) / (INR h * ps) * 2).
  { destruct B as [B|B]; apply beyond_scaled in B; try assumption; tauto. }
  rewrite !zeros2 by (lia || (left; reflexivity) || exact O). reflexivity.
Qed.
Lemma pd_refused x y : pd_potential x y = Raise NotImplementedError /\ pd_convergence x y = Raise NotImplementedError.
Proof. split; reflexivity. Qed.
Lemma px_centre h w im x0 y0 ps sc p i j : 0 < ps -> is_padding2 p -> (i < h)%nat -> (j < w)%nat ->
  px_brightness 2 h w im x0 y0 ps sc p (pixel_centre x0 ps w j) (pixel_centre y0 ps h i) = Ok (sc * im i j).
Proof.
  intros P Hp Hi Hj. unfold px_brightness. rewrite (Rmult_comm ps (INR w)), (Rmult_comm ps (INR h)), !centre_scaled by assumption.
  unfold centre. rewrite centre2 by (lia || (left; reflexivity) || assumption). f_equal. ring.
Qed.
Lemma px_outside h w im x0 y0 ps sc x y : (1 <= h)%nat -> (1 <= w)%nat -> 0 < ps -> beyond x0 ps w x \/ beyond y0 ps h y ->
  px_brightness 2 h w im x0 y0 ps sc "zeros" x y = Ok 0.
Proof.
  intros Hh Hw P B. unfold px_brightness. rewrite (Rmult_comm ps (INR w)), (Rmult_comm ps (INR h)).
  assert (O : (x - x0) / (INR w * ps) * 2 < -1 \/ 1 < (x - x0) / (INR w * ps) * 2 \/ (y - y0) / (INR h * ps) * 2 < -1 \/ 1 < (y - y0) / (INR h * ps) * 2).
  { destruct B as [B|B]; apply beyond_scaled in B; try assumption; tauto. }
  rewrite zeros2 by (lia || (left; reflexivity) || exact O). reflexivity.
Qed.
Lemma pt_centre d h w cu x0 y0 ps te sc k i j : 0 < ps -> 0 < te -> (k < d)%nat -> (i < h)%nat -> (j < w)%nat ->
  pt_brightness 3 d h w cu x0 y0 ps te sc (pixel_centre x0 ps w j) (pixel_centre y0 ps h i) ((INR k + 1 / 2) * te / INR d) = Ok (sc * cu k i j).
Proof.
  intros P T Hk Hi Hj. unfold pt_brightness. rewrite (Rmult_comm ps (INR w)), (Rmult_comm ps (INR h)), !centre_scaled by assumption.
  assert (0 < INR d) by (apply lt_0_INR; lia). replace (((INR k + 1 / 2) * te / INR d - te / 2) / te * 2) with (centre d k) by (unfold centre; field; lra).
  unfold centre. rewrite centre3 by (lia || (left; reflexivity) || (right; reflexivity) || assumption). f_equal. ring.
Qed.
Lemma pt_outside d h w cu x0 y0 ps te sc x y t : (1 <= d)%nat -> (1 <= h)%nat -> (1 <= w)%nat -> 0 < ps -> 0 < te ->
  beyond x0 ps w x \/ beyond y0 ps h y \/ t < 0 \/ te < t -> pt_brightness 3 d h w cu x0 y0 ps te sc x y t = Ok 0.
Proof.
  intros Hd Hh Hw P T B. unfold pt_brightness. rewrite (Rmult_comm ps (INR w)), (Rmult_comm ps (INR h)).
  assert (O : (x - x0) / (INR w * ps) * 2 < -1 \/ 1 < (x - x0) / (INR w * ps) * 2 \/ (y - y0) / (INR h * ps) * 2 < -1 \/ 1 < (y - y0) / (INR h * ps) * 2 \/
     (t - te / 2) / te * 2 < -1 \/ 1 < (t - te / 2) / te * 2).
  { destruct B as [B|[B|B]]; try (apply beyond_scaled in B; try assumption; tauto).
    assert (E : t - te / 2 = (t - te / 2) / te * 2 * te / 2) by (field; lra). set (v := (t - te / 2) / te * 2) in *. destruct B as [B|B]; [assert (v < -1) by nra|assert (1 < v) by nra]; tauto. }
  rewrite zeros3 by (lia || (left; reflexivity) || exact O). reflexivity.
Qed.
Lemma px_channels h w im x0 y0 ps sc p x y : new_pixelated 3 = Ok tt /\ px_brightness 3 h w im x0 y0 ps sc p x y = Raise ValueError.
Proof. split; reflexivity. Qed.
Lemma pt_channels d h w cu x0 y0 ps te sc x y t : new_pixelated_time 4 = Ok tt /\ pt_brightness 4 d h w cu x0 y0 ps te sc x y t = Raise ValueError.
Proof. split; reflexivity. Qed.
Lemma px_plain h w im x0 y0 ps sc p x y : is_padding2 p -> new_pixelated 2 = Ok tt /\ exists v, px_brightness 2 h w im x0 y0 ps sc p x y = Ok v.
Proof.
  intros H. split; [reflexivity|]. unfold px_brightness, interp2d. cbn [Nat.eqb negb Nat.ltb Nat.leb]. destruct H as [->|[->| ->]]; cbn; eexists; reflexivity.
Qed.
Lemma pd_shape ndim : (new_pixelated_deflection ndim = Ok tt <-> ndim = 3%nat) /\ (ndim <> 3%nat -> new_pixelated_deflection ndim = Raise ValueError).
Proof. unfold new_pixelated_deflection. destruct (Nat.eqb_spec ndim 3); split; try split; congruence. Qed.
