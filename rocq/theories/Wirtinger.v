(** * Complex derivatives of functions of the plane *)
From Coq Require Import Reals Lra.
From Coquelicot Require Import Coquelicot.
From Verif Require Import Calc2 RealFun.
Local Open Scope R_scope.

(** F has the derivatives a by z and b by the conjugate of z at x + iy, as a real-differentiable map of the plane *)
Definition W (F : R -> R -> C) (x y : R) (a b : C) : Prop :=
  D2 (fun u v => fst (F u v)) x y (fst a + fst b) (snd b - snd a) /\
  D2 (fun u v => snd (F u v)) x y (snd a + snd b) (fst a - fst b).

Lemma W_eq (F : R -> R -> C) x y a b a' b' : W F x y a b -> a = a' -> b = b' -> W F x y a' b'.
Proof. intros H -> ->. exact H. Qed.
Lemma W_ext (F G : R -> R -> C) x y a b : (forall u v, F u v = G u v) -> W F x y a b -> W G x y a b.
Proof. intros E [H1 H2]. split; eapply D2_ext; try eassumption; intros; cbv beta; rewrite E; reflexivity. Qed.
Lemma W_ext_loc (F G : R -> R -> C) x y a b : locally_2d (fun u v => F u v = G u v) x y -> W F x y a b -> W G x y a b.
Proof.
  intros L [H1 H2]. split; (eapply D2_ext_loc; [|eassumption]); (eapply locally_2d_impl; [|exact L]); apply locally_2d_forall; intros u v E; cbv beta; rewrite E; reflexivity.
Qed.
Lemma W_const c x y : W (fun _ _ => c) x y 0%C 0%C.
Proof. split; (eapply D2_eq; [apply D2_const| |]); cbn; ring. Qed.
Lemma W_z x y : W (fun u v => (u, v)) x y 1%C 0%C.
Proof. split; cbn [fst snd RtoC]; eapply D2_eq; try apply D2_fst; try apply D2_snd; cbn; ring. Qed.
Lemma W_conj x y : W (fun u v => Cconj (u, v)) x y 0%C 1%C.
Proof. unfold Cconj. split; cbn [fst snd RtoC]; eapply D2_eq; try apply D2_fst; try (apply D2_opp; apply D2_snd); cbn; ring. Qed.
Lemma W_plus (F G : R -> R -> C) x y a b c d : W F x y a b -> W G x y c d -> W (fun u v => F u v + G u v)%C x y (a + c)%C (b + d)%C.
Proof.
  intros [H1 H2] [H3 H4]. split; cbn [fst snd Cplus]; (eapply D2_eq; [apply D2_plus; eassumption| |]); unfold Cplus; cbn [fst snd]; ring.
Qed.
Lemma W_mult (F G : R -> R -> C) x y a b c d : W F x y a b -> W G x y c d ->
  W (fun u v => F u v * G u v)%C x y (a * G x y + F x y * c)%C (b * G x y + F x y * d)%C.
Proof.
  intros [H1 H2] [H3 H4]. split; unfold Cmult, Cplus; cbn [fst snd].
  - eapply D2_eq; [apply D2_minus; (apply D2_mult; eassumption)| |]; cbv beta; ring.
  - eapply D2_eq; [apply D2_plus; (apply D2_mult; eassumption)| |]; cbv beta; ring.
Qed.
Lemma Cnz_sq (z : C) : z <> 0%C -> fst z ^ 2 + snd z ^ 2 <> 0.
Proof.
  intros H E. apply H. destruct z as [u v]. cbn [fst snd] in E. assert (P := pow2_ge_0 u). assert (Q := pow2_ge_0 v).
  assert (u = 0) by (apply Rsqr_eq_0; unfold Rsqr; cbn [pow] in *; lra).
  assert (v = 0) by (apply Rsqr_eq_0; unfold Rsqr; cbn [pow] in *; lra). subst. reflexivity.
Qed.
Lemma W_inv (F : R -> R -> C) x y a b : F x y <> 0%C -> W F x y a b -> W (fun u v => / F u v)%C x y (- a / (F x y * F x y))%C (- b / (F x y * F x y))%C.
Proof.
  intros NZ0 [H1 H2]. assert (NZ := Cnz_sq _ NZ0).
  set (p := fst (F x y)) in *. set (q := snd (F x y)) in *.
  assert (N4 : (p * p - q * q) ^ 2 + (p * q + q * p) ^ 2 <> 0).
  { replace (_ + _) with ((p ^ 2 + q ^ 2) ^ 2) by ring. apply pow_nonzero, NZ. }
  assert (DN : D2 (fun u v => fst (F u v) ^ 2 + snd (F u v) ^ 2) x y (2 * p * (fst a + fst b) + 2 * q * (snd a + snd b)) (2 * p * (snd b - snd a) + 2 * q * (fst a - fst b))).
  { eapply D2_eq.
    - apply D2_plus.
      + eapply D2_ext; [|apply D2_mult; [exact H1|exact H1]]. intros; cbv beta; ring.
      + eapply D2_ext; [|apply D2_mult; [exact H2|exact H2]]. intros; cbv beta; ring.
    - cbv beta; fold p q; ring.
    - cbv beta; fold p q; ring. }
  split; unfold Cinv, Cdiv, Cmult, Copp; cbn [fst snd].
  - eapply D2_eq; [apply D2_div; [exact NZ|exact H1|exact DN]| |]; cbv beta; unfold Cinv; cbn [fst snd]; fold p q; field; auto.
  - eapply D2_eq; [apply D2_div; [exact NZ|apply D2_opp, H2|exact DN]| |]; cbv beta; unfold Cinv; cbn [fst snd]; fold p q; field; auto.
Qed.
Lemma W_real g x y gx gy : D2 g x y gx gy -> W (fun u v => RtoC (g u v)) x y (gx / 2, - gy / 2) (gx / 2, gy / 2).
Proof.
  intros H. split; cbn [fst snd RtoC].
  - eapply D2_eq; [exact H| |]; field.
  - eapply D2_eq; [apply D2_const| |]; field.
Qed.
