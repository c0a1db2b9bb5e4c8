(** * Rules of derivation for real functions, with plain real arithmetic *)
From Coq Require Import Reals.
From Coquelicot Require Import Coquelicot.
Local Open Scope R_scope.
Lemma dv_val (f : R -> R) (x a b : R) : is_derive f x a -> a = b -> is_derive f x b.
Proof. intros H <-. exact H. Qed.
Lemma dv_const (c x : R) : is_derive (fun _ : R => c) x 0.
Proof. auto_derive; trivial. Qed.
Lemma dv_id (x : R) : is_derive (fun t : R => t) x 1.
Proof. auto_derive; trivial. Qed.
Lemma dv_plus (f g : R -> R) (x a b : R) : is_derive f x a -> is_derive g x b -> is_derive (fun t => f t + g t) x (a + b).
Proof. intros H1 H2. exact (is_derive_plus f g x a b H1 H2). Qed.
Lemma dv_minus (f g : R -> R) (x a b : R) : is_derive f x a -> is_derive g x b -> is_derive (fun t => f t - g t) x (a - b).
Proof. intros H1 H2. exact (is_derive_minus f g x a b H1 H2). Qed.
Lemma dv_opp (f : R -> R) (x a : R) : is_derive f x a -> is_derive (fun t => - f t) x (- a).
Proof. intros H1. exact (is_derive_opp f x a H1). Qed.
Lemma dv_mult (f g : R -> R) (x a b : R) : is_derive f x a -> is_derive g x b -> is_derive (fun t => f t * g t) x (a * g x + f x * b).
Proof. intros H1 H2. exact (is_derive_mult f g x a b H1 H2 Rmult_comm). Qed.
Lemma dv_scal (f : R -> R) (c x a : R) : is_derive f x a -> is_derive (fun t => c * f t) x (c * a).
Proof. intros H. exact (is_derive_scal f x c a H). Qed.
Lemma dv_div (f g : R -> R) (x a b : R) : is_derive f x a -> is_derive g x b -> g x <> 0 -> is_derive (fun t => f t / g t) x ((a * g x - b * f x) / g x ^ 2).
Proof. intros H1 H2 N. eapply dv_val; [exact (is_derive_div f g x a b H1 H2 N)|]. unfold Rdiv. f_equal. ring. Qed.
Lemma dv_comp (f g : R -> R) (x a b : R) : is_derive f (g x) a -> is_derive g x b -> is_derive (fun t => f (g t)) x (b * a).
Proof. intros H1 H2. exact (is_derive_comp f g x a b H1 H2). Qed.
Lemma dv_ln (f : R -> R) (x a : R) : is_derive f x a -> 0 < f x -> is_derive (fun t => ln (f t)) x (a / f x).
Proof. intros H1 P. exact (dv_comp ln f x _ _ (is_derive_ln (f x) P) H1). Qed.
Lemma dv_sq (f : R -> R) (x a : R) : is_derive f x a -> is_derive (fun t => f t ^ 2) x (2 * f x * a).
Proof. intros D. eapply dv_val; [exact (is_derive_pow f 2 x a D)|]. cbn. ring. Qed.
Lemma dv_ext (f g : R -> R) (x a : R) : (forall t, f t = g t) -> is_derive f x a -> is_derive g x a.
Proof. intros E. apply is_derive_ext. exact E. Qed.
