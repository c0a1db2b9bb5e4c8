(** * C144: expressions given as strings *)
From Coq Require Import Reals Lra ZArith List String.
From Verif Require Import Eval_Model Eval_Spec Eval_Proofs.
Import ListNotations.
Local Open Scope string_scope.
Local Open Scope R_scope.

(** An arithmetic expression evaluates to an int or float of value r exactly when it denotes r; *)
Theorem C144_value_partial : forall depth e r, arithmetic e -> ((exists v, eval_expression depth e = Val v /\ is_number v r) <-> denotes e r).
Proof. exact value_spec. Qed.
Print Assumptions C144_value_partial.
(** the only exception it can raise is ZeroDivisionError. *)
Theorem C144_raises_partial : forall depth e x, arithmetic e -> eval_expression depth e = Raise x -> x = ZeroDivisionError.
Proof. exact raises_spec. Qed.
Print Assumptions C144_raises_partial.
(** A name or attribute other than pi outside every lambda is refused, whatever else the expression does (the outcome is the same for every recursion limit). *)
Theorem C144_names_partial : forall depth e x, mentions e x -> x <> "pi" -> exists y, mentions e y /\ y <> "pi" /\ eval_expression depth e = Raise (NameError y).
Proof. exact rejected. Qed.
Print Assumptions C144_names_partial.
(** Without lambdas the result, if any, is a number or a tuple of such. *)
Theorem C144_data_partial : forall depth e v, no_lambda e -> eval_expression depth e = Val v -> data v.
Proof. exact plain_results. Qed.
Print Assumptions C144_data_partial.
(** Inside a lambda the check does not look: an expression with a forbidden attribute is evaluated and hands out a class. *)
Theorem C144_refuted : exists e y v, written e y /\ y <> "pi" /\ (forall depth, eval_expression (S depth) e = Val v) /\ forall r, ~ is_number v r.
Proof. exact reach_refuted. Qed.
Print Assumptions C144_refuted.
(** And the allowed name is not found there. *)
Theorem C144_pi_refuted : exists e, (forall y, written e y -> y = "pi") /\ forall depth, eval_expression (S depth) e = Raise (NameError "pi").
Proof. exact pi_refuted. Qed.
Print Assumptions C144_pi_refuted.

(** The hypotheses can be met: 2 * pi / 3 ** -1; a name that is refused. *)
Example C144_hyps : let e := Bin Div (Bin Mul (Int 2) (Name "pi")) (Bin Pow (Int 3) (Neg (Int 1))) in arithmetic e /\ denotes e (2 * PI / powerRZ 3 (-1)) /\ no_lambda e /\
  mentions (Bin Add (Name "pi") (Name "e")) "e" /\ "e" <> "pi".
Proof.
  cbn zeta. repeat split; try discriminate.
  - apply den_div; [apply den_mul; [apply (den_int 2)|apply den_pi]| |].
    + apply den_whole; [apply (den_int 3)| |right; lra]. change (IZR (-1)) with (- IZR 1). apply den_neg, den_int.
    + apply powerRZ_NOR. lra.
  - apply men_bin_r, men_name.
Qed.
