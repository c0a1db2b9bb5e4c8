(** * C149: the array backend can be changed at any time *)
From Coq Require Import List String.
From Verif Require Import Choice_Model Choice_Spec Choice_Proofs.
Import ListNotations.
Local Open Scope string_scope.

(** Once caustics is imported, after any sequence of assignments to backend.backend, failing ones included, the object is consistent: every function is the one for the library that backend.backend names. *)
Theorem C149_consistent : forall accepts installed env c n h, snd (start accepts installed env c n) = None -> exists f, consistent f (obj (run accepts installed h (fst (start accepts installed env c n)))).
Proof. exact always_consistent. Qed.
Print Assumptions C149_consistent.
(** An assignment succeeds exactly when the name asked for is "torch" or "jax", caskade takes it and the library is installed. *)
Theorem C149_succeeds : forall accepts installed env b w, snd (assign accepts installed env b w) = None <-> exists f, asked env b w = flavour_name f /\ accepts (flavour_name f) = true /\ installed f = true.
Proof. exact succeeds_iff. Qed.
Print Assumptions C149_succeeds.
(** Then both libraries use what was asked for, and NumPy's random numbers are used (once) only for jax. *)
Theorem C149_success : forall accepts installed env b w, snd (assign accepts installed env b w) = None -> exists f, asked env b w = flavour_name f /\ consistent f (obj (fst (assign accepts installed env b w))) /\
  ck (fst (assign accepts installed env b w)) = flavour_name f /\ draws (fst (assign accepts installed env b w)) = match f with Torch => draws w | Jax => S (draws w) end.
Proof. exact success. Qed.
Print Assumptions C149_success.
(** Otherwise the object of caustics, and NumPy's random numbers, are as before. *)
Theorem C149_failure : forall accepts installed env b w e, snd (assign accepts installed env b w) = Some e -> obj (fst (assign accepts installed env b w)) = obj w /\ draws (fst (assign accepts installed env b w)) = draws w.
Proof. exact failure. Qed.
Print Assumptions C149_failure.
(** caustics and caskade always name the same backend, if caskade takes only the names "torch" and "jax" of installed libraries; *)
Theorem C149_agree_partial : forall accepts installed, (forall s, accepts s = true -> exists f, s = flavour_name f /\ installed f = true) -> forall env c n h, snd (start accepts installed env c n) = None ->
  let w := run accepts installed h (fst (start accepts installed env c n)) in name (obj w) = Some (ck w).
Proof. exact always_agree. Qed.
Print Assumptions C149_agree_partial.
(** but if it takes another name, an assignment of that name raises in caustics and leaves the two with different backends. *)
Theorem C149_refuted : exists accepts installed h w, snd (start accepts installed None "torch" 0) = None /\ w = run accepts installed h (fst (start accepts installed None "torch" 0)) /\ consistent Torch (obj w) /\ ck w <> "torch".
Proof. exact disagree. Qed.
Print Assumptions C149_refuted.

(** The hypotheses can be met: a caskade that takes "torch" and "jax", both installed; switching to jax and on to an unknown name. *)
Example C149_hyps : let accepts := fun s => (String.eqb s "torch" || String.eqb s "jax")%bool in let installed := fun _ : flavour => true in
  snd (start accepts installed None "torch" 0) = None /\ (forall s, accepts s = true -> exists f, s = flavour_name f /\ installed f = true) /\
  let w := run accepts installed [(None, Some "jax"); (None, Some "numpy")] (fst (start accepts installed None "torch" 0)) in name (obj w) = Some "jax" /\ draws w = 1 /\
  attrs (obj w) "vmap" = Some (Method "_vmap" Jax) /\ snd (assign accepts installed None (Some "numpy") w) = Some CaskadeRefuses.
Proof.
  cbv zeta. split; [reflexivity|]. split; [|repeat split; reflexivity]. intros s H. apply Bool.orb_prop in H as [H|H]; apply String.eqb_eq in H; [exists Torch|exists Jax]; split; [exact H|reflexivity|exact H|reflexivity].
Qed.
