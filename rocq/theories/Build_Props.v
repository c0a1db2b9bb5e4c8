(** * C70: build_simulator *)
From Coq Require Import List String.
From Verif Require Import Py Build_Model Build_Spec Build_Proofs.
Import ListNotations.
Local Open Scope string_scope.

(** when the objects can be told apart: one module per object, in order, each with the modules of the objects it refers to; the last one is returned *)
Theorem C70_resolved_partial : forall limit known has_name construct h c, well_formed has_name h c ->
  forall modules last, build_simulator limit known has_name construct h c = Ok (modules, last) ->
  map fst modules = map fst c /\ (forall n a, In (n, a) c -> exists m, In (n, m) modules /\ received has_name h c n a m) /\
  exists init, modules = (init ++ [last])%list.
Proof. exact build_ok. Qed.
Print Assumptions C70_resolved_partial.
(** two objects written the same way are confused: the reference to "far" becomes the module of "near" *)
Theorem C70_refuted : exists h c, NoDup (map fst c) /\ In ("far", 1) c /\ (exists k, In ("lens", 2) c /\ kwargs_of h 2 k /\ assoc "cosmology" (h k) = Some (VRef 1)) /\
  exists ms m, build_simulator 1000 (fun _ => true) (fun _ => true) (fun _ _ => Ok tt) h c = Ok (ms, ("lens", m)) /\ assoc "cosmology" (mod_kwargs m) = Some (VMod "near").
Proof.
  exists twin_heap, twin_config. split; [repeat constructor; cbn; intuition discriminate|]. split; [cbn; auto|]. split; [exists 3; repeat split; cbn; auto|exact twins].
Qed.
Print Assumptions C70_refuted.
(** a reference inside a list, as in the lenses of a SinglePlane, is not resolved *)
Theorem C70_list_refuted : exists h c, NoDup (map fst c) /\ In ("sis", 0) c /\ (exists k, In ("plane", 1) c /\ kwargs_of h 1 k /\ assoc "lenses" (h k) = Some (VList [VRef 0])) /\
  exists ms m, build_simulator 1000 (fun _ => true) (fun _ => true) (fun _ _ => Ok tt) h c = Ok (ms, ("plane", m)) /\ assoc "lenses" (mod_kwargs m) = Some (VList [VRef 0]).
Proof.
  exists list_heap, list_config. split; [repeat constructor; cbn; intuition discriminate|]. split; [cbn; auto|]. split; [exists 2; repeat split; cbn; auto|exact listed].
Qed.
Print Assumptions C70_list_refuted.
Example C70_hyps : well_formed (fun _ => true) good_heap good_config /\
  exists ms m, build_simulator 1000 (fun _ => true) (fun _ => true) accept_all good_heap good_config = Ok (ms, ("sim", m)) /\ assoc "lens" (mod_kwargs m) = Some (VMod "second").
Proof. split; [exact good_wf|exact good_builds]. Qed.
