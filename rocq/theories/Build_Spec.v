(** * What C70 assumes about a loaded configuration *)
From Coq Require Import List String.
From Verif Require Import Py Build_Model.
Import ListNotations.
Local Open Scope string_scope.

(** the dict of keyword arguments of the object at address a *)
Definition kwargs_of (h : heap) (a k : nat) : Prop := assoc "init_kwargs" (h a) = Some (VRef k).
(** no other object shares these keyword arguments *)
Definition private (h : heap) (c : config) (name : string) (k : nat) : Prop := forall n a, In (n, a) c -> kwargs_of h a k -> n = name.
(** two objects that can be told apart: they differ in a scalar entry such as their kind, or both have keyword arguments of their own and a class that takes a name *)
Definition apart (has_name : string -> bool) (h : heap) (c : config) (n1 : string) (a1 : nat) (n2 : string) (a2 : nat) : Prop :=
  (exists key s t, key <> "init_kwargs" /\ assoc key (h a1) = Some (VScalar s) /\ assoc key (h a2) = Some (VScalar t) /\ s <> t) \/
  (exists k1 k2 c1 c2, kwargs_of h a1 k1 /\ kwargs_of h a2 k2 /\ private h c n1 k1 /\ private h c n2 k2 /\
     assoc "kind" (h a1) = Some (VScalar c1) /\ assoc "kind" (h a2) = Some (VScalar c2) /\ has_name c1 = true /\ has_name c2 = true).
(** names are the keys of a dict; keyword arguments are not themselves objects of the configuration; references point to earlier objects *)
Record well_formed (has_name : string -> bool) (h : heap) (c : config) : Prop := {
  wf_names : NoDup (map fst c);
  wf_kwargs : forall n a k n' a', In (n, a) c -> kwargs_of h a k -> In (n', a') c -> k <> a';
  wf_order : forall n a k kw b n', In (n, a) c -> kwargs_of h a k -> assoc kw (h k) = Some (VRef b) -> In (n', b) c -> In (n', b) (before n c);
  wf_apart : forall n1 a1 n2 a2, In (n1, a1) c -> In (n2, a2) c -> n1 <> n2 -> apart has_name h c n1 a1 n2 a2 }.
(** what the module of an object receives: its kind, its name, for every reference to an earlier object the module of that object, and scalars unchanged *)
Definition received (has_name : string -> bool) (H0 : heap) (c : config) (name : string) (a : nat) (m : module) : Prop :=
  assoc "kind" (H0 a) = Some (VScalar (mod_kind m)) /\
  (has_name (mod_kind m) = true -> assoc "name" (mod_kwargs m) = Some (VScalar name)) /\
  forall k kw, kwargs_of H0 a k -> kw <> "name" ->
    (forall sub b, assoc kw (H0 k) = Some (VRef b) -> In (sub, b) (before name c) -> assoc kw (mod_kwargs m) = Some (VMod sub)) /\
    (forall s, assoc kw (H0 k) = Some (VScalar s) -> assoc kw (mod_kwargs m) = Some (VScalar s)) /\
    (assoc kw (H0 k) = None -> assoc kw (mod_kwargs m) = None).
