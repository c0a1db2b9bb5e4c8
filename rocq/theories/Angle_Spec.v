(** Histories of a lens object: what a user can do to its parameters. *)
From Coq Require Import Reals List String.
From Verif Require Import Py Angle_Model.
Import ListNotations.
Open Scope R_scope.

(** lens.<switch> = v, or lens.k = r / None *)
Inductive user_op := Switch (v : string) | Assign (k : string) (r : option R).
Definition literal (r : option R) : pval := match r with Some x => Static x | None => Unset end.
Definition perform (pol : policy) (setter : string -> M unit) (o : user_op) : M unit :=
  match o with Switch v => setter v | Assign k r => set_value pol k (literal r) end.

(** every state after a finite sequence of such operations on a new object; [free] lists the
    parameters a user may assign in a given system (the others are computed) *)
Inductive reachable (pol : policy) (setter : string -> M unit) (free : string -> list string)
    (fresh : module_ -> Prop) : module_ -> Prop :=
| reach_new s : fresh s -> reachable pol setter free fresh s
| reach_switch s v : reachable pol setter free fresh s ->
    reachable pol setter free fresh (fst (perform pol setter (Switch v) s))
| reach_assign s k r : reachable pol setter free fresh s -> In k (free (sys s)) ->
    reachable pol setter free fresh (fst (perform pol setter (Assign k r) s)).

(** parameter k exists and depends on exactly the objects currently bound to names ks *)
Definition depends_on (s : module_) (k : string) (ks : list string) : Prop :=
  exists i, attr s k = Some i /\
    map (fun kc => (fst kc, Some (snd kc))) (links (heap s i)) = map (fun n => (n, attr s n)) ks.
Definition is_computed (s : module_) (k : string) : Prop :=
  exists i f, attr s k = Some i /\ val (heap s i) = Pointer f.
Definition exists_param (s : module_) (k : string) : Prop := attr s k <> None.
Definition absent (s : module_) (k : string) : Prop := attr s k = None.
(** free: it exists, is not computed, and depends on nothing *)
Definition is_free (s : module_) (k : string) : Prop :=
  exists_param s k /\ ~ is_computed s k /\ depends_on s k [].

(** new object with native parameters ks (distinct objects), none of the others *)
Definition new_object (sys0 : string) (ks others : list string) (s : module_) : Prop :=
  sys s = sys0 /\ Forall (absent s) others /\
  exists ids, map (attr s) ks = map Some ids /\ NoDup ids /\ Forall (fun i => (i < next s)%nat) ids /\
    Forall (is_free s) ks.

(** the parameters a user assigns in each system *)
Open Scope string_scope.
Definition free_params (sys : string) : list string :=
  if String.eqb sys "q_phi" then ["q"; "phi"] else if String.eqb sys "e1_e2" then ["e1"; "e2"] else ["c1"; "c2"].
Definition shear_free (sys : string) : list string :=
  if String.eqb sys "cartesian" then ["gamma_1"; "gamma_2"] else ["gamma"; "phi"].
Definition rein_free (ap : string) (sys : string) : list string :=
  if String.eqb sys "Rein" then ["Rein"; "z_l"; "z_s"] else [ap; "z_l"; "z_s"].
