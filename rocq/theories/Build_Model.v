(** * build_simulator (model of src/caustics/sims/simulator.py:15-44)

    The result of yaml.safe_load is a heap of dicts: an anchor and its aliases are one dict, so dicts have addresses.  Scalars are tokens compared
    by equality.  Reading the file, YAML parsing and the constructors are parameters. *)
From Coq Require Import List Bool Arith String.
From Verif Require Import Py.
Import ListNotations.
Local Open Scope string_scope.

Inductive value := VScalar (s : string) | VList (l : list value) | VRef (a : nat) | VMod (name : string).
Definition dict := list (string * value).
Definition heap := nat -> dict.
Fixpoint assoc {A} (k : string) (d : list (string * A)) : option A :=
  match d with [] => None | (k', v) :: t => if String.eqb k k' then Some v else assoc k t end.
(** d[k] = v *)
Fixpoint set_key (k : string) (v : value) (d : dict) : dict :=
  match d with [] => [(k, v)] | (k', v') :: t => if String.eqb k k' then (k', v) :: t else (k', v') :: set_key k v t end.
Definition put (h : heap) (a : nat) (k : string) (v : value) : heap := fun b => if Nat.eqb b a then set_key k v (h b) else h b.

(** conjunction of comparisons from left to right; None is RecursionError *)
Fixpoint all_opt {A} (f : A -> option bool) (l : list A) : option bool :=
  match l with [] => Some true | a :: t => match f a with Some true => all_opt f t | r => r end end.
(** Python == on the loaded values: dicts by content, with the identity shortcut, at most [fuel] levels deep *)
Fixpoint eqv (fuel : nat) (h : heap) (v w : value) : option bool :=
  match v, w with
  | VScalar s, VScalar t => Some (String.eqb s t)
  | VMod s, VMod t => Some (String.eqb s t)
  | VList l, VList m => match fuel with O => None | S f =>
      if Nat.eqb (List.length l) (List.length m) then all_opt (fun p => eqv f h (fst p) (snd p)) (combine l m) else Some false end
  | VRef a, VRef b => if Nat.eqb a b then Some true else match fuel with O => None | S f =>
      if Nat.eqb (List.length (h a)) (List.length (h b)) then
        all_opt (fun p => match assoc (fst p) (h b) with Some u => eqv f h (snd p) u | None => Some false end) (h a)
      else Some false end
  | _, _ => Some false
  end.
Definition is_dict (v : value) : bool := match v with VRef _ => true | _ => false end.

Record module := { mod_kind : string; mod_kwargs : dict }.
(** config_dict: the names and the addresses of their objects, in order *)
Definition config := list (string * nat).

Section Build.
Variables (limit : nat) (known : string -> bool) (has_name : string -> bool) (construct : string -> dict -> result unit).
(** simulator.py:27-33 for one keyword: the objects before this one *)
Fixpoint match_loop (modules : list (string * module)) (k : nat) (kw : string) (earlier : config) (h : heap) : result heap :=
  match earlier with
  | [] => Ok h
  | (sub, a) :: t =>
      match assoc kw (h k) with None => Raise KeyError | Some cur =>
      match eqv limit h (VRef a) cur with None => Raise RuntimeError | Some e =>
      if (e && is_dict cur)%bool then
        match assoc sub modules with None => Raise KeyError | Some _ => match_loop modules k kw t (put h k kw (VMod sub)) end
      else match_loop modules k kw t h end end
  end.
(** simulator.py:26 *)
Fixpoint kwarg_loop (modules : list (string * module)) (k : nat) (earlier : config) (kws : list string) (h : heap) : result heap :=
  match kws with [] => Ok h | kw :: t => bind (match_loop modules k kw earlier h) (kwarg_loop modules k earlier t) end.
(** the items of config_dict before the key *)
Fixpoint before (name : string) (c : config) : config :=
  match c with [] => [] | (n, a) :: t => if String.eqb n name then [] else (n, a) :: before name t end.
(** simulator.py:24-41, one object; init_kwargs that is not a dict is a TypeError *)
Definition build_one (c : config) (name : string) (a : nat) (st : heap * list (string * module)) : result (heap * list (string * module)) :=
  let '(h, modules) := st in
  let finish h' (kwargs : heap -> dict) (set_name : heap -> heap * dict) :=
    match assoc "kind" (h' a) with
    | None => Raise KeyError
    | Some (VScalar kind) =>
        if known kind then
          let '(h'', kw) := if has_name kind then set_name h' else (h', kwargs h') in
          bind (construct kind kw) (fun _ => Ok (h'', (modules ++ [(name, {| mod_kind := kind; mod_kwargs := kw |})])%list))
        else Raise AttributeError
    | Some _ => Raise AttributeError
    end in
  match assoc "init_kwargs" (h a) with
  | None => finish h (fun _ => []) (fun h => (h, [("name", VScalar name)]))
  | Some (VRef k) => bind (kwarg_loop modules k (before name c) (map fst (h k)) h) (fun h' =>
      finish h' (fun h => h k) (fun h => let h1 := put h k "name" (VScalar name) in (h1, h1 k)))
  | Some _ => Raise TypeError
  end.
Fixpoint build_all (c todo : config) (st : heap * list (string * module)) : result (heap * list (string * module)) :=
  match todo with [] => Ok st | (name, a) :: t => bind (build_one c name a st) (build_all c t) end.
(** simulator.py:43-44: the modules built, and the last one *)
Definition build_simulator (h : heap) (c : config) : result (list (string * module) * (string * module)) :=
  bind (build_all c c (h, [])) (fun st => match rev (snd st) with [] => Raise IndexError | m :: _ => Ok (snd st, m) end).
End Build.
