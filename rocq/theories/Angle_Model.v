(** * Ellipticity conversions and the parametrization switches
      (model of src/caustics/angle_mixin.py, lenses/point.py:132-175, lenses/sie.py:142-190,
       lenses/external_shear.py:104-167). *)
From Coq Require Import Reals List String Bool.
From Verif Require Import Py RealFun.
Import ListNotations.
Open Scope R_scope.

Definition clamp01 (c : R) : R := Rmin (Rmax c 0) 1.

(** angle_mixin.py:7-20 *)
Definition e1e2_to_q (e1 e2 : R) : R :=
  let c := clamp01 (sqrt (e1 ^ 2 + e2 ^ 2)) in (1 - c) / (1 + c).
Definition e1e2_to_phi (e1 e2 : R) : R := (1 / 2) * atan2 e2 e1.
Definition e1e2_to_qphi (e1 e2 : R) : R * R := (e1e2_to_q e1 e2, e1e2_to_phi e1 e2).
(** angle_mixin.py:23-26 *)
Definition qphi_to_e1e2 (q phi : R) : R * R :=
  ((1 - q) * cos (2 * phi) / (1 + q), (1 - q) * sin (2 * phi) / (1 + q)).
(** angle_mixin.py:29-42 *)
Definition c1c2_to_q (c1 c2 : R) : R := let c := sqrt (c1 ^ 2 + c2 ^ 2) in 1 - c / (1 + c).
Definition c1c2_to_phi (c1 c2 : R) : R := (1 / 2) * atan2 c2 c1.
Definition c1c2_to_qphi (c1 c2 : R) : R * R := (c1c2_to_q c1 c2, c1c2_to_phi c1 c2).
(** angle_mixin.py:45-48; None is the division by q = 0 *)
Definition qphi_to_c1c2 (q phi : R) : option (R * R) :=
  if Req_EM_T q 0 then None
  else Some ((1 - q) * cos (2 * phi) / q, (1 - q) * sin (2 * phi) / q).

(** lenses/func/external_shear.py:111-162 *)
Definition gamma_phi_to_gamma1 (gamma phi : R) : R := gamma * cos (2 * phi).
Definition gamma_phi_to_gamma2 (gamma phi : R) : R := gamma * sin (2 * phi).

(** ** Parameters of a module.
    caskade is an external library and is not modelled in full: a parameter object holds
    no value (free), a fixed value, or a pointer function reading the values of the parameters
    linked to it under a key; shapes, units and valid ranges are left out.
    What is not visible in /repo is left open in [policy]:
    - [auto_unlink]: does assigning a non-pointer value to a pointer parameter drop its links?
    - [dup_link_raises]: does linking a second object under a used key raise (AttributeError)
      rather than replace the first?
    Unlinking an object that is not linked does nothing. *)
Record policy := Policy { auto_unlink : bool; dup_link_raises : bool }.

Inductive pval : Type :=
| Unset : pval
| Static : R -> pval
| Pointer : ((string -> option R) -> option R) -> pval.

Record param := Param { val : pval; links : list (string * nat) }.

(** the module: attribute table, parameter objects by identity, next fresh identity, and the
    private attribute (_angle_system or _parametrization) *)
Record module_ := Module {
  attr : string -> option nat;
  heap : nat -> param;
  next : nat;
  sys : string }.

(** methods change the module and return or raise *)
Definition M (A : Type) : Type := module_ -> module_ * result A.
Definition ret {A} (a : A) : M A := fun s => (s, Ok a).
Definition raise {A} (e : exn) : M A := fun s => (s, Raise e).
Definition bindM {A B} (m : M A) (f : A -> M B) : M B :=
  fun s => let (s', r) := m s in match r with Ok a => f a s' | Raise e => (s', Raise e) end.
Notation "x <- m ;; k" := (bindM m (fun x => k)) (at level 61, m at next level, right associativity).
Notation "m ;;; k" := (bindM m (fun _ => k)) (at level 61, right associativity).
(** try: m except AttributeError: pass *)
Definition try_attr (m : M unit) : M unit :=
  fun s => let (s', r) := m s in
  match r with Raise AttributeError => (s', Ok tt) | _ => (s', r) end.

Definition upd_attr (k : string) (v : option nat) (s : module_) : module_ :=
  Module (fun j => if String.eqb j k then v else attr s j) (heap s) (next s) (sys s).
Definition upd_heap (i : nat) (p : param) (s : module_) : module_ :=
  Module (attr s) (fun j => if Nat.eqb j i then p else heap s j) (next s) (sys s).

Section Policy.
Variable pol : policy.

(** self.k *)
Definition getattr (k : string) : M nat := fun s =>
  match attr s k with Some i => (s, Ok i) | None => (s, Raise AttributeError) end.
(** self.k = Param(k, ...) *)
Definition new_param (k : string) : M unit := fun s =>
  let i := next s in
  let s := upd_attr k (Some i) (upd_heap i (Param Unset []) s) in
  (Module (attr s) (heap s) (S i) (sys s), Ok tt).
(** self.k = value  (or self.k.value = value) for an existing parameter k *)
Definition set_value (k : string) (v : pval) : M unit :=
  i <- getattr k ;;
  (fun s =>
    let ls := match v with Pointer _ => links (heap s i) | _ => if auto_unlink pol then [] else links (heap s i) end in
    (upd_heap i (Param v ls) s, Ok tt)).
Fixpoint lookup (key : string) (l : list (string * nat)) : option nat :=
  match l with
  | [] => None
  | (k, i) :: t => if String.eqb key k then Some i else lookup key t
  end.
(** self.k.link(self.child): the key is the name of the child *)
Definition link (k child : string) : M unit :=
  i <- getattr k ;; c <- getattr child ;;
  (fun s =>
    let p := heap s i in
    match lookup child (links p) with
    | None => (upd_heap i (Param (val p) (links p ++ [(child, c)])) s, Ok tt)
    | Some c' =>
      if Nat.eqb c' c then (s, Ok tt)
      else if dup_link_raises pol then (s, Raise AttributeError)
      else (upd_heap i (Param (val p)
              (map (fun kc => if String.eqb (fst kc) child then (child, c) else kc) (links p))) s, Ok tt)
    end).
(** self.k.unlink(self.child) *)
Definition unlink (k child : string) : M unit :=
  i <- getattr k ;; c <- getattr child ;;
  (fun s =>
    let p := heap s i in
    (upd_heap i (Param (val p) (filter (fun kc => negb (Nat.eqb (snd kc) c)) (links p))) s, Ok tt)).
(** del self.k *)
Definition delattr (k : string) : M unit :=
  i <- getattr k ;; (fun s => (upd_attr k None s, Ok tt)).
Definition set_sys (v : string) : M unit := fun s => (Module (attr s) (heap s) (next s) v, Ok tt).
Definition get_sys : M string := fun s => (s, Ok (sys s)).

Open Scope string_scope.
(** lambda p: f(p["a"].value, p["b"].value) *)
Definition ptr2 (f : R -> R -> R) (a b : string) : pval :=
  Pointer (fun p => match p a, p b with Some u, Some v => Some (f u v) | _, _ => None end).

(** angle_mixin.py:64-143 *)
Definition set_angle_system (value : string) : M unit :=
  if negb (existsb (String.eqb value) ["q_phi"; "e1_e2"; "c1_c2"]) then raise ValueError
  else
    cur <- get_sys ;;
    (if (String.eqb value "e1_e2" && negb (String.eqb cur "e1_e2"))%bool then
       new_param "e1" ;;; new_param "e2" ;;;
       set_value "q" (ptr2 e1e2_to_q "e1" "e2") ;;; link "q" "e1" ;;; link "q" "e2" ;;;
       set_value "phi" (ptr2 e1e2_to_phi "e1" "e2") ;;; link "phi" "e1" ;;; link "phi" "e2" ;;;
       try_attr (unlink "q" "c1" ;;; unlink "phi" "c1" ;;; unlink "q" "c2" ;;; unlink "phi" "c2" ;;;
                 delattr "c1" ;;; delattr "c2")
     else if (String.eqb value "c1_c2" && negb (String.eqb cur "c1_c2"))%bool then
       new_param "c1" ;;; new_param "c2" ;;;
       set_value "q" (ptr2 c1c2_to_q "c1" "c2") ;;; link "q" "c1" ;;; link "q" "c2" ;;;
       set_value "phi" (ptr2 c1c2_to_phi "c1" "c2") ;;; link "phi" "c1" ;;; link "phi" "c2" ;;;
       try_attr (unlink "q" "e1" ;;; unlink "phi" "e1" ;;; unlink "q" "e2" ;;; unlink "phi" "e2" ;;;
                 delattr "e1" ;;; delattr "e2")
     else if (String.eqb value "q_phi" && negb (String.eqb cur "q_phi"))%bool then
       set_value "q" Unset ;;; set_value "phi" Unset ;;;
       try_attr (getattr "e1" ;;; (* q.shape, phi.shape = e1.shape *)
                 unlink "q" "e1" ;;; unlink "phi" "e1" ;;; unlink "q" "e2" ;;; unlink "phi" "e2" ;;;
                 delattr "e1" ;;; delattr "e2") ;;;
       try_attr (getattr "c1" ;;;
                 unlink "q" "c1" ;;; unlink "phi" "c1" ;;; unlink "q" "c2" ;;; unlink "phi" "c2" ;;;
                 delattr "c1" ;;; delattr "c2")
     else ret tt) ;;;
    set_sys value.

(** external_shear.py:108-167 (warnings left out) *)
Definition set_parametrization_shear (value : string) : M unit :=
  if negb (existsb (String.eqb value) ["cartesian"; "angular"]) then raise ValueError
  else
    cur <- get_sys ;;
    (if (String.eqb value "angular" && negb (String.eqb cur "angular"))%bool then
       new_param "gamma" ;;; new_param "phi" ;;;
       set_value "gamma_1" (ptr2 gamma_phi_to_gamma1 "gamma" "phi") ;;;
       set_value "gamma_2" (ptr2 gamma_phi_to_gamma2 "gamma" "phi") ;;;
       link "gamma_1" "gamma" ;;; link "gamma_1" "phi" ;;; link "gamma_2" "gamma" ;;; link "gamma_2" "phi"
     else ret tt) ;;;
    (if (String.eqb value "cartesian" && negb (String.eqb cur "cartesian"))%bool then
       set_value "gamma_1" Unset ;;; set_value "gamma_2" Unset ;;;
       try_attr (getattr "gamma" ;;; unlink "gamma_1" "gamma" ;;; unlink "gamma_2" "gamma" ;;; delattr "gamma") ;;;
       try_attr (getattr "phi" ;;; unlink "gamma_1" "phi" ;;; unlink "gamma_2" "phi" ;;; delattr "phi")
     else ret tt) ;;;
    set_sys value.

(** point.py:136-175 and sie.py:146-190: native parameter Rein, alternative parameter [alt]
    ("mass"/"velocity_dispersion" with parameter "mass"/"sigma_v"); [conv] computes Rein from the
    alternative parameter and the two redshifts (the cosmology object is linked too and is the
    same for the lifetime of the lens, so it is part of [conv]). *)
Definition ptr3 (f : R -> R -> R -> R) (a b c : string) : pval :=
  Pointer (fun p => match p a, p b, p c with Some u, Some v, Some w => Some (f u v w) | _, _, _ => None end).
Definition set_parametrization_rein (alt alt_param : string) (conv : R -> R -> R -> R) (value : string) : M unit :=
  if negb (existsb (String.eqb value) ["Rein"; alt]) then raise ValueError
  else
    cur <- get_sys ;;
    (if (String.eqb value alt && negb (String.eqb cur alt))%bool then
       new_param alt_param ;;;
       set_value "Rein" (ptr3 conv alt_param "z_l" "z_s") ;;;
       link "Rein" alt_param ;;; link "Rein" "z_s" ;;; link "Rein" "z_l"
     else ret tt) ;;;
    (if (String.eqb value "Rein" && negb (String.eqb cur "Rein"))%bool then
       try_attr (set_value "Rein" Unset ;;; getattr alt_param ;;; delattr alt_param)
     else ret tt) ;;;
    set_sys value.
End Policy.

(** reading lens.k.value: a pointer reads the values of the objects linked to it.  The alternative
    parameters are never pointers themselves, so one level is enough; a pointer linked to another
    pointer reads as None here. *)
Definition plain_value (p : param) : option R :=
  match val p with Static r => Some r | _ => None end.
Definition node_value (s : module_) (i : nat) : option R :=
  match val (heap s i) with
  | Unset => None
  | Static r => Some r
  | Pointer f => f (fun key => match lookup key (links (heap s i)) with
                               | Some c => plain_value (heap s c) | None => None end)
  end.
Definition value_of (s : module_) (k : string) : option R :=
  match attr s k with Some i => node_value s i | None => None end.
