(** * Model of the choice of the array backend (backend_obj.py:16-39, 41-164) *)
From Coq Require Import List String.
Import ListNotations.
Local Open Scope string_scope.

Inductive flavour := Torch | Jax.
(** what an attribute of the backend object holds: a method of the class (its name without "_torch" or "_jax"), torch's LinAlgError, Python's Exception, the module jax, or a random key made from one draw of NumPy *)
Inductive attribute := Method (stem : string) (f : flavour) | TorchLinAlgError | PyException | JaxModule | Key (draw : nat).
(** the backend object: [name] is _backend, [module] is module; None before the first assignment *)
Record backend := { name : option string; module : option flavour; attrs : string -> option attribute }.
(** [ck] is caskade's own backend name (ck.backend.backend), [draws] counts the calls of np.random.randint. *)
Record world := { obj : backend; ck : string; draws : nat }.
Inductive fault := CaskadeRefuses | ImportError | ValueError.
Definition upd (a : string -> option attribute) (n : string) (v : attribute) : string -> option attribute := fun m => if String.eqb n m then Some v else a m.
Definition bind_all (f : flavour) (tbl : list (string * string)) (a : string -> option attribute) : string -> option attribute := fold_left (fun a p => upd a (fst p) (Method (snd p) f)) tbl a.

(** backend_obj.py:43-99 without LinAlgErr *)
Definition torch_table : list (string * string) :=
  [("make_array", "_make_array"); ("_array_type", "_array_type"); ("concatenate", "_concatenate"); ("copy", "_copy"); ("tolist", "_tolist"); ("view", "_view"); ("as_array", "_as_array");
   ("to", "_to"); ("to_numpy", "_to_numpy"); ("gammaln", "_gammaln"); ("logit", "_logit"); ("sigmoid", "_sigmoid"); ("repeat", "_repeat"); ("stack", "_stack"); ("transpose", "_transpose");
   ("upsample2d", "_upsample2d"); ("pad", "_pad"); ("roll", "_roll"); ("clamp", "_clamp"); ("flatten", "_flatten"); ("conv2d", "_conv2d"); ("mean", "_mean"); ("std", "_std");
   ("sum", "_sum"); ("max", "_max"); ("min", "_min"); ("topk", "_topk"); ("bessel_j1", "_bessel_j1"); ("lgamma", "_lgamma"); ("hessian", "_hessian"); ("jacobian", "_jacobian");
   ("jacfwd", "_jacfwd"); ("grad", "_grad"); ("vmap", "_vmap"); ("long", "_long"); ("fill_at_indices", "_fill_at_indices"); ("add_at_indices", "_add_at_indices");
   ("and_at_indices", "_and_at_indices"); ("unsqueeze", "_unsqueeze"); ("cat", "_cat"); ("gradient", "_gradient"); ("detach", "_detach"); ("avg_pool2d", "_avg_pool2d"); ("rand", "_rand");
   ("randn", "_randn"); ("randint", "_randint"); ("split_key", "_split_key"); ("meshgrid", "_meshgrid"); ("device", "_device"); ("numel", "_numel"); ("Size", "_size"); ("chunk", "_chunk");
   ("jit", "_jit"); ("norm", "_norm"); ("arange", "_arange"); ("linspace", "_linspace")].
(** backend_obj.py:104-160 without LinAlgErr *)
Definition jax_table : list (string * string) :=
  [("make_array", "_make_array"); ("_array_type", "_array_type"); ("concatenate", "_concatenate"); ("copy", "_copy"); ("tolist", "_tolist"); ("view", "_view"); ("as_array", "_as_array");
   ("to", "_to"); ("to_numpy", "_to_numpy"); ("gammaln", "_gammaln"); ("logit", "_logit"); ("sigmoid", "_sigmoid"); ("repeat", "_repeat"); ("stack", "_stack"); ("transpose", "_transpose");
   ("upsample2d", "_upsample2d"); ("pad", "_pad"); ("roll", "_roll"); ("clamp", "_clamp"); ("flatten", "_flatten"); ("conv2d", "_conv2d"); ("mean", "_mean"); ("std", "_std");
   ("sum", "_sum"); ("max", "_max"); ("min", "_min"); ("topk", "_topk"); ("bessel_j1", "_bessel_j1"); ("lgamma", "_lgamma"); ("hessian", "_hessian"); ("jacobian", "_jacobian");
   ("jacfwd", "_jacfwd"); ("grad", "_grad"); ("vmap", "_vmap"); ("long", "_long"); ("fill_at_indices", "_fill_at_indices"); ("add_at_indices", "_add_at_indices");
   ("and_at_indices", "_and_at_indices"); ("unsqueeze", "_unsqueeze"); ("cat", "_cat"); ("gradient", "_gradient"); ("detach", "_detach"); ("avg_pool2d", "_avg_pool2d"); ("rand", "_rand");
   ("randn", "_randn"); ("randint", "_randint"); ("split_key", "_split_key"); ("meshgrid", "_meshgrid"); ("device", "_device"); ("numel", "_numel"); ("Size", "_size"); ("chunk", "_chunk");
   ("jit", "_jit"); ("norm", "_norm"); ("arange", "_arange"); ("linspace", "_linspace")].
(** backend_obj.py:41-99; simplified: LinAlgErr is set last instead of in the middle *)
Definition setup_torch (a : string -> option attribute) : string -> option attribute := upd (bind_all Torch torch_table a) "LinAlgErr" TorchLinAlgError.
(** backend_obj.py:101-164; [d] is NumPy's draw *)
Definition setup_jax (d : nat) (a : string -> option attribute) : string -> option attribute := upd (upd (bind_all Jax jax_table (upd a "jax" JaxModule)) "LinAlgErr" PyException) "key" (Key d).

Section Choice.
(** caskade's setter (not part of /repo): the names it takes; a name it does not take raises and changes nothing (assumed) *)
Variable accepts : string -> bool.
(** which of the two libraries importlib finds *)
Variable installed : flavour -> bool.
(** backend_obj.py:31-39: a failing import raises before anything is assigned *)
Definition load_backend (b : string) (w : world) : world * option fault :=
  if String.eqb b "torch" then
    if installed Torch then ({| obj := {| name := name (obj w); module := Some Torch; attrs := setup_torch (attrs (obj w)) |}; ck := ck w; draws := draws w |}, None) else (w, Some ImportError)
  else if String.eqb b "jax" then
    if installed Jax then ({| obj := {| name := name (obj w); module := Some Jax; attrs := setup_jax (draws w) (attrs (obj w)) |}; ck := ck w; draws := S (draws w) |}, None) else (w, Some ImportError)
  else (w, Some ValueError).
(** backend_obj.py:24-29: the assignment [backend.backend = b] while the environment variable CASKADE_BACKEND is [env] *)
Definition assign (env b : option string) (w : world) : world * option fault :=
  let b := match b with Some b => b | None => match env with Some e => e | None => ck w end end in
  if accepts b then
    let w := {| obj := obj w; ck := b; draws := draws w |} in
    match load_backend b w with
    | (w, None) => ({| obj := {| name := Some b; module := module (obj w); attrs := attrs (obj w) |}; ck := ck w; draws := draws w |}, None)
    | (w, Some e) => (w, Some e)
    end
  else (w, Some CaskadeRefuses).
(** backend_obj.py:17-18 and 807: what importing caustics does; [c] is the name caskade has at that time *)
Definition start (env : option string) (c : string) (n : nat) : world * option fault := assign env None {| obj := {| name := None; module := None; attrs := fun _ => None |}; ck := c; draws := n |}.
(** a program that assigns and goes on after exceptions *)
Definition run (h : list (option string * option string)) (w : world) : world := fold_left (fun w p => fst (assign (fst p) (snd p) w)) h w.
End Choice.
