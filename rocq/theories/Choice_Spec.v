(** * What a consistent backend object is *)
From Coq Require Import List String.
From Verif Require Import Choice_Model.
Import ListNotations.
Local Open Scope string_scope.

Definition flavour_name (f : flavour) : string := match f with Torch => "torch" | Jax => "jax" end.
(** the functions of the backend object that differ between the libraries *)
Definition functions : list string :=
  ["make_array"; "_array_type"; "concatenate"; "copy"; "tolist"; "view"; "as_array"; "to"; "to_numpy"; "gammaln"; "logit"; "sigmoid"; "repeat"; "stack"; "transpose"; "upsample2d"; "pad"; "roll"; "clamp"; "flatten"; "conv2d";
   "mean"; "std"; "sum"; "max"; "min"; "topk"; "bessel_j1"; "lgamma"; "hessian"; "jacobian"; "jacfwd"; "grad"; "vmap"; "long"; "fill_at_indices"; "add_at_indices"; "and_at_indices"; "unsqueeze"; "cat"; "gradient";
   "detach"; "avg_pool2d"; "rand"; "randn"; "randint"; "split_key"; "meshgrid"; "device"; "numel"; "Size"; "chunk"; "jit"; "norm"; "arange"; "linspace"].
(** the method that serves a function: its name after an underscore, but _array_type has one already and Size is written in lower case *)
Definition method_of (n : string) : string := if String.eqb n "_array_type" then "_array_type" else if String.eqb n "Size" then "_size" else "_" ++ n.
(** the object names the backend [f], computes with the module of [f], and all its functions and its error class are those of [f] *)
Definition consistent (f : flavour) (b : backend) : Prop :=
  name b = Some (flavour_name f) /\ module b = Some f /\ (forall n, In n functions -> attrs b n = Some (Method (method_of n) f)) /\
  attrs b "LinAlgErr" = Some (match f with Torch => TorchLinAlgError | Jax => PyException end).
(** the name asked for by [backend.backend = b]: b itself; for None the environment variable CASKADE_BACKEND, else the name caskade has *)
Definition asked (env b : option string) (w : world) : string := match b with Some b => b | None => match env with Some e => e | None => ck w end end.
