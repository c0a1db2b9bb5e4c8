(** * What an arithmetic expression denotes *)
From Coq Require Import Reals ZArith List String.
From Verif Require Import Eval_Model.
Local Open Scope string_scope.
Local Open Scope R_scope.

(** arithmetic: numbers, the name pi, signs and operations *)
Fixpoint arithmetic (e : expr) : Prop :=
  match e with Int _ | Float _ => True | Name x => x = "pi" | Neg e => arithmetic e | Bin _ a b => arithmetic a /\ arithmetic b | _ => False end.
(** the real number it stands for, if any *)
Inductive denotes : expr -> R -> Prop :=
| den_int z : denotes (Int z) (IZR z)
| den_float r : denotes (Float r) r
| den_pi : denotes (Name "pi") PI
| den_neg e x : denotes e x -> denotes (Neg e) (- x)
| den_add a b x y : denotes a x -> denotes b y -> denotes (Bin Add a b) (x + y)
| den_sub a b x y : denotes a x -> denotes b y -> denotes (Bin Sub a b) (x - y)
| den_mul a b x y : denotes a x -> denotes b y -> denotes (Bin Mul a b) (x * y)
| den_div a b x y : denotes a x -> denotes b y -> y <> 0 -> denotes (Bin Div a b) (x / y)
| den_whole a b x k : denotes a x -> denotes b (IZR k) -> (0 <= k)%Z \/ x <> 0 -> denotes (Bin Pow a b) (powerRZ x k)
| den_pow a b x y : denotes a x -> denotes b y -> 0 < x -> denotes (Bin Pow a b) (Rpower x y)
| den_zero a b y : denotes a 0 -> denotes b y -> 0 < y -> denotes (Bin Pow a b) 0.
(** an int or a float of that value *)
Definition is_number (v : value) (r : R) : Prop := (exists z, v = VInt z /\ r = IZR z) \/ v = VFloat r.
(** names and attributes written outside every lambda *)
Inductive mentions : expr -> string -> Prop :=
| men_name x : mentions (Name x) x
| men_attr e a : mentions (Attr e a) a
| men_attr_in e a x : mentions e x -> mentions (Attr e a) x
| men_neg e x : mentions e x -> mentions (Neg e) x
| men_bin_l o a b x : mentions a x -> mentions (Bin o a b) x
| men_bin_r o a b x : mentions b x -> mentions (Bin o a b) x
| men_tup_l a b x : mentions a x -> mentions (Tup2 a b) x
| men_tup_r a b x : mentions b x -> mentions (Tup2 a b) x
| men_call e x : mentions e x -> mentions (Call0 e) x
| men_call_l a b x : mentions a x -> mentions (Call1 a b) x
| men_call_r a b x : mentions b x -> mentions (Call1 a b) x.
Fixpoint no_lambda (e : expr) : Prop :=
  match e with Lam0 _ | Lam1 _ _ => False | Attr e _ | Neg e | Call0 e => no_lambda e | Bin _ a b | Tup2 a b | Call1 a b => no_lambda a /\ no_lambda b | _ => True end.
(** numbers, and tuples of such *)
Inductive data : value -> Prop :=
| data_number v r : is_number v r -> data v
| data_tuple l : (forall v, In v l -> data v) -> data (VTup l).
(** names and attributes written anywhere, also inside a lambda (its own parameters included) *)
Fixpoint written (e : expr) (y : string) : Prop :=
  match e with
  | Int _ | Float _ | Tup0 => False | Name x => y = x | Attr e a => y = a \/ written e y | Neg e | Lam0 e | Call0 e => written e y
  | Lam1 x e => y = x \/ written e y | Bin _ a b | Tup2 a b | Call1 a b => written a y \/ written b y
  end.
