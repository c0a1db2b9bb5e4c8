(** * Model of the evaluation of expressions given as strings (utils.py:32-63) *)
From Coq Require Import Reals ZArith List String.
Import ListNotations.
Local Open Scope string_scope.
Local Open Scope R_scope.

(** What [compile(input_string, "<string>", "eval")] accepts (utils.py:55), after parsing. Simplified: the string is given as its syntax tree; of Python's expressions there are numbers, names,
    attributes, - + * / **, tuples of no or two elements, lambdas with no or one parameter and calls with no or one argument. Left out: strings, comparisons, bit operations, // and %, conditionals,
    subscripts, comprehensions, keyword and default arguments. *)
Inductive operation := Add | Sub | Mul | Div | Pow.
Inductive expr :=
| Int (z : Z) | Float (r : R) | Name (x : string) | Attr (e : expr) (a : string) | Neg (e : expr) | Bin (o : operation) (a b : expr)
| Tup0 | Tup2 (a b : expr) | Lam0 (body : expr) | Lam1 (x : string) (body : expr) | Call0 (f : expr) | Call1 (f a : expr).

(** Python values: int, float (a real number: no rounding, overflow or nan), tuple, function with its enclosing variables, class, and the empty dict of builtins. *)
Inductive value :=
| VInt (z : Z) | VFloat (r : R) | VTup (l : list value) | VFun (x : option string) (body : expr) (env : list (string * value)) | VClass (n : string) | VDict.
Inductive exn := NameError (x : string) | TypeError | ZeroDivisionError | RecursionError.
(** [Other]: what the model does not follow, namely complex numbers, attributes other than [__class__], calling a class. *)
Inductive outcome := Val (v : value) | Raise (e : exn) | Other.
Definition bind (m : outcome) (k : value -> outcome) : outcome := match m with Val v => k v | Raise e => Raise e | Other => Other end.

(** [code.co_names] (utils.py:57): names and attributes of the outermost code object, in the order in which the compiler meets them. The body of a lambda is a code object of its own, so what it
    uses is not listed. *)
Fixpoint co_names (e : expr) : list string :=
  match e with
  | Int _ | Float _ | Tup0 | Lam0 _ | Lam1 _ _ => []
  | Name x => [x]
  | Attr e a => co_names e ++ [a]
  | Neg e | Call0 e => co_names e
  | Bin _ a b | Tup2 a b | Call1 a b => co_names a ++ co_names b
  end.

(** Arithmetic of Python's int and float. *)
Definition to_real (v : value) : option R := match v with VInt z => Some (IZR z) | VFloat r => Some r | _ => None end.
Definition pow_float (x y : R) : outcome :=
  if Rlt_dec 0 x then Val (VFloat (Rpower x y))
  else if Req_EM_T x 0 then (if Rlt_dec 0 y then Val (VFloat 0) else if Req_EM_T y 0 then Val (VFloat 1) else Raise ZeroDivisionError)
  else if Req_EM_T (IZR (Int_part y)) y then Val (VFloat (powerRZ x (Int_part y))) else Other.
Definition binary (o : operation) (a b : value) : outcome :=
  match o, a, b with
  | Add, VInt m, VInt n => Val (VInt (m + n)) | Sub, VInt m, VInt n => Val (VInt (m - n)) | Mul, VInt m, VInt n => Val (VInt (m * n))
  | Pow, VInt m, VInt n => if (0 <=? n)%Z then Val (VInt (m ^ n)) else pow_float (IZR m) (IZR n)
  | Add, VTup l, VTup m => Val (VTup (l ++ m))
  | Mul, VTup l, VInt n | Mul, VInt n, VTup l => Val (VTup (List.concat (repeat l (Z.to_nat n))))
  | _, _, _ =>
    match to_real a, to_real b with
    | Some x, Some y => match o with
        | Add => Val (VFloat (x + y)) | Sub => Val (VFloat (x - y)) | Mul => Val (VFloat (x * y))
        | Div => if Req_EM_T y 0 then Raise ZeroDivisionError else Val (VFloat (x / y))
        | Pow => pow_float x y end
    | _, _ => Raise TypeError
    end
  end.
Definition negate (a : value) : outcome := match a with VInt z => Val (VInt (- z)) | VFloat r => Val (VFloat (- r)) | _ => Raise TypeError end.
Definition class_of (v : value) : string := match v with VInt _ => "int" | VFloat _ => "float" | VTup _ => "tuple" | VFun _ _ _ => "function" | VClass _ => "type" | VDict => "dict" end.
Fixpoint lookup (x : string) (l : list (string * value)) : option value := match l with [] => None | (y, v) :: l => if String.eqb x y then Some v else lookup x l end.
(** [eval(code, {"__builtins__": {}}, allowed_names)] (utils.py:54, 63): the outermost code looks a name up in the locals [allowed_names], then in the globals; the body of a lambda in its own
    and the enclosing lambdas' parameters, then in the globals. The globals hold only [__builtins__], an empty dict. *)
Definition globals : list (string * value) := [("__builtins__", VDict)].
Definition allowed_names : list (string * value) := [("pi", VFloat PI)].
Definition name_value (frame : option (list (string * value))) (x : string) : outcome :=
  match lookup x (match frame with None => allowed_names | Some env => env end ++ globals) with Some v => Val v | None => Raise (NameError x) end.
(** [depth]: how many calls may still be nested (Python's recursion limit). *)
Fixpoint eval (depth : nat) : option (list (string * value)) -> expr -> outcome :=
  fix ev frame e :=
    match e with
    | Int z => Val (VInt z)
    | Float r => Val (VFloat r)
    | Name x => name_value frame x
    | Attr e a => bind (ev frame e) (fun v => if String.eqb a "__class__" then Val (VClass (class_of v)) else Other)
    | Neg e => bind (ev frame e) negate
    | Bin o a b => bind (ev frame a) (fun v => bind (ev frame b) (binary o v))
    | Tup0 => Val (VTup [])
    | Tup2 a b => bind (ev frame a) (fun v => bind (ev frame b) (fun w => Val (VTup [v; w])))
    | Lam0 body => Val (VFun None body (match frame with None => [] | Some env => env end))
    | Lam1 x body => Val (VFun (Some x) body (match frame with None => [] | Some env => env end))
    | Call0 f => bind (ev frame f) (fun v => match v with
        | VFun None body env => match depth with O => Raise RecursionError | S d => eval d (Some env) body end
        | VClass _ => Other | _ => Raise TypeError end)
    | Call1 f a => bind (ev frame f) (fun v => bind (ev frame a) (fun w => match v with
        | VFun (Some x) body env => match depth with O => Raise RecursionError | S d => eval d (Some ((x, w) :: env)) body end
        | VClass _ => Other | _ => Raise TypeError end))
    end.
(** utils.py:53-63 *)
Definition eval_expression (depth : nat) (e : expr) : outcome :=
  match find (fun x => negb (existsb (String.eqb x) (map fst allowed_names))) (co_names e) with
  | Some x => Raise (NameError x)
  | None => eval depth None e
  end.
