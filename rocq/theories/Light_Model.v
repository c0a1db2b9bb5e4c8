(** * Analytic light profiles and stacks (model of src/caustics/light) *)
From Coq Require Import Reals List.
From Verif Require Import Py Geo_Model.
Import ListNotations.
Local Open Scope R_scope.

(** b ** t for a positive exponent; None = NaN *)
Definition real_pow (b t : R) : option R :=
  if Rlt_dec b 0 then None else if Req_EM_T b 0 then Some 0 else Some (Rpower b t).

(** light/func/sersic.py:5-35 *)
Definition k_sersic (n : R) : R :=
  let x := 1 / n in
  2 * n - 1 / 3 + x * (4 / 405 + x * (46 / 25515 + x * (131 / 1148175 - x * (2194697 / 30690717750)))).
(** light/func/sersic.py:38-57 *)
Definition k_lenstronomy (n : R) : R := 19992 / 10000 * n - 3271 / 10000.
(** light/func/sersic.py:60-66; None = NaN *)
Definition brightness_sersic (x0 y0 q phi n Re Ie x y k s : R) : option R :=
  let '(x, y) := translate_rotate x y x0 y0 (Some phi) in
  let '(ex, ey) := to_elliptical x y q in
  let e := sqrt (ex ^ 2 + ey ^ 2) + s in
  match real_pow (e / Re) (1 / n) with
  | Some p => let exponent := - k * (p - 1) in Some (Ie * exp exponent)
  | None => None
  end.
(** light/sersic.py:195-251 *)
Definition sersic_brightness (lenstronomy_k : bool) (s x0 y0 q phi n Re Ie x y : R) : option R :=
  let k := if lenstronomy_k then k_lenstronomy n else k_sersic n in brightness_sersic x0 y0 q phi n Re Ie x y k s.

(** b ** (1/2) *)
Definition half_pow (b : R) : option R := if Rlt_dec b 0 then None else Some (sqrt b).
(** light/func/star_source.py:5-16 and light/star_source.py:121-160; NaN (None) is absorbing, also in 0 * NaN *)
Definition brightness_star (x0 y0 theta_s Ie x y gamma : R) : option R :=
  let '(x, y) := translate_rotate x y x0 y0 None in
  match half_pow (x ^ 2 + y ^ 2) with
  | None => None
  | Some b =>
    let mu := half_pow (1 - b ^ 2) in
    if Rle_dec b theta_s then match mu with None => None | Some m => Some (Ie * (1 - gamma * (1 - m))) end else Some 0
  end.

(** light/base.py: a source gives a brightness for extra arguments and a position, or raises *)
Definition source (K : Type) := K -> R -> R -> result R.
(** light/light_stack.py:46-84 *)
Definition light_stack {K} (light_models : list (source K)) : source K :=
  fun kwargs x y => for_loop (fun m brightness => bind (m kwargs x y) (fun b => Ok (brightness + b))) light_models 0.
