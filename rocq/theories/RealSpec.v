(** The real numbers of the standard library: the operators and functions of the language, and
    derivatives in the usual sense. *)
From Verif Require Import Base Syntax Nd SimSpec Eval CalcSpec.
From Coq Require Import ZArith Reals Lra.
Local Open Scope R_scope.

Definition RO : rops R := ROps 0 1 Rplus Rmult Rminus Ropp Rdiv.

(** ** The functions of the language with their derivatives *)
Definition fn_exp := SmoothFun exp exp exp (fun _ => True).
Definition fn_log := SmoothFun ln Rinv (fun x => - / (x * x)) (fun x => 0 < x).
Definition fn_log10 := SmoothFun (fun x => ln x / ln 10) (fun x => / x / ln 10) (fun x => - / (x * x) / ln 10) (fun x => 0 < x).
Definition fn_sqrt := SmoothFun sqrt (fun x => / (2 * sqrt x)) (fun x => - / (4 * (x * sqrt x))) (fun x => 0 < x).
Definition r_sign (x : R) : R := if Rlt_dec 0 x then 1 else if Rlt_dec x 0 then -1 else 0.
Definition fn_abs := SmoothFun Rabs r_sign (fun _ => 0) (fun x => x <> 0).
Definition fn_sign := SmoothFun r_sign (fun _ => 0) (fun _ => 0) (fun x => x <> 0).
Definition fn_sin := SmoothFun sin cos (fun x => - sin x) (fun _ => True).
Definition fn_cos := SmoothFun cos (fun x => - sin x) (fun x => - cos x) (fun _ => True).
Definition fn_tan := SmoothFun tan (fun x => 1 + tan x * tan x) (fun x => 2 * tan x * (1 + tan x * tan x)) (fun x => cos x <> 0).
Definition fn_atan := SmoothFun atan (fun x => / (1 + x * x)) (fun x => - (2 * x) / ((1 + x * x) * (1 + x * x))) (fun _ => True).
Definition fn_asin := SmoothFun asin (fun x => / sqrt (1 - x * x)) (fun x => x / ((1 - x * x) * sqrt (1 - x * x))) (fun x => -1 < x < 1).
Definition fn_acos := SmoothFun acos (fun x => - / sqrt (1 - x * x)) (fun x => - (x / ((1 - x * x) * sqrt (1 - x * x)))) (fun x => -1 < x < 1).
(** The error function is left out: its domain here is empty. *)
Definition fn_none := SmoothFun (fun x : R => x) (fun x => x) (fun x => x) (fun _ => False).
Definition real_fns (g : string) : smooth_fun R :=
  if (g =? "exp")%string then fn_exp else if (g =? "log")%string then fn_log else if (g =? "log10")%string then fn_log10
  else if (g =? "sqrt")%string then fn_sqrt else if (g =? "abs")%string then fn_abs else if (g =? "sign")%string then fn_sign
  else if (g =? "sin")%string then fn_sin else if (g =? "cos")%string then fn_cos else if (g =? "tan")%string then fn_tan
  else if (g =? "asin")%string then fn_asin else if (g =? "acos")%string then fn_acos else if (g =? "atan")%string then fn_atan
  else fn_none.

(** ** Powers *)

(** The integer that a number is. *)
Definition integer (k : R) : option Z := if Req_EM_T (IZR (Int_part k)) k then Some (Int_part k) else None.
(** A power with a whole exponent is a product (or its reciprocal); any other power is
    [exp (k ln x)], for positive [x]. *)
Definition real_pows (k : R) : smooth_fun R :=
  match integer k with
  | Some z => SmoothFun (fun x => powerRZ x z) (fun x => k * powerRZ x (z - 1)) (fun x => k * ((k - 1) * powerRZ x (z - 2))) (fun x => (0 <= z)%Z \/ x <> 0)
  | None => SmoothFun (fun x => Rpower x k) (fun x => k * Rpower x (k - 1)) (fun x => k * ((k - 1) * Rpower x (k - 2))) (fun x => 0 < x)
  end.

(** ** The operators: an exception outside of the domain *)
Definition guarded (b : bool) (v : R) : res R := if b then Ok v else Err GenericErr.
Definition is_pos (x : R) : bool := if Rlt_dec 0 x then true else false.
Definition is_zero (x : R) : bool := if Req_EM_T x 0 then true else false.
Definition real_fun (g : string) (x : R) : res R :=
  if (g =? "exp")%string then Ok (exp x) else if (g =? "log")%string then guarded (is_pos x) (ln x)
  else if (g =? "log10")%string then guarded (is_pos x) (ln x / ln 10) else if (g =? "sqrt")%string then guarded (negb (is_pos (- x))) (sqrt x)
  else if (g =? "abs")%string then Ok (Rabs x) else if (g =? "sign")%string then Ok (r_sign x)
  else if (g =? "sin")%string then Ok (sin x) else if (g =? "cos")%string then Ok (cos x) else if (g =? "tan")%string then Ok (tan x)
  else if (g =? "asin")%string then guarded (negb (is_pos (x * x - 1))) (asin x) else if (g =? "acos")%string then guarded (negb (is_pos (x * x - 1))) (acos x)
  else if (g =? "atan")%string then Ok (atan x) else Err GenericErr.
Definition real_power (x k : R) : res R :=
  match integer k with
  | Some z => guarded ((0 <=? z)%Z || negb (is_zero x)) (powerRZ x z)
  | None => guarded (is_pos x) (Rpower x k)
  end.
Definition real_ops : ops R := Ops R 0 (fun _ => false)
  (fun o x y => match o with
    | BAdd => Ok (x + y) | BSub => Ok (x - y) | BMul => Ok (x * y)
    | BDiv => guarded (negb (is_zero y)) (x / y)
    | BPow => real_power x y
    end)
  (fun o x => match o with UPos => Ok x | UNeg => Ok (- x) end)
  (fun _ _ _ => Err GenericErr) real_fun.

(** ** Derivatives, as in the standard library *)

(** A statement holds around zero. *)
Definition around (P : R -> Prop) : Prop := exists d : posreal, forall h, Rabs h < d -> P h.
(** [l] is the partial derivative in argument [j] at [x] of the quantity whose value at [y] is
    [v] when [Q y v]. *)
Definition real_partial (Q : list R -> R -> Prop) (x : list R) (j : nat) (l : R) : Prop :=
  exists f, around (fun h => Q (bump R RO x j h) (f h)) /\ derivable_pt_lim f 0 l.
Definition real_partial2 (Q : list R -> R -> Prop) (x : list R) (c d : nat) (l : R) : Prop :=
  real_partial (fun y => real_partial Q y c) x d l.
(** A quantity, divided by [t] or by [t^2], goes to zero with [t]. *)
Definition goes_to_zero (r : R -> R) : Prop := limit1_in r (fun t => t <> 0) 0 0.
