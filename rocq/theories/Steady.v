(** Choice of the steady-state solver: model of pynare/core/steady.py:25-59, 110-249. *)
From Verif Require Import Base.

(** The three functions at steady.py:110-196. *)
Inductive solver := Dogleg | ConjugateGradient | NelderMead.

(** The values of the tables: functions and, for the numbers without one, a description. *)
Inductive entry := Function (s : solver) | Description (s : string).

(** A method argument: text; an [int], [float] or [bool], of which [int()] takes the whole
    part (ValueError for nan, OverflowError for infinity); anything else, of which only the
    truth value matters (which may be an exception, as for arrays). *)
Inductive method := Text (s : string) | Number (n : res Z) | Other (truth : res bool).

(** steady.py:203 *)
Definition default_number : Z := 8.
(** steady.py:204-217 *)
Definition dynare_mappings (n : Z) : option entry :=
  match n with
  | 0 => Some (Function Dogleg)
  | 1 => Some (Description "dynares own nonlinear solver")
  | 2 => Some (Description "split model into recursive blocks and perform (1)")
  | 3 => Some (Description "chris sims solver")
  | 4 => Some (Description "split model into blocks and use trust-region")
  | 5 => Some (Description "newton algo with sparse Gaussian elimination")
  | 6 => Some (Description "newton algo with sparse LU solver")
  | 7 => Some (Description "newton algo with generalized minimal residual")
  | 8 => Some (Function ConjugateGradient)
  | 9 => Some (Description "trust-region algo on entire model")
  | 10 => Some (Description "levenberg-marquardt mixed with complementatiry problem")
  | 11 => Some (Description "Ferris and Munson PATH solver")
  | _ => None
  end%Z.
(** steady.py:220-222: a dictionary with a text key *)
Definition nonlang_mappings (m : method) : res entry :=
  match m with
  | Text s => if String.eqb s "nelder-mead" then Ok (Function NelderMead) else Err KeyErr
  | _ => Err KeyErr
  end.

(** steady.py:230-246; [None] is what python returns at the end of the function. *)
Definition manager_try (language : string) (m : method) : res (option entry) :=
  if String.eqb language "dynare" then
    do select <- match m with
                 | Text s => if String.eqb s "" then Ok default_number else Err KeyErr
                 | Number n => n
                 | Other truth => do t <- truth; if t : bool then Err UnboundErr else Ok default_number
                 end;
    match dynare_mappings select with Some e => Ok (Some e) | None => Err KeyErr end
  else Ok None.
(** steady.py:224-249 *)
Definition manager (language : string) (m : method) : res (option entry) :=
  match manager_try language m with
  | Err KeyErr => do e <- nonlang_mappings m; Ok (Some e)
  | r => r
  end.

(** steady.py:51-57: the entry is called; [Ok] is the optimiser that then runs.  Neither
    text nor None can be called; the dog-leg function raises (line 132). *)
Definition compute (language : string) (m : method) : res solver :=
  do e <- manager language m;
  match e with
  | Some (Function Dogleg) => Err NotImplErr
  | Some (Function s) => Ok s
  | Some (Description _) => Err TypeErr
  | None => Err TypeErr
  end.
