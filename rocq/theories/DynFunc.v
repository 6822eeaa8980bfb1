(** The callable representations of a model: model of pynare/core/expressions.py:120-230. *)
From Verif Require Import Base Syntax Lexer Parser Eval Semantics Factory Indexing.

Section Repr.
  Variable V : Type.
  Variable O : ops V.
  Variable zero : V.

  (** What a representation reads from the model: names in declaration order, the
      equations, the parameters (with local definitions: [model_scope]) and the
      lead-lag index (generic.py:151-155, 263-264). *)
  Record repr := Repr {
    r_endog : list string; r_stoch : list string; r_exprs : list (ast V);
    r_params : list (string * V); r_index : indexes
  }.

  (** The lead-lag sets are read from the equations and the index is built from them
      (generic.py:152, 263, variables.py:404-431, 531-567). *)
  Definition build (endog stoch : list string) (exprs : list (ast V)) (params : list (string * V)) : res repr :=
    do lls <- set_lead_lags V endog exprs;
    do x <- index_manager lls (List.length stoch);
    Ok (Repr endog stoch exprs params x).

  (** expressions.py:154-167 [SteadyRepr] with [ModelRepr.__call__], 140-146, and
      [vectorize_functions], 533-554. *)
  Definition steady_call (m : repr) (var : list V) : res (list V) :=
    if List.length var =? List.length (r_endog m)
    then mapM (fun e => steady_func V O zero e (r_endog m) (r_params m) var) (r_exprs m)
    else Err ValueErr.

  (** expressions.py:178-230 [DynamicRepr]: the shocks can be left out. *)
  Definition dynamic_call (m : repr) (var : list V) : res (list V) :=
    let names := dyn_vars (r_index m) (r_endog m) (r_stoch m) in
    let run v := mapM (fun e => dynamic_func V O e names (r_params m) v) (r_exprs m) in
    let n := n_endog_inc (r_index m) in
    if List.length var =? n + List.length (r_stoch m) then run var
    else if List.length var =? n then run (var ++ repeat zero (List.length (r_stoch m)))
    else Err ValueErr.

  (** linearizing.py:52-63: where the Jacobian is evaluated. *)
  Definition steady_point (m : repr) (ss : list V) : list V :=
    stacked (r_index m) ss zero (List.length (r_stoch m)).
End Repr.
