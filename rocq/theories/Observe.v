(** Models with observed variables: model of pynare/stats/observation.py:28-70, on top of
    the states of ModelState.v. *)
From Verif Require Import Base Syntax Lexer Parser Eval Semantics Factory Calib Indexing DynFunc Vars ExprList ModelState.

Section Observe.
  Variable V : Type.
  Variable O : ops V.
  Variable zero : V.
  Variable truthy : V -> bool.
  Variable float_of : text -> option V.
  Variable trunc : V -> option Z.
  Variable parse_text : text -> res (ast V).
  (** The float that None becomes in an array of floats. *)
  Variable nan : V.
  Variable space_t sol_t : Type.
  Variable space : list (option V) -> steady_repr V -> repr V -> res space_t.
  Notation mstate := (ModelState.mstate V space_t sol_t).
  Notation definition := (ModelState.definition V space_t sol_t).

  (** observation.py:50: [' = '.join((k, v))]. *)
  Definition observation (p : string * text) : given V := GText (chars (fst p) ++ chars " = " ++ snd p).

  (** observation.py:63-65 with generic.py:197-202, 310-319: the values in arrays of floats,
      then in dictionaries by name; None has become nan. *)
  Definition as_float (o : option V) : V := match o with Some v => v | None => nan end.
  Definition by_name (f : evar V -> option V) (l : list (evar V)) : list (string * V) :=
    fold_left (fun s v => Base.update (ev_name v) (as_float (f v)) s) l [].

  (** observation.py:33-70, generic.py:36-68, 135-155, 217-265.  The model afterwards and
      the observed model: the variables of the model are handed over as they are
      (variables.py:275-276) and get the lead-lag sets of all equations in place
      (generic.py:152); then new ones are made.  The shocks are shared.  The scope is that
      of the parameters alone: an observed model is no Model (generic.py:60-64,
      model.py:289-291), which is written as having no local parameters. *)
  Definition observe (eqs : list (string * text)) (m : mstate) : mstate * res mstate :=
    match eqs with
    | [] => (m, Err ValueErr)
    | _ :: _ =>
    let d := definition m in
    match extend V parse_text (map observation eqs) (d_exprs V d) with
    | (_, Err e) => (m, Err e)
    | (ex, Ok _) =>
    if negb (d_en_ok V d) then (m, Err AttrErr) else
    match new_calibration V O float_of trunc (Nested (d_params V d)) with
    | Err e => (m, Err e)
    | Ok pc =>
    let names := map ev_name (d_endog V d) ++ map fst eqs in
    match Indexing.set_lead_lags V names (trees ex) with
    | Err e => (m, Err e)
    | Ok lls =>
    let m' := change V space_t sol_t (set_endog V (with_lead_lags V (d_endog V d) lls) d) m in
    (m',
     do st <- new_steady V names (trees ex) (solved V pc);
     let endog := create_endog V zero truthy names (by_name ev_init (d_endog V d)) (by_name ev_term (d_endog V d))
                    (by_name ev_hist (d_endog V d)) lls in
     do x <- index_of V endog (List.length (d_stoch V d));
     do dy <- new_dynamic V names (map sv_name (d_stoch V d)) (trees ex) (solved V pc) x;
     do sp <- space (map ev_init endog) st dy;
     Ok (MState V space_t sol_t (Defs V endog true (d_stoch V d) true (d_determ V d) pc (Cal (Plain []) []) ex)
           (Cache V space_t x st dy sp None) false None))
    end end end end.

  (** The two models share the object with the parameters of the first
      (observation.py:58, generic.py:58, variables.py:785-786): what an assignment to the
      parameters of the observed model does to both, and one to those of the model
      (generic.py:98-115). *)
  Definition with_params (k : calibration V) (d : defs V) : defs V :=
    Defs V (d_endog V d) (d_en_ok V d) (d_stoch V d) (d_st_ok V d) (d_determ V d) k (d_locals V d) (d_exprs V d).
  Definition observed_params (ps : list (string * pdef V)) (m ob : mstate) : mstate * mstate * res unit :=
    let (ob', r) := add_params V O float_of trunc space_t sol_t ps ob in
    (match d_params V (definition ob') with
     | Cal (Nested k) _ => change V space_t sol_t (with_params k (definition m)) m
     | _ => m
     end, ob', r).
  Definition model_params (ps : list (string * pdef V)) (m ob : mstate) : mstate * mstate * res unit :=
    let (m', r) := add_params V O float_of trunc space_t sol_t ps m in
    (m', match d_params V (definition ob) with
         | Cal (Nested _) c => change V space_t sol_t (with_params (Cal (Nested (d_params V (definition m'))) c) (definition ob)) ob
         | _ => ob
         end, r).
End Observe.
