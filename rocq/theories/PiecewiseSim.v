(** Piecewise-linear solutions of models in any state: the models' states (ModelState.v) joined
    to the guess-and-verify loop (Occbin.v), the regimes (Piecewise.v) and the conditions
    (Constraint.v).  Model of pynare/core/solve/binding.py:129-368, 372-551, 764-828 and
    pynare/core/model.py:316-344. *)
From Verif Require Import Base Lexer Syntax Eval Factory Calib Indexing DynFunc Vars ExprList ModelState Nd Mat Linearize Steady SteadyValues FirstOrder SecondOrder Pipeline
  Constraint Occbin Piecewise.

Section PiecewiseSim.
  Variable F : Type.
  Variable O : rops F.
  Variable P : ops F.
  Variable isnum : F -> bool.
  Variable nan : F.
  Variable minimize : solver -> (list F -> res F) -> list F -> res (list F).
  Variable grad : (list F -> res F) -> list F -> res (list F).
  Variable inv : nat -> mat F -> res (mat F).
  Variable space : list (option F) -> steady_repr F -> repr F -> res (space_of F).
  Variable solver_ : option (rules F * matrix F) -> list (option F) -> steady_repr F -> repr F -> space_of F -> res (rules F).
  Notation mstate := (ModelState.mstate F (space_of F) (rules F)).
  Notation definition := (ModelState.definition F (space_of F) (rules F)).
  Notation derived := (ModelState.derived F (space_of F) (rules F)).

  (** The names that binding.py:900-930 compares; [names] of a concatenated array is an
      AttributeError. *)
  Definition names_of (m : mstate) : res names :=
    do ns <- endog_names F (definition m);
    do ss <- stoch_names F (definition m);
    Ok (Names ns ss (keys (solved F (d_params F (definition m))))).
  Definition goes_with (mr ma : mstate) : res unit :=
    do a <- names_of mr; do b <- names_of ma;
    match ensure_match a b with None => Ok tt | Some _ => Err GenericErr end.

  (** binding.py:815-826 and model.py:316-344: a model that has a solution is not solved again;
      of a second-order one the first-order part is used. *)
  Definition rule_parts (s : rules F) : nd F * nd F :=
    match s with Pipeline.First gy gu => (gy, gu) | Pipeline.Second gy gu _ _ _ _ => (gy, gu) end.
  Definition rules_of (m : mstate) : mstate * res (nd F * nd F) :=
    match (match solution _ _ _ m with Some s => (m, Ok s) | None => ModelState.solve F P (r0 O) isnum _ _ space solver_ 1 m end) with
    | (m1, Ok s) => (m1, Ok (rule_parts s))
    | (m1, Err e) => (m1, Err e)
    end.

  (** generic.py:326-345: what is read from an altered model is brought up to date first. *)
  Definition up_to_date (m : mstate) : res mstate :=
    match ensure F P (r0 O) isnum _ _ space (altered _ _ _ m) m with (m1, Ok _) => Ok m1 | (_, Err e) => Err e end.
  (** generic.py:188-194 *)
  Definition own_ss (m : mstate) : res (list F) :=
    ss_values F O P nan minimize (map ev_init (d_endog F (definition m))) (c_steady _ _ (derived m)) (c_dynamic _ _ (derived m)).

  (** binding.py:289-297: the reference regime and its steady state.  Its residuals are not
      computed: it is taken to be at rest. *)
  Definition reference (m : mstate) : res (regime F * list F) :=
    do m1 <- up_to_date m;
    do ss <- own_ss m1;
    let dy := c_dynamic _ _ (derived m1) in
    do A <- model_jacobian F P (r0 O) grad dy ss;
    Ok (Regime F (r_index F dy) (match A with M2 _ _ J => J | V1 _ J => fun i _ => J i | S0 x => fun _ _ => x end) (vzero F O), ss).
  (** binding.py:297-300, 456-461: another regime, with the steady state [ref] of the reference. *)
  Definition other_regime (ref : list F) (m : mstate) : res (regime F) :=
    do m1 <- up_to_date m;
    do ss <- own_ss m1;
    regime_of_model F O P grad (c_dynamic _ _ (derived m1)) ss ref.

  (** binding.py:227-368 [solve_occbin_one_constraint] and 372-551
      [solve_occbin_two_constraints].  Simplifications: the order in which errors are found, and what
      becomes of the models (their solution and update), are left out. *)
  Definition models_one (mr ma : mstate) (constr : list (vec F) -> res (list (bool * bool)))
      (e : exog_index) (shocks : shock_array F) (init : option (vec F)) (periods : option nat) (max_iter : nat)
      : res (list (vec F) * list bool * list (list F)) :=
    do _ <- goes_with mr ma;
    let (m1, g) := rules_of mr in
    do g <- g;
    do r <- reference m1;
    do a <- other_regime (snd r) ma;
    occbin_one F O inv (fst r) a (fst g) (snd g) constr e shocks init periods max_iter.
  Definition models_two (mr m0 m1 md : mstate) (constr : list (vec F) -> res (list (bool * bool)))
      (e : exog_index) (shocks : shock_array F) (init : option (vec F)) (periods : option nat) (max_iter : nat) (restrained : bool)
      : res (list (vec F) * list bool * list (list F)) :=
    do _ <- goes_with mr m0; do _ <- goes_with mr m1; do _ <- goes_with mr md;
    let (mr1, g) := rules_of mr in
    do g <- g;
    do r <- reference mr1;
    do a0 <- other_regime (snd r) m0;
    do a1 <- other_regime (snd r) m1;
    do d <- other_regime (snd r) md;
    occbin_two F O inv (fst r) a0 a1 d (fst g) (snd g) constr e shocks init periods max_iter restrained.

  (** The conditions are evaluated with another type of values, for booleans among them. *)
  Variable V : Type.
  Variable PV NV : ops V.
  Variable truth : V -> option bool.
  Variable num : F -> V.
  (** binding.py:156-161, 108-128: the variables and parameters of the model given. *)
  Definition condition_values (m : mstate) (c : conditions V) (g : list (vec F)) : res (list (bool * bool)) :=
    let d := definition m in
    call_constraint V PV NV truth c (map ev_name (d_endog F d)) (List.length (d_endog F d))
      (map (fun p => (fst p, num (snd p))) (solved F (d_params F d))) (map (fun v j => num (v j)) g).

  Variable one : F.
  Variable truthy : F -> bool.
  Variable float_of : text -> option F.
  Variable trunc : F -> option Z.
  Variable parse_text : text -> res (ast F).
  Variable default_locals : store F.
  (** binding.py:129-225 [OccBinSolution(model, constraint, exprs, ...).solve(...)] *)
  Definition occbin_paths (m : mstate) (rs : replacements F) (c : conditions V)
      (e : exog_index) (shocks : shock_array F) (init : option (vec F)) (periods : option nat) (max_iter : nat) (restrained : bool)
      : res (list (vec F) * list bool * list (list F)) :=
    do R <- new_regimes F P (r0 O) one truthy float_of trunc parse_text default_locals _ _ space false rs m;
    let ms := r_models _ _ _ R in
    do p <- plan (constraint_len V c) (List.length ms);
    match p with
    | OneAlternative i j =>
        match nth_error ms i, nth_error ms j with
        | Some mr, Some ma => models_one mr ma (condition_values m c) e shocks init periods max_iter
        | _, _ => Err IndexErr
        end
    | ThreeAlternatives i j k l =>
        match nth_error ms i, nth_error ms j, nth_error ms k, nth_error ms l with
        | Some mr, Some m0, Some m1, Some md => models_two mr m0 m1 md (condition_values m c) e shocks init periods max_iter restrained
        | _, _, _, _ => Err IndexErr
        end
    end.
End PiecewiseSim.
