(** The state of a model: definitions, derived structures and the solution.  Model of
    pynare/core/generic.py, pynare/core/model.py:30-205, 289-345, pynare/regimes.py and
    of the parts of pynare/simul.py that read the model. *)
From Verif Require Import Base Syntax Lexer Parser Eval Semantics Factory Calib Indexing DynFunc Vars ExprList.

Section ModelState.
  Variable V : Type.
  Variable O : ops V.
  Variable zero one : V.
  Variable truthy isnum : V -> bool.
  Variable float_of : text -> option V.
  Variable trunc : V -> option Z.
  Variable parse_text : text -> res (ast V).
  (** Whether [np.concatenate] of two VarArrays (generic.py:94, 285, 306) is a VarArray
      (with [names]) or a plain array.  The hook meant to keep the class
      (variables.py:51-71) has the name of the hook for ufuncs, which concatenate is not;
      numpy then chooses by [__array_priority__], which VarArray does not set, and the
      result is a plain array.  That is numpy's behaviour as documented, not observed
      here; both cases are treated. *)
  Variable keeps : bool.
  (** Default of the keyword [local_params] (model.py:40). *)
  Variable default_locals : store V.

  (** expressions.py:154-167: what the steady-state representation is built from. *)
  Record steady_repr := SRepr { s_endog : list string; s_exprs : list (ast V); s_params : list (string * V) }.

  (** The state space (statespace.py:19-41) and the solutions are numerical results; any
      functions of what they read stand for them.  [space] reads the initial values
      and the two representations; [solver] the same, the state space and, for the
      second order, the first-order solution (second_order.py:25) and the covariance
      matrix (201). *)
  Variable space_t sol_t : Type.
  Variable space : list (option V) -> steady_repr -> repr V -> res space_t.
  Variable solver : option (sol_t * matrix V) -> list (option V) -> steady_repr -> repr V -> space_t -> res sol_t.

  (** ** Definitions and derived structures *)

  (** [d_en_ok], [d_st_ok]: the array of variables has [names]. *)
  Record defs := Defs {
    d_endog : list (evar V); d_en_ok : bool;
    d_stoch : list (svar V); d_st_ok : bool;
    d_determ : list (dvar V);
    d_params : calibration V; d_locals : calibration V;
    d_exprs : mexprs V
  }.
  (** generic.py:263-265, 427-438.  [_sigma] is not there before the first update. *)
  Record cache := Cache {
    c_index : indexes; c_steady : steady_repr; c_dynamic : repr V; c_space : space_t;
    c_sigma : option (matrix V)
  }.
  Record mstate := MState { definition : defs; derived : cache; altered : bool; solution : option sol_t }.

  (** model.py:289-291: [{**self.params, **self.local_params}] *)
  Definition merge (a b : list (string * V)) : list (string * V) :=
    fold_left (fun d p => update (fst p) (snd p) d) b a.
  Definition model_scope (d : defs) : list (string * V) := merge (solved V (d_params d)) (solved V (d_locals d)).

  Definition set_endog (e : list (evar V)) (d : defs) : defs :=
    Defs e (d_en_ok d) (d_stoch d) (d_st_ok d) (d_determ d) (d_params d) (d_locals d) (d_exprs d).

  (** [self.endog.names], [self.stoch.names] *)
  Definition endog_names (d : defs) : res (list string) :=
    if d_en_ok d then Ok (map ev_name (d_endog d)) else Err AttrErr.
  Definition stoch_names (d : defs) : res (list string) :=
    if d_st_ok d then Ok (map sv_name (d_stoch d)) else Err AttrErr.

  (** variables.py:404-471.  Without [names] the keys of the record are the variables
      themselves, no name is counted, and looking a name up fails (line 428). *)
  Definition lead_lags (d : defs) : res (list (string * list Z)) :=
    if d_en_ok d then Indexing.set_lead_lags V (map ev_name (d_endog d)) (trees (d_exprs d))
    else do _ <- read_lead_lags V [] (trees (d_exprs d));
         match d_endog d with [] => Ok [] | _ => Err KeyErr end.
  (** variables.py:427-429: set in place, in order. *)
  Definition with_lead_lags (e : list (evar V)) (lls : list (string * list Z)) : list (evar V) :=
    map (fun p => let v := fst p in Evar (ev_name v) (ev_init v) (ev_term v) (ev_hist v) (Some (snd (snd p)))) (combine e lls).

  (** variables.py:537: sorting None is a TypeError. *)
  Definition index_of (e : list (evar V)) (n_stoch : nat) : res indexes :=
    do lls <- mapM (fun v => match ev_ll v with Some ps => Ok (ev_name v, ps) | None => Err TypeErr end) e;
    index_manager lls n_stoch.

  (** expressions.py:154-167: the equations are substituted when the object is made. *)
  Definition new_steady (names : list string) (exprs : list (ast V)) (scope : list (string * V)) : res steady_repr :=
    do _ <- mapM (steady_substitution V scope) exprs;
    Ok (SRepr names exprs scope).
  (** expressions.py:178-205 *)
  Definition new_dynamic (names stoch : list string) (exprs : list (ast V)) (scope : list (string * V)) (x : indexes)
    : res (repr V) :=
    do _ <- mapM (dynamic_substitution V scope) exprs;
    Ok (Repr V names stoch exprs scope x).

  (** ** Construction *)

  (** The equations may be given as a list or an iterator of strings and trees, or as a
      collection, which is shared (expressions.py:34-36). *)
  Inductive esource := FromList (oneshot : bool) (gs : list (given V)) | FromExprs (x : mexprs V).
  Definition make_exprs (s : esource) : res (mexprs V) :=
    match s with FromList b gs => new_exprs V parse_text b gs | FromExprs x => Ok x end.

  (** The arguments of Model (model.py:32-46). *)
  Record args := Args {
    g_endog : list string; g_stoch : list string; g_determ : list string;
    g_params : store V; g_locals : store V;
    g_shocks : list (string * shockdef V); g_exprs : esource;
    g_init : list (string * V); g_term : list (string * V); g_hist : list (string * V)
  }.

  (** [np.count_nonzero] of a list of names: empty strings are zeros. *)
  Definition nonzero (names : list string) : bool := negb (forallb (String.eqb "") names).

  (** model.py:48-62, generic.py:36-68, 135-155, 217-265.  The dictionary of lead-lag
      sets (generic.py:244) is written as the list; equal names have equal sets. *)
  Definition new_model (a : args) : res mstate :=
    do lc <- new_calibration V O float_of trunc (g_locals a);
    let names := if nonzero (g_endog a) then g_endog a else [] in
    do pc <- new_calibration V O float_of trunc (g_params a);
    do ex <- make_exprs (g_exprs a);
    do lls <- Indexing.set_lead_lags V names (trees ex);
    let scope := merge (solved V pc) (solved V lc) in
    do st <- new_steady names (trees ex) scope;
    let endog := create_endog V zero truthy names (g_init a) (g_term a) (g_hist a) lls in
    do stoch <- (if nonzero (g_stoch a) then create_stoch V one (g_stoch a) (g_shocks a) else Ok []);
    do determ <- (if nonzero (g_determ a) then create_determ V one (g_determ a) (g_shocks a) else Ok []);
    do x <- index_of endog (List.length stoch);
    do dy <- new_dynamic names (map sv_name stoch) (trees ex) scope x;
    do sp <- space (map ev_init endog) st dy;
    Ok (MState (Defs endog true stoch true determ pc lc ex) (Cache x st dy sp None) false None).

  (** model.py:103-149 [from_outline] *)
  Definition outline_args (o : outline V) : args :=
    Args (o_endo V o) (o_stoch V o) (o_det V o) (Plain (outline_defs o))
      (Plain (map (fun kv => (fst kv, DNum (snd kv))) (o_locals V o)))
      (outline_shocks o) (FromList false (map GTree (o_exprs V o)))
      (o_init V o) (o_term V o) (o_hist V o).

  (** ** Updates and reads *)

  (** generic.py:427-438 [update]: one attribute after the other; an exception leaves
      the rest as it was, with [is_altered] already False. *)
  Definition update (m : mstate) : mstate * res unit :=
    let c := derived m in
    let fail d c e := (MState d c false (solution m), Err e) in
    let d0 := definition m in
    match lead_lags d0 with
    | Err e => fail d0 c e
    | Ok lls =>
    let d := set_endog (with_lead_lags (d_endog d0) lls) d0 in
    match (do _ <- stoch_names d; define_sigma V zero O isnum (d_stoch d)) with
    | Err e => fail d c e
    | Ok sg =>
    let c1 := Cache (c_index c) (c_steady c) (c_dynamic c) (c_space c) (Some sg) in
    match index_of (d_endog d) (List.length (d_stoch d)) with
    | Err e => fail d c1 e
    | Ok x =>
    let c2 := Cache x (c_steady c) (c_dynamic c) (c_space c) (Some sg) in
    match (do ns <- endog_names d; new_steady ns (trees (d_exprs d)) (model_scope d)) with
    | Err e => fail d c2 e
    | Ok st =>
    let c3 := Cache x st (c_dynamic c) (c_space c) (Some sg) in
    match (do ns <- endog_names d; do ss <- stoch_names d; new_dynamic ns ss (trees (d_exprs d)) (model_scope d) x) with
    | Err e => fail d c3 e
    | Ok dy =>
    let c4 := Cache x st dy (c_space c) (Some sg) in
    match space (map ev_init (d_endog d)) st dy with
    | Err e => fail d c4 e
    | Ok sp => (MState d (Cache x st dy sp (Some sg)) false (solution m), Ok tt)
    end end end end end end.

  Definition ensure (need : bool) (m : mstate) : mstate * res unit :=
    if need then update m else (m, Ok tt).

  Inductive reading := RIndexes | RSteady | RDynamic | RSpace | RSigma.
  Inductive value :=
  | VIndexes (x : indexes) | VSteady (s : steady_repr) | VDynamic (r : repr V) | VSpace (s : space_t)
  | VSigma (m : matrix V).
  Definition cached (r : reading) (c : cache) : res value :=
    match r with
    | RIndexes => Ok (VIndexes (c_index c))
    | RSteady => Ok (VSteady (c_steady c))
    | RDynamic => Ok (VDynamic (c_dynamic c))
    | RSpace => Ok (VSpace (c_space c))
    | RSigma => match c_sigma c with Some s => Ok (VSigma s) | None => Err AttrErr end
    end.
  Definition no_sigma (m : mstate) : bool := match c_sigma (derived m) with None => true | Some _ => false end.
  (** generic.py:177-186, 326-359 *)
  Definition read (r : reading) (m : mstate) : mstate * res value :=
    let need := match r with RSigma => altered m || no_sigma m | _ => altered m end in
    match ensure need m with
    | (m1, Err e) => (m1, Err e)
    | (m1, Ok _) => (m1, cached r (derived m1))
    end.

  (** ** Additions *)

  Definition alter (d : defs) (m : mstate) : mstate := MState d (derived m) true (solution m).
  Definition change (d : defs) (m : mstate) : mstate := MState d (derived m) (altered m) (solution m).

  (** generic.py:77-96; the bounds are dictionaries or one value for all. *)
  Definition add_endog (names : list string) (init term hist : string -> option V) (m : mstate) : mstate * res unit :=
    let d := definition m in
    let new := map (fun x => new_evar V zero truthy x (init x) (term x) (hist x) None) names in
    (alter (Defs (d_endog d ++ new) keeps (d_stoch d) (d_st_ok d) (d_determ d) (d_params d) (d_locals d) (d_exprs d)) m, Ok tt).

  (** generic.py:98-115: an assignment that fails leaves the earlier ones made, and the
      model is not marked as altered. *)
  Fixpoint set_params (ps : list (string * pdef V)) (k : calibration V) : calibration V * res unit :=
    match ps with
    | [] => (k, Ok tt)
    | (x, p) :: ps' =>
        match set_param V O float_of trunc x p k with
        | (k1, None) => set_params ps' k1
        | (k1, Some e) => (k1, Err e)
        end
    end.
  Definition add_params (ps : list (string * pdef V)) (m : mstate) : mstate * res unit :=
    let d := definition m in
    let (k, r) := set_params ps (d_params d) in
    let d' := Defs (d_endog d) (d_en_ok d) (d_stoch d) (d_st_ok d) (d_determ d) k (d_locals d) (d_exprs d) in
    (match r with Ok _ => alter d' m | Err _ => change d' m end, r).

  (** generic.py:157-175 *)
  Definition add_exprs (gs : list (given V)) (m : mstate) : mstate * res unit :=
    let d := definition m in
    let (x, r) := extend V parse_text gs (d_exprs d) in
    let d' := Defs (d_endog d) (d_en_ok d) (d_stoch d) (d_st_ok d) (d_determ d) (d_params d) (d_locals d) x in
    (match r with Ok _ => alter d' m | Err _ => change d' m end, r).

  (** generic.py:268-308 *)
  Definition add_stoch (names : list string) (shocks : list (string * shockdef V)) (m : mstate) : mstate * res unit :=
    let d := definition m in
    match create_stoch V one names shocks with
    | Err e => (m, Err e)
    | Ok new => (alter (Defs (d_endog d) (d_en_ok d) (d_stoch d ++ new) keeps (d_determ d) (d_params d) (d_locals d) (d_exprs d)) m, Ok tt)
    end.
  Definition add_determ (names : list string) (shocks : list (string * shockdef V)) (m : mstate) : mstate * res unit :=
    let d := definition m in
    match create_determ V one names shocks with
    | Err e => (m, Err e)
    | Ok new => (alter (Defs (d_endog d) (d_en_ok d) (d_stoch d) (d_st_ok d) (d_determ d ++ new) (d_params d) (d_locals d) (d_exprs d)) m, Ok tt)
    end.

  (** ** Solving *)

  (** What is left of a solve when the structures are up to date: the numerical part, and
      storing the solution (model.py:204-205). *)
  Definition finish (lower : option (sol_t * matrix V)) (m : mstate) : mstate * res sol_t :=
    let c := derived m in
    match solver lower (map ev_init (d_endog (definition m))) (c_steady c) (c_dynamic c) (c_space c) with
    | Err e => (m, Err e)
    | Ok s => (MState (definition m) c (altered m) (Some s), Ok s)
    end.
  (** model.py:196-197, first_order.py:19-25 *)
  Definition solve_one (m : mstate) : mstate * res sol_t :=
    match ensure (altered m) m with
    | (m1, Err e) => (m1, Err e)
    | (m1, Ok _) => finish None m1
    end.
  (** model.py:198-199, second_order.py:22-34: the first-order solution is computed with
      [model.solve(order=1)], which stores it; the covariance matrix is read after it.  Simplification: it is read
      before the numerical part of the second order begins. *)
  Definition solve_two (m : mstate) : mstate * res sol_t :=
    match solve_one m with
    | (m1, Err e) => (m1, Err e)
    | (m1, Ok s1) =>
        match ensure (altered m1 || no_sigma m1) m1 with
        | (m2, Err e) => (m2, Err e)
        | (m2, Ok _) =>
            match c_sigma (derived m2) with
            | Some sg => finish (Some (s1, sg)) m2
            | None => (m2, Err AttrErr)
            end
        end
    end.
  (** model.py:192-205 with solve/__init__.py:19 (default order 2). *)
  Definition solve (order : nat) (m : mstate) : mstate * res sol_t :=
    let o := if order =? 0 then 2 else order in
    if o =? 1 then solve_one m else if o =? 2 then solve_two m else (m, Err ValueErr).

  (** model.py:302-313 *)
  Definition read_solution (m : mstate) : mstate * res sol_t :=
    match solution m with Some s => (m, Ok s) | None => solve 2 m end.

  (** simul.py:312-324 and 154-156: the solution, then an update; the simulation uses the
      solution and the steady state of the updated model.  Impulse responses are
      simulations without an order (impulse.py:83). *)
  Definition simulate (order : nat) (m : mstate) : mstate * res (sol_t * space_t) :=
    match (if order =? 0 then match solution m with Some s => (m, Ok s) | None => solve 0 m end else solve order m) with
    | (m1, Err e) => (m1, Err e)
    | (m1, Ok s) =>
        match update m1 with
        | (m2, Err e) => (m2, Err e)
        | (m2, Ok _) => (m2, Ok (s, c_space (derived m2)))
        end
    end.

  (** ** Histories *)

  Inductive op :=
  | AddEndog (names : list string) (init term hist : string -> option V)
  | AddParams (ps : list (string * pdef V))
  | AddExprs (gs : list (given V))
  | AddStoch (names : list string) (shocks : list (string * shockdef V))
  | AddDeterm (names : list string) (shocks : list (string * shockdef V))
  | Read (r : reading) | Solve (order : nat) | ReadSolution | Simulate (order : nat).
  Inductive out := ODone | OValue (v : value) | OSolution (s : sol_t) | OSimulation (s : sol_t) (sp : space_t).

  Definition ok_with {A} (f : A -> out) (p : mstate * res A) : mstate * res out :=
    (fst p, do a <- snd p; Ok (f a)).
  Definition step (o : op) (m : mstate) : mstate * res out :=
    match o with
    | AddEndog ns i t h => ok_with (fun _ => ODone) (add_endog ns i t h m)
    | AddParams ps => ok_with (fun _ => ODone) (add_params ps m)
    | AddExprs gs => ok_with (fun _ => ODone) (add_exprs gs m)
    | AddStoch ns d => ok_with (fun _ => ODone) (add_stoch ns d m)
    | AddDeterm ns d => ok_with (fun _ => ODone) (add_determ ns d m)
    | Read r => ok_with OValue (read r m)
    | Solve o => ok_with OSolution (solve o m)
    | ReadSolution => ok_with OSolution (read_solution m)
    | Simulate o => ok_with (fun p => OSimulation (fst p) (snd p)) (simulate o m)
    end.

  (** The user catches exceptions and goes on. *)
  Fixpoint run (os : list op) (m : mstate) : mstate * list (op * res out) :=
    match os with
    | [] => (m, [])
    | o :: os' => let (m1, r) := step o m in let (m2, l) := run os' m1 in (m2, (o, r) :: l)
    end.

  (** ** Copies and regimes *)

  Definition entries (f : evar V -> option V) (l : list (evar V)) : list (string * V) :=
    fold_left (fun d v => match f v with Some a => Base.update (ev_name v) a d | None => d end) l [].

  (** generic.py:441-498; the parameters are handed over as a calibration
      ([Nested]), and [local_params] is not handed over. *)
  Definition copy_args (d : defs) : args :=
    let sh1 := fold_left (fun s k => Base.update (sv_name k) (DStoch (Some (sv_other k)) (sv_variance k) (sv_corr k) (sv_cov k)) s)
                 (d_stoch d) [] in
    let sh2 := fold_left (fun s k => Base.update (dv_name k) (DDet (dv_periods k) (dv_values k)) s) (d_determ d) sh1 in
    Args (map ev_name (d_endog d)) (map sv_name (d_stoch d)) (map dv_name (d_determ d))
      (Nested (d_params d)) default_locals sh2 (FromExprs (d_exprs d))
      (entries ev_init (d_endog d)) (entries ev_term (d_endog d)) (entries ev_hist (d_endog d)).
  Definition copy (m : mstate) : res mstate := new_model (copy_args (definition m)).

  (** [mc.exprs[eq] = expr] for the entries of a dictionary. *)
  Fixpoint replace_exprs (kvs : list (Z * given V)) (x : mexprs V) : res (mexprs V) :=
    match kvs with
    | [] => Ok x
    | (k, g) :: kvs' =>
        match ExprList.set V parse_text k g x with
        | (x1, Ok _) => replace_exprs kvs' x1
        | (_, Err e) => Err e
        end
    end.
  Definition alternative (kvs : list (Z * given V)) (m : mstate) : res mstate :=
    do mc <- copy m;
    let d := definition mc in
    do x <- replace_exprs kvs (d_exprs d);
    Ok (alter (Defs (d_endog d) (d_en_ok d) (d_stoch d) (d_st_ok d) (d_determ d) (d_params d) (d_locals d) x) mc).

  (** regimes.py:27-68.  [r_count] is what [__len__] computes: the length of the argument
      plus one. *)
  Inductive replacements := OneRegime (kvs : list (Z * given V)) | Regimes (ds : list (list (Z * given V))).
  Record regimes := RegimeModel { r_models : list mstate; r_count : nat }.
  Definition new_regimes (sigma_given : bool) (r : replacements) (m : mstate) : res regimes :=
    if sigma_given then Err NotImplErr else
    match r with
    | OneRegime [] | Regimes [] => Err ValueErr
    | OneRegime kvs => do mc <- alternative kvs m; Ok (RegimeModel [m; mc] (List.length kvs + 1))
    | Regimes ds =>
        do m0 <- copy m;
        do ms <- mapM (fun kvs => alternative kvs m) ds;
        Ok (RegimeModel (m0 :: ms) (List.length ds + 1))
    end.
End ModelState.
Arguments SRepr {V}. Arguments FromList {V}. Arguments FromExprs {V}.
Arguments VIndexes {V space_t}. Arguments VSteady {V space_t}. Arguments VDynamic {V space_t}.
Arguments VSpace {V space_t}. Arguments VSigma {V space_t}.
Arguments AddEndog {V}. Arguments AddParams {V}. Arguments AddExprs {V}. Arguments AddStoch {V}.
Arguments AddDeterm {V}. Arguments Read {V}. Arguments Solve {V}. Arguments ReadSolution {V}. Arguments Simulate {V}.
Arguments ODone {V space_t sol_t}. Arguments OValue {V space_t sol_t}. Arguments OSolution {V space_t sol_t}.
Arguments OSimulation {V space_t sol_t}.
Arguments OneRegime {V}. Arguments Regimes {V}.
