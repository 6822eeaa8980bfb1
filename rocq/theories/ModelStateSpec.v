(** What a user has defined, and what additions do to it: specification for C30-C33,
    C52 and C60. *)
From Verif Require Import Base Syntax Lexer Parser Eval Semantics Factory Calib Indexing DynFunc Vars ExprList ModelState.

Section Spec.
  Variable V : Type.
  Variable one : V.

  (** Initial, terminal and historical value of a variable. *)
  Definition bounds : Type := option V * option V * option V.

  (** The definitions: variables with their values, shocks with their moments,
      parameters, local definitions and equations, in order of declaration. *)
  Record mdef := MDef {
    m_endog : list (string * bounds);
    m_stoch : list (string * shockdef V);
    m_determ : list (string * shockdef V);
    m_params : list (string * pdef V);
    m_locals : list (string * pdef V);
    m_exprs : list (given V)
  }.

  (** A shock nobody describes has variance one; a deterministic one is one in period 0. *)
  Definition default_stoch : shockdef V := DStoch None (Some one) None None.
  Definition default_determ : shockdef V := DDet (Some [0%Z]) (Some [one]).
  Definition described (shocks : list (string * shockdef V)) (dflt : shockdef V) (x : string) (d : shockdef V) : Prop :=
    lookup x shocks = Some d \/ lookup x shocks = None /\ d = dflt.

  (** The arguments of the constructor state the definitions. *)
  Record describes (d : mdef) (a : args V) : Prop := Describes {
    de_endog : g_endog V a = map fst (m_endog d);
    de_bounds : forall x i t h, In (x, (i, t, h)) (m_endog d) ->
      lookup x (g_init V a) = i /\ lookup x (g_term V a) = t /\ lookup x (g_hist V a) = h;
    de_stoch : g_stoch V a = map fst (m_stoch d);
    de_shocks : forall x s, In (x, s) (m_stoch d) -> described (g_shocks V a) default_stoch x s;
    de_determ : g_determ V a = map fst (m_determ d);
    de_dshocks : forall x s, In (x, s) (m_determ d) -> described (g_shocks V a) default_determ x s;
    de_params : g_params V a = Plain (m_params d);
    de_locals : g_locals V a = Plain (m_locals d);
    de_exprs : exists b, g_exprs V a = FromList b (m_exprs d)
  }.

  (** Names are not empty and the variables have different names, as have the shocks. *)
  Definition distinct (d : mdef) : Prop :=
    NoDup (map fst (m_endog d)) /\ NoDup (map fst (m_stoch d) ++ map fst (m_determ d)) /\
    ~ In ""%string (map fst (m_endog d)) /\ ~ In ""%string (map fst (m_stoch d) ++ map fst (m_determ d)).

  (** What is defined after an addition. *)
  Definition stated_or (shocks : list (string * shockdef V)) (dflt : shockdef V) (x : string) : string * shockdef V :=
    (x, match lookup x shocks with Some s => s | None => dflt end).
  Definition effect (o : op V) (d : mdef) : mdef :=
    match o with
    | AddEndog ns i t h =>
        MDef (m_endog d ++ map (fun x => (x, (i x, t x, h x))) ns) (m_stoch d) (m_determ d) (m_params d) (m_locals d) (m_exprs d)
    | AddParams ps =>
        MDef (m_endog d) (m_stoch d) (m_determ d)
          (fold_left (fun q p => Base.update (fst p) (snd p) q) ps (m_params d)) (m_locals d) (m_exprs d)
    | AddExprs gs => MDef (m_endog d) (m_stoch d) (m_determ d) (m_params d) (m_locals d) (m_exprs d ++ gs)
    | AddStoch ns sh =>
        MDef (m_endog d) (m_stoch d ++ map (stated_or sh default_stoch) ns) (m_determ d) (m_params d) (m_locals d) (m_exprs d)
    | AddDeterm ns sh =>
        MDef (m_endog d) (m_stoch d) (m_determ d ++ map (stated_or sh default_determ) ns) (m_params d) (m_locals d) (m_exprs d)
    | _ => d
    end.
  Definition effects (os : list (op V)) (d : mdef) : mdef := fold_left (fun d o => effect o d) os d.

  Definition addition (o : op V) : Prop :=
    match o with AddEndog _ _ _ _ | AddParams _ | AddExprs _ | AddStoch _ _ | AddDeterm _ _ => True | _ => False end.

  Section Outcomes.
    Variable space_t sol_t : Type.
    Definition outcomes : Type := list (op V * res (out V space_t sol_t)).

    (** No addition raised. *)
    Definition additions_made (l : outcomes) : Prop :=
      forall o e, In (o, Err e) l -> ~ addition o.
    (** Everything that raised (a read or a solve) was followed by an addition. *)
    Definition repaired (l : outcomes) : Prop :=
      forall l1 o e l2, l = l1 ++ (o, Err e) :: l2 -> exists o' r, In (o', r) l2 /\ addition o'.
  End Outcomes.
End Spec.
