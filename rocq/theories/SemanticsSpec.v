(** When a model file uses its names properly: a description by places in the file,
    with no symbol tables. *)
From Verif Require Import Base Syntax EvalSpec ModFileSpec.

Section Spec.
  Variable N : Type.

  (** The names of an expression: each variable satisfies [vis], each variable with a
      lead or lag satisfies [timed]. *)
  Definition uses (vis timed : string -> Prop) (e : ast N) : Prop :=
    (forall x, occurs N x e -> vis x) /\ (forall x k, occurs_t N x k e -> timed x) /\ algebraic N e.

  (** Names known from the start: the variable types, which are keywords, and
      [non_model], which is not. *)
  Definition predefined (x : string) : Prop := x = "non_model"%string \/ In x var_kinds.

  Variable f : modfile N.
  Definition declared (k x : string) : Prop := In (x, k) (m_decls f).
  Definition is_declared (x : string) : Prop := exists k, declared k x.
  (** Variables that may have a lead or lag. *)
  Definition dated (x : string) : Prop := exists k, declared k x /\ k <> "parameters"%string.
  (** Names known behind the preamble. *)
  Definition global (x : string) : Prop :=
    is_declared x \/ In x (keys (m_params f)) \/ predefined x.
  Definition locals (l : list (statement N)) : list string :=
    flat_map (fun s => match s with SLocal x _ => [x] | SEq _ _ _ => [] end) l.

  (** Declarations: every name once, none predefined. *)
  Definition decls_ok : Prop :=
    NoDup (map fst (m_decls f)) /\ forall x, is_declared x -> ~ predefined x.

  (** Assignments: to a parameter, or to a fresh name; the right-hand side uses names
      declared anywhere in the preamble, assigned before, or being assigned. *)
  Definition assigns_ok : Prop :=
    forall pre x e post, m_params f = pre ++ (x, e) :: post ->
      (declared "parameters" x \/ ~ is_declared x /\ ~ In x (keys pre) /\ ~ predefined x) /\
      uses (fun y => is_declared y \/ In y (keys pre) \/ y = x \/ predefined y) dated e.

  (** Model block: local definitions are fresh and may be used behind. *)
  Definition model_ok : Prop :=
    forall pre s post, m_stmts f = pre ++ s :: post ->
      let vis x := global x \/ In x (locals pre) in
      match s with
      | SLocal x e => ~ vis x /\ uses vis dated e
      | SEq _ l r => uses vis dated l /\ uses vis dated r
      end.

  (** Boundary values: of endogenous variables. *)
  Definition bounds_ok : Prop :=
    forall a l x e, In (Some (a, l)) [a_initval (m_actions f); a_endval (m_actions f); a_histval (m_actions f)] ->
      In (x, e) l -> declared "var" x /\ uses global dated e.

  (** Shocks: of exogenous variables; there is a shocks block, with no deterministic
      shock. *)
  Definition shock_name (x : string) : Prop := declared "varexo" x \/ declared "varexo_det" x.
  Definition shocks_ok : Prop :=
    exists args l, a_shocks (m_actions f) = Some (args, l) /\
      forall h, In h l ->
        match h with
        | ShCorr x y e | ShCov x y e => shock_name x /\ shock_name y /\ uses global dated e
        | ShVar x e | ShStd x e => shock_name x /\ uses global dated e
        | ShDet _ _ _ => False
        end.

  Definition well_declared : Prop :=
    decls_ok /\ assigns_ok /\ model_ok /\ bounds_ok /\ shocks_ok.
End Spec.
