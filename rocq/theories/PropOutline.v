(** Property C86: a model read from a file has the variables, parameters, equations and
    local definitions of the file, in its order. *)
From Verif Require Import Base Syntax Lexer LexerSpec LexerExactSpec LexerExact Parser ParserSpec ModFileSpec ModFileProofs
  ModFileProofs2 ModFileProofs3 PropParser Eval EvalSpec EvalProofs Semantics SemanticsSpec SemanticsProofs Factory FactorySpec FactoryProofs
  PropFile Calib CalibSpec CalibProofs Indexing DynFunc Vars ExprList ModelState ModelStateSpec ModelStateProofs PropModel
  OutlineSpec OutlineProofs.

(** The outline of a file: names in the order of declaration; to every parameter belongs
    the last expression assigned to it, or none; the equations in the order of the block;
    every local definition has the value it has when the parameters have theirs
    ([parameters_only]) and the local definitions are computed one after the other. *)
Theorem C86_outline :
  forall (V : Type) (O : ops V) (two : V) (f : modfile V) (o : outline V),
    (forall v, o_isnone O v = true -> v = o_none O) ->
    create_outline V O two f = Ok o ->
    o_endo V o = named V "var" f /\ o_stoch V o = named V "varexo" f /\ o_det V o = named V "varexo_det" f /\
    keys (o_params V o) = named V "parameters" f /\
    (forall x, In x (named V "parameters" f) -> lookup x (o_params V o) = Some (assigned V x (Syntax.m_params f))) /\
    o_exprs V o = equations V f /\
    keys (o_locals V o) = map fst (local_defs V f) /\
    exists rho rho', exec V O (nothing V O) (Syntax.m_params f) = Ok rho /\
      exec V O (parameters_only V O f rho) (local_defs V f) = Ok rho' /\
      forall x, In x (map fst (local_defs V f)) -> lookup x (o_locals V o) = Some (rho' x).
Proof. intros V O two f o Hn H; exact (outline_is V O two Hn f o H). Qed.
Print Assumptions C86_outline.

(** Names that a file can declare are not empty, and no two declarations have the same. *)
Lemma tokens_named (N : Type) float_of (t : text) (ts : list (ltok N)) x :
  tokenize N float_of Dynare t = Ok ts -> In (TId x) (map tk ts) -> x <> ""%string.
Proof.
  intros H; apply tokenize_exact in H as [_ H].
  induction H as [p|p lay q k _ _|p lay q k tok w ts r _ W _ H IH]; cbn [map tk at_pos].
  - intros [E|[]]; discriminate E.
  - intros [E|[E|[]]]; discriminate E.
  - intros [E|E]; [|exact (IH E)].
    unfold at_pos in E; cbn [tk] in E; subst tok; destruct W as [W|(_ & E & _)]; [|discriminate].
    inversion W; subst; discriminate.
Qed.
Lemma list_names (N : Type) (xs : list string) (ts : list (tok N)) : list_text N (name_text N) xs ts -> forall x, In x xs -> In (TId x) ts.
Proof.
  induction 1 as [|a l ta tl H _ IH]; intros x Hx; [destruct Hx|].
  apply in_or_app; destruct Hx as [<-|Hx]; [left|right; auto]; inversion H; subst; cbn; auto.
Qed.
Lemma preamble_names (N : Type) trunc ds ps (ts : list (tok N)) : preamble_text N trunc ds ps ts -> forall x, In x (map fst ds) -> In (TId x) ts.
Proof.
  induction 1 as [|k xs tx ds ps ts Hk Hx Hp IH|a ta ds ps ts Ha Hp IH]; intros x Hin; [destruct Hin| |].
  - rewrite map_app, map_map in Hin; cbn [fst] in Hin; rewrite map_id in Hin; right.
    apply in_app_or in Hin as [Hin|Hin]; apply in_or_app; [left; eapply list_names; eauto|right; right; auto].
  - apply in_or_app; right; auto.
Qed.

Theorem C86_names :
  forall (V : Type) (float_of : text -> option V) (trunc : V -> option Z) (nzero : V) (t : text) (f : modfile V),
    parse_file V float_of trunc nzero t = Ok f ->
    ~ In ""%string (map fst (m_decls f)) /\ (verify V f = Ok tt -> NoDup (map fst (m_decls f))).
Proof.
  intros V fo tr nz t f H; split.
  - unfold parse_file in H; apply bind_ok in H as (ts & Ht & H).
    apply parse_model_iff in H; inversion H as [ds ps ar st bs tp ta tst tb tail Hp Ha Hs Hb E1 E2]; subst; cbn [m_decls].
    intros X; apply (preamble_names _ _ _ _ _ Hp) in X; refine (tokens_named _ _ _ _ _ Ht _ eq_refl).
    rewrite <- E2; apply in_or_app; left; exact X.
  - intros Hv; apply (C13_accepted_exactly V fo tr nz t f H) in Hv as ((D & _) & _); exact D.
Qed.
Print Assumptions C86_names.

(** The model: what [from_outline] makes of the outline of the text [t] has the file's
    variables and shocks in the order of the file, its equations in the order of the
    block, its parameters, and its local definitions with their values. *)
Theorem C86_model :
  forall (V : Type) (O : ops V) (two zero one : V) (truthy : V -> bool) (float_of : text -> option V) (trunc : V -> option Z) (nzero : V)
    (parse_text : text -> res (ast V)) (space_t sol_t : Type) (space : list (option V) -> steady_repr V -> repr V -> res space_t)
    (t : text) (o : outline V) (m : mstate V space_t sol_t),
    (forall v, o_isnone O v = true -> v = o_none O) ->
    read_model V O two float_of trunc nzero t = Ok o ->
    new_model V O zero one truthy float_of trunc parse_text space_t sol_t space (outline_args V o) = Ok m ->
    exists f, parse_file V float_of trunc nzero t = Ok f /\
      let d := definition V space_t sol_t m in
      map ev_name (d_endog V d) = named V "var" f /\
      map sv_name (d_stoch V d) = named V "varexo" f /\
      map dv_name (d_determ V d) = named V "varexo_det" f /\
      trees (d_exprs V d) = equations V f /\
      keys (solved V (d_params V d)) = named V "parameters" f /\
      solved V (d_locals V d) = o_locals V o.
Proof.
  intros V O two zero one truthy fo tr nz pt space_t sol_t space t o m Hn H Hm.
  unfold read_model in H; apply bind_ok in H as (f & Hf & H); exists f; split; [exact Hf|].
  destruct (C86_outline V O two f o Hn H) as (E1 & E2 & E3 & E4 & _ & E6 & E7 & _).
  assert (Hv : verify V f = Ok tt) by (unfold create_outline in H; apply bind_ok in H as ([] & Hv & _); exact Hv).
  destruct (C86_names V fo tr nz t f Hf) as [Ne Nd]; specialize (Nd Hv).
  destruct (C13_accepted_exactly V fo tr nz t f Hf) as [W _]; destruct (W Hv) as (_ & _ & W3 & _).
  destruct (C30_files_are_described V one o) as (d & D & D1 & D2 & D3 & D4 & D5 & D6).
  assert (Sub : forall k x, In x (named V k f) -> In x (map fst (m_decls f))) by (intros k x; apply pick_sub).
  assert (Di : distinct V d).
  { unfold distinct; rewrite D1, D2, D3, E1, E2, E3; split; [|split; [|split]].
    - apply pick_NoDup; exact Nd.
    - clear - Nd; unfold named; induction (m_decls f) as [|[x k] l IH]; cbn [filter map snd fst] in *; [constructor|].
      inversion Nd as [|? ? N1 N2]; subst; specialize (IH N2).
      destruct (String.eqb_spec k "varexo") as [->|Nk].
      + cbn; constructor; [|exact IH]; intros X; apply N1; apply in_app_or in X as [X|X]; exact (pick_sub _ _ _ X).
      + destruct (String.eqb k "varexo_det"); [|exact IH]; cbn [map fst].
        apply NoDup_Add with (a := x) (l := pick "varexo" l ++ pick "varexo_det" l); [apply Add_app|].
        split; [exact IH|]; intros X; apply N1; apply in_app_or in X as [X|X]; exact (pick_sub _ _ _ X).
    - intros X; exact (Ne (Sub _ _ X)).
    - intros X; apply in_app_or in X as [X|X]; exact (Ne (Sub _ _ X)). }
  destruct (new_model_known V O zero one truthy (fun _ => true) fo tr pt space_t sol_t space d _ m D Di Hm) as ((T1 & T2 & T3 & (c & T4 & T4') & (c' & T5 & T5') & T6) & _).
  cbv zeta; rewrite <- E1, <- E2, <- E3, <- E4, <- E6, <- D1, <- D2, <- D3.
  split; [|split; [|split; [|split; [|split]]]].
  - clear - T1; induction T1 as [|p v l l' Hv _ IH]; cbn [map]; [reflexivity|rewrite IH; f_equal; rewrite Hv; reflexivity].
  - clear - T2; apply mapM_ok in T2; induction T2 as [|p v l l' Hv _ IH]; cbn [map]; [reflexivity|rewrite IH; f_equal].
    destruct p as [x [|[] []]]; cbn in Hv; try discriminate; injection Hv as <-; reflexivity.
  - clear - T3; apply mapM_ok in T3; induction T3 as [|p v l l' Hv _ IH]; cbn [map]; [reflexivity|rewrite IH; f_equal].
    destruct p as [x [[] [] [] []|]]; cbn in Hv; try discriminate; injection Hv as <-; reflexivity.
  - rewrite D6 in T6; clear - T6; apply mapM_ok in T6; revert T6; generalize (trees (d_exprs V (definition V space_t sol_t m))).
    induction (o_exprs V o) as [|e l IH]; intros l' T; inversion T as [|? ? ? ? H1 H2]; subst; [reflexivity|].
    cbn [parse_given] in H1; injection H1 as <-; f_equal; apply IH; exact H2.
  - rewrite T4; cbn [solved].
    assert (N : NoDup (keys (m_params V d))).
    { rewrite D4; unfold outline_defs, keys; rewrite map_map; change (NoDup (keys (o_params V o))); rewrite E4; apply pick_NoDup; exact Nd. }
    destruct (solve_satisfies V O fo tr _ _ N T4') as [K _]; rewrite K, D4; unfold outline_defs, keys; rewrite map_map; reflexivity.
  - rewrite T5; cbn [solved].
    assert (N : NoDup (keys (m_locals V d))).
    { rewrite D5; unfold keys; rewrite map_map; change (NoDup (keys (o_locals V o))); rewrite E7.
      change (local_defs V f) with (defs V (m_stmts f)); rewrite defs_locals; apply locals_NoDup; exact W3. }
    destruct (solve_satisfies V O fo tr _ _ N T5') as [K S].
    assert (G : forall l c0 : list (string * V), NoDup (keys l) -> keys c0 = keys l ->
      (forall x v, In (x, v) l -> lookup x c0 = Some v) -> c0 = l).
    { clear; induction l as [|[x v] l IH]; intros [|[y w] c0] N K S; cbn in K; try discriminate; [reflexivity|].
      injection K as -> K; inversion N; subst; f_equal.
      - specialize (S x v (or_introl eq_refl)); cbn in S; rewrite String.eqb_refl in S; injection S as ->; reflexivity.
      - apply IH; [assumption|exact K|]; intros z u Hz; specialize (S z u (or_intror Hz)); cbn in S.
        destruct (String.eqb_spec z x) as [->|]; [|exact S]; elim H1; apply (in_map fst) in Hz; exact Hz. }
    apply G.
    + rewrite D5 in N; unfold keys in N; rewrite map_map in N; exact N.
    + rewrite K, D5; unfold keys; rewrite map_map; reflexivity.
    + intros x v Hx; destruct (S x (DNum v)) as (w & e & L & Me & Ev).
      * rewrite D5; apply in_map_iff; exists (x, v); auto.
      * cbn [means] in Me; subst e; cbn in Ev; injection Ev as ->; exact L.
Qed.
Print Assumptions C86_model.

(** The names an outline offers to its equations: local definitions, and behind them the
    parameters. *)
Theorem C86_scope :
  forall (V : Type) (O : ops V) (two : V) (f : modfile V) (o : outline V) (x : string),
    (forall v, o_isnone O v = true -> v = o_none O) ->
    create_outline V O two f = Ok o ->
    lookup x (outline_scope V o) = match lookup x (o_locals V o) with
                                   | Some v => Some (inr v)
                                   | None => option_map inl (lookup x (o_params V o))
                                   end.
Proof.
  intros V O two f o x Hn H; apply scope_is.
  destruct (C86_outline V O two f o Hn H) as (_ & _ & _ & _ & _ & _ & E7 & _); rewrite E7.
  destruct (create_apart V O two Hn f o H) as (rho & m & o1 & ol & Hv & _ & _ & _ & H1 & _).
  destruct (declare_fields V _ _ _ H1) as (_ & _ & _ & _ & _ & _ & D7).
  apply verify_iff in Hv as (_ & _ & W3 & _); [|exact D7].
  change (local_defs V f) with (defs V (m_stmts f)); rewrite defs_locals; apply locals_NoDup; exact W3.
Qed.
Print Assumptions C86_scope.

(** A file with all of these. *)
Definition listed : string :=
  "var c; varexo e; var k; parameters b d; varexo u; b = 3; d = b*2; model; # m = b*d; c = m*k(-1) + e; # n = m + 1; k - c(+1)*n = u; end; shocks; end;"%string.
Example C86_nonvacuous : exists f o m, ofile listed = Ok f /\ oread listed = Ok o /\ onew (outline_args _ o) = Ok m /\
  named _ "var" f = ["c"; "k"]%string /\ named _ "varexo" f = ["e"; "u"]%string /\
  named _ "parameters" f = ["b"; "d"]%string /\ List.length (equations _ f) = 2 /\
  nth_error (equations _ f) 0 <> nth_error (trees (d_exprs _ (definition _ _ _ m))) 1 /\
  o_locals _ o = [("m"%string, Some 18%Z); ("n"%string, Some 19%Z)] /\
  lookup "m" (outline_scope _ o) = Some (inr (Some 18%Z)) /\ lookup "b" (outline_scope _ o) = Some (inl (Some (Num (Some 3%Z)))).
Proof.
  do 3 eexists; split; [vm_compute; reflexivity|]; split; [vm_compute; reflexivity|]; split; [vm_compute; reflexivity|].
  repeat (split; [vm_compute; (reflexivity || discriminate)|]); vm_compute; reflexivity.
Qed.
