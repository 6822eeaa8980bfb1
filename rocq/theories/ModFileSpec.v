(** Specification of model files, independent of the parser: which tokens are a
    way to write which file. *)
From Verif Require Import Base Syntax Lexer ParserSpec.

Section Spec.
  Variable N : Type.
  Variable trunc : N -> option Z.
  Variable nzero : N.
  Notation toks := (list (tok N)).
  Notation sy := (@TSym N).

  (** Tokens written for an expression ([m]: inside the model block). *)
  Definition expr_text (m : bool) (e : ast N) (ts : toks) : Prop :=
    exists o en, reads N trunc m true NExpr o en e ts.

  (** Lists: items one after the other; and each preceded by a comma. *)
  Inductive list_text {A} (R : A -> toks -> Prop) : list A -> toks -> Prop :=
  | L_nil : list_text R [] []
  | L_cons a l ta tl : R a ta -> list_text R l tl -> list_text R (a :: l) (ta ++ tl).
  Inductive comma_text {A} (R : A -> toks -> Prop) : list A -> toks -> Prop :=
  | C_nil : comma_text R [] []
  | C_cons a l ta tl : R a ta -> comma_text R l tl -> comma_text R (a :: l) (sy Comma :: ta ++ tl).

  (** [ID] or [, ID] *)
  Inductive name_text : string -> toks -> Prop :=
  | Nm x : name_text x [TId x]
  | Nm_comma x : name_text x [sy Comma; TId x].

  Definition var_kinds : list string :=
    ["var"; "varexo"; "varexo_det"; "parameters"; "predetermined_variables";
     "trend_var"; "log_trend_var"]%string.

  Inductive assign_text : assignment N -> toks -> Prop :=
  | As x e ts : expr_text false e ts -> assign_text (x, e) (TId x :: sy Equals :: ts ++ [sy Semi]).

  (** The preamble: declarations and assignments, in any order. *)
  Inductive preamble_text : list declaration -> list (assignment N) -> toks -> Prop :=
  | P_nil : preamble_text [] [] []
  | P_decl k xs tx ds ps ts : In k var_kinds -> list_text name_text xs tx ->
      preamble_text ds ps ts ->
      preamble_text (map (fun x => (x, k)) xs ++ ds) ps (TKw k :: tx ++ sy Semi :: ts)
  | P_assign a ta ds ps ts : assign_text a ta -> preamble_text ds ps ts ->
      preamble_text ds (a :: ps) (ta ++ ts).

  (** Options and tags.  An expression given to an option does not start with a
      name (a name alone is taken as the value). *)
  Inductive arg_text : argument N -> toks -> Prop :=
  | Ar_flag x : arg_text (Arg x None) [TId x]
  | Ar_str x s : arg_text (Arg x (Some (AStr s))) [TId x; sy Equals; TStr s]
  | Ar_id x s : arg_text (Arg x (Some (AId s))) [TId x; sy Equals; TId s]
  | Ar_expr x e ts : expr_text false e ts -> match ts with TId _ :: _ => False | _ => True end ->
      arg_text (Arg x (Some (AExpr e))) (TId x :: sy Equals :: ts).
  Inductive tag_text : argument N -> toks -> Prop :=
  | Tg_flag x : tag_text (Arg x None) [TId x]
  | Tg_str x s : tag_text (Arg x (Some (AStr s))) [TId x; sy Equals; TStr s].
  Inductive args_text : list (argument N) -> toks -> Prop :=
  | Ars_none : args_text [] []
  | Ars a l ta tl : arg_text a ta -> comma_text arg_text l tl ->
      args_text (a :: l) (sy LPare :: ta ++ tl ++ [sy RPare]).
  Inductive tags_text : list (argument N) -> toks -> Prop :=
  | Tgs a l ta tl : tag_text a ta -> comma_text tag_text l tl ->
      tags_text (a :: l) (sy LBracket :: ta ++ tl ++ [sy RBracket]).

  (** Statements of the model block; without [=] the right side is [0]. *)
  Inductive equation_text : ast N -> ast N -> toks -> Prop :=
  | Eq_both l r tl tr : expr_text true l tl -> expr_text true r tr ->
      equation_text l r (tl ++ sy Equals :: tr)
  | Eq_left l tl : expr_text true l tl -> equation_text l (Num nzero) tl.
  Inductive stmt_text : statement N -> toks -> Prop :=
  | St_local x e ts : expr_text true e ts ->
      stmt_text (SLocal x e) (sy Pound :: TId x :: sy Equals :: ts ++ [sy Semi])
  | St_eq l r ts : equation_text l r ts -> stmt_text (SEq None l r) (ts ++ [sy Semi])
  | St_tag tag tt l r ts : tags_text tag tt -> equation_text l r ts ->
      stmt_text (SEq (Some tag) l r) (tt ++ ts ++ [sy Semi]).

  (** Periods of a deterministic shock: [n] or [n:n']; values: a number or an
      expression in parentheses; commas are optional. *)
  Inductive opt_comma : toks -> Prop := OC_none : opt_comma [] | OC : opt_comma [sy Comma].
  Inductive period_text : N * N -> toks -> Prop :=
  | Pd n c : opt_comma c -> period_text (n, n) (c ++ [TNum n])
  | Pd_range n n' c : opt_comma c -> period_text (n, n') (c ++ [TNum n; sy Colon; TNum n']).
  Inductive value_text : ast N -> toks -> Prop :=
  | Vl_num n c : opt_comma c -> value_text (Num n) (c ++ [TNum n])
  | Vl_expr e ts c : opt_comma c -> expr_text false e ts ->
      value_text e (c ++ sy LPare :: ts ++ [sy RPare]).

  Inductive shock_text : shock N -> toks -> Prop :=
  | Sh_corr x y e ts : expr_text false e ts ->
      shock_text (ShCorr x y e) (TKw "corr" :: TId x :: sy Comma :: TId y :: sy Equals :: ts)
  | Sh_cov x y e ts : expr_text false e ts ->
      shock_text (ShCov x y e) (TKw "var" :: TId x :: sy Comma :: TId y :: sy Equals :: ts)
  | Sh_var x e ts : expr_text false e ts ->
      shock_text (ShVar x e) (TKw "var" :: TId x :: sy Equals :: ts)
  | Sh_std x e ts : expr_text false e ts ->
      shock_text (ShStd x e) (TKw "var" :: TId x :: sy Semi :: TKw "stderr" :: ts)
  | Sh_det x ps vs tp tv : list_text period_text ps tp -> list_text value_text vs tv ->
      shock_text (ShDet x ps vs)
        (TKw "var" :: TId x :: sy Semi :: TKw "periods" :: tp ++ sy Semi :: TKw "values" :: tv).
  Inductive shock_stmt_text : shock N -> toks -> Prop :=
  | Shs s ts : shock_text s ts -> shock_stmt_text s (ts ++ [sy Semi]).

  (** The blocks behind the model block. *)
  Inductive block :=
  | KInit (b : boundary N) | KEnd (b : boundary N) | KHist (b : boundary N)
  | KShocks (args : list (argument N)) (l : list (shock N)).
  Definition boundary_text (k : string) (b : boundary N) (ts : toks) : Prop :=
    exists ta tl, args_text (fst b) ta /\ list_text assign_text (snd b) tl /\
      ts = TKw k :: ta ++ sy Semi :: tl ++ [TKw "end"%string; sy Semi].
  Inductive block_text : block -> toks -> Prop :=
  | Bk_init b ts : boundary_text "initval" b ts -> block_text (KInit b) ts
  | Bk_end b ts : boundary_text "endval" b ts -> block_text (KEnd b) ts
  | Bk_hist b ts : boundary_text "histval" b ts -> block_text (KHist b) ts
  | Bk_shocks args l ta tl : args_text args ta -> list_text shock_stmt_text l tl ->
      block_text (KShocks args l)
        (TKw "shocks" :: ta ++ sy Semi :: tl ++ [TKw "end"%string; sy Semi]).

  (** The last block of each kind counts. *)
  Fixpoint last_of {A} (sel : block -> option A) (bs : list block) : option A :=
    match bs with
    | [] => None
    | b :: bs' => match last_of sel bs' with Some a => Some a | None => sel b end
    end.
  Definition actions_of (bs : list block) : actions N := Actions
    (last_of (fun b => match b with KInit b => Some b | _ => None end) bs)
    (last_of (fun b => match b with KEnd b => Some b | _ => None end) bs)
    (last_of (fun b => match b with KHist b => Some b | _ => None end) bs)
    (last_of (fun b => match b with KShocks a l => Some (a, l) | _ => None end) bs).

  Inductive file_text : modfile N -> toks -> Prop :=
  | File ds ps args stmts bs tp ta ts tb tail :
      preamble_text ds ps tp -> args_text args ta -> list_text stmt_text stmts ts ->
      list_text block_text bs tb ->
      file_text (ModFile ds ps args stmts (actions_of bs))
        (tp ++ TKw "model" :: ta ++ sy Semi :: ts ++ TKw "end" :: sy Semi :: tb ++ TEof :: tail).

  (** ** Writing a file *)
  Variable num_for : Z -> N.
  Definition pr (e : ast N) : toks := print N num_for 0 e.
  Definition write_arg (a : argument N) : toks :=
    match arg_val a with
    | None => [TId (arg_key a)]
    | Some (AStr s) => [TId (arg_key a); sy Equals; TStr s]
    | Some (AId s) => [TId (arg_key a); sy Equals; TId s]
    | Some (AExpr e) => TId (arg_key a) :: sy Equals :: sy LPare :: pr e ++ [sy RPare]
    end.
  Definition write_commas (l : list (argument N)) : toks :=
    concat (map (fun a => sy Comma :: write_arg a) l).
  Definition write_args (l : list (argument N)) : toks :=
    match l with
    | [] => []
    | a :: l' => sy LPare :: write_arg a ++ write_commas l' ++ [sy RPare]
    end.
  Definition write_tags (l : list (argument N)) : toks :=
    match l with
    | [] => []
    | a :: l' => sy LBracket :: write_arg a ++ write_commas l' ++ [sy RBracket]
    end.
  (** [var x;] *)
  Definition write_decl (d : declaration) : toks := [TKw (snd d); TId (fst d); sy Semi].
  Definition write_assign (a : assignment N) : toks :=
    TId (fst a) :: sy Equals :: pr (snd a) ++ [sy Semi].
  Definition write_stmt (s : statement N) : toks :=
    match s with
    | SLocal x e => sy Pound :: TId x :: sy Equals :: pr e ++ [sy Semi]
    | SEq None l r => pr l ++ sy Equals :: pr r ++ [sy Semi]
    | SEq (Some tag) l r => write_tags tag ++ pr l ++ sy Equals :: pr r ++ [sy Semi]
    end.
  Definition write_shock (s : shock N) : toks :=
    match s with
    | ShCorr x y e => TKw "corr" :: TId x :: sy Comma :: TId y :: sy Equals :: pr e ++ [sy Semi]
    | ShCov x y e => TKw "var" :: TId x :: sy Comma :: TId y :: sy Equals :: pr e ++ [sy Semi]
    | ShVar x e => TKw "var" :: TId x :: sy Equals :: pr e ++ [sy Semi]
    | ShStd x e => TKw "var" :: TId x :: sy Semi :: TKw "stderr" :: pr e ++ [sy Semi]
    | ShDet x ps vs =>
        TKw "var" :: TId x :: sy Semi ::
        TKw "periods" :: concat (map (fun p => [TNum (fst p); sy Colon; TNum (snd p)]) ps) ++ sy Semi ::
        TKw "values" :: concat (map (fun e => sy LPare :: pr e ++ [sy RPare]) vs) ++ [sy Semi]
    end.
  Definition write_boundary (k : string) (b : option (boundary N)) : toks :=
    match b with
    | None => []
    | Some (args, l) =>
        TKw k :: write_args args ++ sy Semi :: concat (map write_assign l) ++ [TKw "end"%string; sy Semi]
    end.
  Definition write_shocks (b : option (list (argument N) * list (shock N))) : toks :=
    match b with
    | None => []
    | Some (args, l) =>
        TKw "shocks" :: write_args args ++ sy Semi :: concat (map write_shock l) ++ [TKw "end"%string; sy Semi]
    end.
  Definition write_file (f : modfile N) : toks :=
    concat (map write_decl (m_decls f)) ++ concat (map write_assign (m_params f)) ++
    TKw "model" :: write_args (m_args f) ++ sy Semi :: concat (map write_stmt (m_stmts f)) ++
    TKw "end" :: sy Semi ::
    write_boundary "initval" (a_initval (m_actions f)) ++
    write_boundary "endval" (a_endval (m_actions f)) ++
    write_boundary "histval" (a_histval (m_actions f)) ++
    write_shocks (a_shocks (m_actions f)).

  (** Files that can be written: expressions are printable, kinds are kinds of
      variables, and the values in tags are strings. *)
  Definition writable_arg (a : argument N) : Prop :=
    match arg_val a with Some (AExpr e) => printable N trunc false num_for e | _ => True end.
  Definition writable_tag (a : argument N) : Prop :=
    match arg_val a with Some (AExpr _) | Some (AId _) => False | _ => True end.
  Definition writable_assign (a : assignment N) : Prop := printable N trunc false num_for (snd a).
  Definition writable_stmt (s : statement N) : Prop :=
    match s with
    | SLocal _ e => printable N trunc true num_for e
    | SEq tag l r =>
        printable N trunc true num_for l /\ printable N trunc true num_for r /\
        match tag with Some t => t <> [] /\ Forall writable_tag t | None => True end
    end.
  Definition writable_shock (s : shock N) : Prop :=
    match s with
    | ShCorr _ _ e | ShCov _ _ e | ShVar _ e | ShStd _ e => printable N trunc false num_for e
    | ShDet _ _ vs => Forall (printable N trunc false num_for) vs
    end.
  Definition writable_block {A} (ok : A -> Prop) (b : option (list (argument N) * list A)) : Prop :=
    match b with Some (args, l) => Forall writable_arg args /\ Forall ok l | None => True end.
  Definition writable (f : modfile N) : Prop :=
    Forall (fun d => In (snd d) var_kinds) (m_decls f) /\
    Forall writable_assign (m_params f) /\ Forall writable_arg (m_args f) /\
    Forall writable_stmt (m_stmts f) /\
    writable_block writable_assign (a_initval (m_actions f)) /\
    writable_block writable_assign (a_endval (m_actions f)) /\
    writable_block writable_assign (a_histval (m_actions f)) /\
    writable_block writable_shock (a_shocks (m_actions f)).
End Spec.
Arguments KInit {N}. Arguments KEnd {N}. Arguments KHist {N}. Arguments KShocks {N}.
