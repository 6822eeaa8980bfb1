(** Model of pynare/parsing/parser.py.

    Parser state: the tokens from the current one on, so [current_token] is the
    head.  Locations of tokens, used in error messages only, are dropped. *)
From Verif Require Export Syntax Lexer.

Section Parse.
  Variable N : Type.
  (** python's [int] on a number literal; [None] is OverflowError (infinity). *)
  Variable trunc : N -> option Z.
  (** The integer literal [0] of parser.py:431. *)
  Variable nzero : N.

  Definition toks := list (tok N).
  Definition P (A : Type) := toks -> res (A * toks).

  (** parser.py:45-56 [eat] after a successful type test, and lexer.py:84-98
      [get_next_token]: reading past the last token is an IndexError. *)
  Definition adv (ts : toks) : res toks :=
    match ts with
    | _ :: (_ :: _) as ts' => Ok ts'
    | _ => Err IndexErr
    end.

  Definition is_sym (y : sym) (ts : toks) : bool :=
    match ts with TSym y' :: _ => sym_eqb y y' | _ => false end.
  Definition is_kw (k : string) (ts : toks) : bool :=
    match ts with TKw k' :: _ => String.eqb k k' | _ => false end.

  Definition eat_sym (y : sym) (ts : toks) : res toks :=
    if is_sym y ts then adv ts else Err PynareSyntaxErr.
  Definition eat_kw (k : string) (ts : toks) : res toks :=
    if is_kw k ts then adv ts else Err PynareSyntaxErr.
  Definition eat_id : P string := fun ts =>
    match ts with TId s :: _ => do ts' <- adv ts; Ok (s, ts') | _ => Err PynareSyntaxErr end.
  Definition eat_num : P N := fun ts =>
    match ts with TNum n :: _ => do ts' <- adv ts; Ok (n, ts') | _ => Err PynareSyntaxErr end.
  Definition eat_str : P string := fun ts =>
    match ts with TStr s :: _ => do ts' <- adv ts; Ok (s, ts') | _ => Err PynareSyntaxErr end.

  (** lexer.py:100-105 [see_future_token]. *)
  Definition peek (k : nat) (ts : toks) : res (tok N) :=
    match nth_error ts k with Some t => Ok t | None => Err SyntaxErr end.

  (** The sign tokens, products and comparison operators. *)
  Definition sign_of (ts : toks) : option uop :=
    match ts with TSym Plus :: _ => Some UPos | TSym Minus :: _ => Some UNeg | _ => None end.
  Definition add_of (ts : toks) : option bop :=
    match ts with TSym Plus :: _ => Some BAdd | TSym Minus :: _ => Some BSub | _ => None end.
  Definition mul_of (ts : toks) : option bop :=
    match ts with TSym Mul :: _ => Some BMul | TSym Div :: _ => Some BDiv | _ => None end.
  (** parser.py:208 COMPS *)
  Definition comp_of (ts : toks) : option cop :=
    match ts with
    | TSym LTs :: _ => Some CLt | TSym LTOE :: _ => Some CLe
    | TSym GTs :: _ => Some CGt | TSym GTOE :: _ => Some CGe
    | TSym Equality :: _ => Some CEq | _ => None
    end.

  (** ast.py:180-181: [int(d + str(int(o)))] for a literal without sign. *)
  Definition offset (d : uop) (n : N) : res Z :=
    match trunc n with
    | Some k => Ok (match d with UPos => k | UNeg => (- k)%Z end)
    | None => Err OverflowErr
    end.

  (** parser.py:350-364, and the construction of the PeriodVar at 341-346. *)
  Definition period_offset : P Z := fun ts =>
    do ts1 <- eat_sym LPare ts;
    match sign_of ts1 with
    | None => Err PynareSyntaxErr
    | Some d =>
        do ts2 <- adv ts1;
        do (n, ts3) <- eat_num ts2;
        do ts4 <- eat_sym RPare ts3;
        do k <- offset d n;
        Ok (k, ts4)
    end.

  (** parser.py:333-348 *)
  Definition maybe_period_variable : P (ast N) := fun ts =>
    do (x, ts1) <- eat_id ts;
    if is_sym LPare ts1
    then do (k, ts2) <- period_offset ts1; Ok (PVar x k, ts2)
    else Ok (Var x, ts1).

  Section Expr.
    (** [m]: the m-functions of the DynareParser (parser.py:497-583), which read
        period variables, instead of those of the BaseParser (64-179). *)
    Variable m : bool.

    Fixpoint p_atom (fuel : nat) (ts : toks) {struct fuel} : res (ast N * toks) :=
      match fuel with
      | 0 => Err OutOfFuel
      | S f =>
          match ts with
          | TId s :: _ =>
              if m then maybe_period_variable ts
              else do ts1 <- adv ts; Ok (Var s, ts1)
          | TNum n :: _ => do ts1 <- adv ts; Ok (Num n, ts1)
          | TSym LPare :: _ =>
              do ts1 <- adv ts;
              do (e, ts2) <- p_expr f ts1;
              do ts3 <- eat_sym RPare ts2;
              Ok (e, ts3)
          | _ =>
              match sign_of ts with
              | Some o =>
                  do ts1 <- adv ts;
                  do (e, ts2) <- p_term f ts1;
                  Ok (Un o e, ts2)
              | None => Err PynareSyntaxErr
              end
          end
      end

    (** parser.py:98-122, 524-538: [node] is the local variable of that name,
        unbound before the first iteration. *)
    with p_call (fuel : nat) (node : option (ast N)) (ts : toks) {struct fuel}
      : res (ast N * toks) :=
      match fuel with
      | 0 => Err OutOfFuel
      | S f =>
          match ts with
          | TFun g :: _ =>
              do ts1 <- adv ts;
              do ts2 <- eat_sym LPare ts1;
              do (e, ts3) <- p_expr f ts2;
              do ts4 <- eat_sym RPare ts3;
              p_call f (Some (Fun g e)) ts4
          | _ =>
              match node with
              | Some n => Ok (n, ts)
              | None => p_atom f ts
              end
          end
      end

    (** parser.py:124-143: the loop body returns; 540-553: it does not. *)
    with p_exponent (fuel : nat) (ts : toks) {struct fuel} : res (ast N * toks) :=
      match fuel with
      | 0 => Err OutOfFuel
      | S f => do (n, ts1) <- p_call f None ts; p_powers f n ts1
      end
    with p_powers (fuel : nat) (node : ast N) (ts : toks) {struct fuel} : res (ast N * toks) :=
      match fuel with
      | 0 => Err OutOfFuel
      | S f =>
          if is_sym Power ts then
            do ts1 <- adv ts;
            do (r, ts2) <- p_exponent f ts1;
            if m then p_powers f (Bin BPow node r) ts2
            else Ok (Bin BPow node r, ts2)
          else Ok (node, ts)
      end

    (** parser.py:145-161, 555-568 *)
    with p_term (fuel : nat) (ts : toks) {struct fuel} : res (ast N * toks) :=
      match fuel with
      | 0 => Err OutOfFuel
      | S f => do (n, ts1) <- p_exponent f ts; p_factors f n ts1
      end
    with p_factors (fuel : nat) (node : ast N) (ts : toks) {struct fuel} : res (ast N * toks) :=
      match fuel with
      | 0 => Err OutOfFuel
      | S f =>
          match mul_of ts with
          | Some o =>
              do ts1 <- adv ts;
              do (r, ts2) <- p_exponent f ts1;
              p_factors f (Bin o node r) ts2
          | None => Ok (node, ts)
          end
      end

    (** parser.py:163-179, 570-583 *)
    with p_expr (fuel : nat) (ts : toks) {struct fuel} : res (ast N * toks) :=
      match fuel with
      | 0 => Err OutOfFuel
      | S f => do (n, ts1) <- p_term f ts; p_summands f n ts1
      end
    with p_summands (fuel : nat) (node : ast N) (ts : toks) {struct fuel} : res (ast N * toks) :=
      match fuel with
      | 0 => Err OutOfFuel
      | S f =>
          match add_of ts with
          | Some o =>
              do ts1 <- adv ts;
              do (r, ts2) <- p_term f ts1;
              p_summands f (Bin o node r) ts2
          | None => Ok (node, ts)
          end
      end.

    (** Fuel that always suffices (ParserProofs.v). *)
    Definition enough (ts : toks) : nat := 8 * List.length ts + 8.
    Definition expr_of : P (ast N) := fun ts => p_expr (enough ts) ts.
  End Expr.

  Definition expr : P (ast N) := expr_of false.
  Definition mexpr : P (ast N) := expr_of true.

  (** parser.py:181-203 *)
  Definition comp_expr : P (ast N) := fun ts =>
    do (l, ts1) <- expr ts;
    match comp_of ts1 with
    | Some o =>
        do ts2 <- adv ts1;
        do (r, ts3) <- expr ts2;
        Ok (Comp o l r, ts3)
    | None => Ok (l, ts1)
    end.

  (** parser.py:39-43 and 205-206 (api.py:36-58 [parse_string]): the first token
      is read, the expression is parsed, the rest is not looked at. *)
  Definition parse_tokens (ts : toks) : res (ast N) :=
    match ts with
    | [] => Err IndexErr
    | _ => do (e, _) <- comp_expr ts; Ok e
    end.

  (** ** Model files: parser.py:212-938 *)

  (** parser.py:325-331 *)
  Definition variable : P string := eat_id.

  (** parser.py:256-259 *)
  Definition variable_types : list string :=
    ["var"; "varexo"; "varexo_det"; "parameters"; "predetermined_variables";
     "trend_var"; "log_trend_var"]%string.

  (** parser.py:290-297: [while type in (COMMA, ID)] *)
  Fixpoint declared_names (fuel : nat) (ts : toks) : res (list string * toks) :=
    match fuel with
    | 0 => Err OutOfFuel
    | S f =>
        if is_sym Comma ts then
          do ts1 <- eat_sym Comma ts;
          do (x, ts2) <- variable ts1;
          do (xs, ts3) <- declared_names f ts2;
          Ok (x :: xs, ts3)
        else
          match ts with
          | TId _ :: _ =>
              do (x, ts2) <- variable ts;
              do (xs, ts3) <- declared_names f ts2;
              Ok (x :: xs, ts3)
          | _ => Ok ([], ts)
          end
    end.

  (** parser.py:278-303, entered with a keyword [k] of [variable_types]. *)
  Definition variable_type_declaration (k : string) : P (list declaration) := fun ts =>
    do ts1 <- eat_kw k ts;
    do (xs, ts2) <- declared_names (S (List.length ts1)) ts1;
    do ts3 <- eat_sym Semi ts2;
    Ok (map (fun x => (x, k)) xs, ts3).

  (** parser.py:305-321 *)
  Definition variable_assignment : P (assignment N) := fun ts =>
    do (x, ts1) <- variable ts;
    do ts2 <- eat_sym Equals ts1;
    do (e, ts3) <- expr ts2;
    do ts4 <- eat_sym Semi ts3;
    Ok ((x, e), ts4).

  (** parser.py:238-276.  A token that is neither MODEL, nor a variable type, nor
      an ID is looked at forever ([Hang]). *)
  Fixpoint variable_preamble (fuel : nat) (ts : toks)
    : res (list declaration * list (assignment N) * toks) :=
    match fuel with
    | 0 => Err OutOfFuel
    | S f =>
        match ts with
        | TKw k :: _ =>
            if String.eqb k "model" then Ok ([], [], ts)
            else if mem k variable_types then
              do (ds, ts1) <- variable_type_declaration k ts;
              do (ds', ps, ts2) <- variable_preamble f ts1;
              Ok (ds ++ ds', ps, ts2)
            else Err Hang
        | TId _ :: _ =>
            do (p, ts1) <- variable_assignment ts;
            do (ds, ps, ts2) <- variable_preamble f ts1;
            Ok (ds, p :: ps, ts2)
        | _ => Err Hang
        end
    end.

  (** parser.py:899-938 *)
  Definition single_argument : P (argument N) := fun ts =>
    do (x, ts1) <- eat_id ts;
    if is_sym Equals ts1 then
      do ts2 <- eat_sym Equals ts1;
      match ts2 with
      | TStr s :: _ => do (s, ts3) <- eat_str ts2; Ok (Arg x (Some (AStr s)), ts3)
      | TId s :: _ => do (s, ts3) <- eat_id ts2; Ok (Arg x (Some (AId s)), ts3)
      | _ => do (e, ts3) <- expr ts2; Ok (Arg x (Some (AExpr e)), ts3)
      end
    else Ok (Arg x None, ts1).

  (** Loop [while type == COMMA: eat(COMMA); append(p())]: parser.py:447-449, 891-894. *)
  Fixpoint comma_list {A} (p : P A) (fuel : nat) (ts : toks) : res (list A * toks) :=
    match fuel with
    | 0 => Err OutOfFuel
    | S f =>
        if is_sym Comma ts then
          do ts1 <- eat_sym Comma ts;
          do (a, ts2) <- p ts1;
          do (l, ts3) <- comma_list p f ts2;
          Ok (a :: l, ts3)
        else Ok ([], ts)
    end.

  (** parser.py:884-897 *)
  Definition argument_list : P (list (argument N)) := fun ts =>
    do ts1 <- eat_sym LPare ts;
    do (a, ts2) <- single_argument ts1;
    do (l, ts3) <- comma_list single_argument (S (List.length ts2)) ts2;
    do ts4 <- eat_sym RPare ts3;
    Ok (a :: l, ts4).

  (** parser.py:870-882 *)
  Definition optional_argument_list : P (list (argument N)) := fun ts =>
    if is_sym LPare ts then argument_list ts else Ok ([], ts).

  (** parser.py:454-471 *)
  Definition single_tag : P (argument N) := fun ts =>
    do (x, ts1) <- eat_id ts;
    if is_sym Equals ts1 then
      do ts2 <- eat_sym Equals ts1;
      do (s, ts3) <- eat_str ts2;
      Ok (Arg x (Some (AStr s)), ts3)
    else Ok (Arg x None, ts1).

  (** parser.py:439-452 *)
  Definition tag_list : P (list (argument N)) := fun ts =>
    do ts1 <- eat_sym LBracket ts;
    do (a, ts2) <- single_tag ts1;
    do (l, ts3) <- comma_list single_tag (S (List.length ts2)) ts2;
    do ts4 <- eat_sym RBracket ts3;
    Ok (a :: l, ts4).

  (** parser.py:473-491 *)
  Definition local_declaration : P (statement N) := fun ts =>
    do ts1 <- eat_sym Pound ts;
    do (x, ts2) <- eat_id ts1;
    do ts3 <- eat_sym Equals ts2;
    do (e, ts4) <- mexpr ts3;
    Ok (SLocal x e, ts4).

  (** parser.py:419-437 *)
  Definition model_expression : P (ast N * ast N) := fun ts =>
    do (l, ts1) <- mexpr ts;
    if is_sym Equals ts1 then
      do ts2 <- eat_sym Equals ts1;
      do (r, ts3) <- mexpr ts2;
      Ok ((l, r), ts3)
    else Ok ((l, Num nzero), ts1).

  (** parser.py:399-417 *)
  Definition model_statement : P (statement N) := fun ts =>
    do (s, ts1) <-
      (if is_sym Pound ts then local_declaration ts
       else if is_sym LBracket ts then
         do (tag, ts1) <- tag_list ts;
         do (lr, ts2) <- model_expression ts1;
         Ok (SEq (Some tag) (fst lr) (snd lr), ts2)
       else
         do (lr, ts2) <- model_expression ts;
         Ok (SEq None (fst lr) (snd lr), ts2));
    do ts2 <- eat_sym Semi ts1;
    Ok (s, ts2).

  (** Loops [while type != END: append(p())]: parser.py:393-395, 639-641. *)
  Fixpoint until_end {A} (p : P A) (fuel : nat) (ts : toks) : res (list A * toks) :=
    match fuel with
    | 0 => Err OutOfFuel
    | S f =>
        if is_kw "end" ts then Ok ([], ts)
        else
          do (a, ts1) <- p ts;
          do (l, ts2) <- until_end p f ts1;
          Ok (a :: l, ts2)
    end.

  (** parser.py:387-397 *)
  Definition model : P (list (statement N)) := fun ts =>
    until_end model_statement (S (List.length ts)) ts.

  (** parser.py:368-385 *)
  Definition model_definition : P (list (argument N) * list (statement N)) := fun ts =>
    do ts1 <- eat_kw "model" ts;
    do (args, ts2) <- optional_argument_list ts1;
    do ts3 <- eat_sym Semi ts2;
    do (b, ts4) <- model ts3;
    do ts5 <- eat_kw "end" ts4;
    do ts6 <- eat_sym Semi ts5;
    Ok ((args, b), ts6).

  (** parser.py:620-645, entered with one of the boundary keywords [k]. *)
  Definition boundary_values (k : string) : P (boundary N) := fun ts =>
    do ts1 <- eat_kw k ts;
    do (args, ts2) <- optional_argument_list ts1;
    do ts3 <- eat_sym Semi ts2;
    do (l, ts4) <- until_end variable_assignment (S (List.length ts3)) ts3;
    do ts5 <- eat_kw "end" ts4;
    do ts6 <- eat_sym Semi ts5;
    Ok ((args, l), ts6).

  (** parser.py:696-734: CORR or VAR, then ID COMMA ID EQUALS expr. *)
  Definition pair_shock (k : string) (mk : string -> string -> ast N -> shock N)
    : P (shock N) := fun ts =>
    do ts1 <- eat_kw k ts;
    do (x, ts2) <- variable ts1;
    do ts3 <- eat_sym Comma ts2;
    do (y, ts4) <- variable ts3;
    do ts5 <- eat_sym Equals ts4;
    do (e, ts6) <- expr ts5;
    Ok (mk x y e, ts6).
  Definition correlated_shock : P (shock N) := pair_shock "corr" ShCorr.
  Definition covarying_shock : P (shock N) := pair_shock "var" ShCov.

  (** parser.py:736-750 *)
  Definition variance_shock : P (shock N) := fun ts =>
    do ts1 <- eat_kw "var" ts;
    do (x, ts2) <- variable ts1;
    do ts3 <- eat_sym Equals ts2;
    do (e, ts4) <- expr ts3;
    Ok (ShVar x e, ts4).

  (** parser.py:752-768 *)
  Definition stderr_shock : P (shock N) := fun ts =>
    do ts1 <- eat_kw "var" ts;
    do (x, ts2) <- variable ts1;
    do ts3 <- eat_sym Semi ts2;
    do ts4 <- eat_kw "stderr" ts3;
    do (e, ts5) <- expr ts4;
    Ok (ShStd x e, ts5).

  (** parser.py:792-827 *)
  Definition is_num (ts : toks) : bool := match ts with TNum _ :: _ => true | _ => false end.
  Fixpoint shock_periods_list (fuel : nat) (ts : toks) : res (list (N * N) * toks) :=
    match fuel with
    | 0 => Err OutOfFuel
    | S f =>
        if is_sym Comma ts || is_num ts then
          do ts1 <- (if is_sym Comma ts then eat_sym Comma ts else Ok ts);
          do (a, ts2) <- eat_num ts1;
          do (b, ts3) <-
            (if is_sym Colon ts2 then
               do ts3 <- eat_sym Colon ts2; eat_num ts3
             else Ok (a, ts2));
          do (l, ts4) <- shock_periods_list f ts3;
          Ok ((a, b) :: l, ts4)
        else Ok ([], ts)
    end.

  (** parser.py:829-856 *)
  Fixpoint shock_values_list (fuel : nat) (ts : toks) : res (list (ast N) * toks) :=
    match fuel with
    | 0 => Err OutOfFuel
    | S f =>
        if is_sym Comma ts || is_num ts || is_sym LPare ts then
          do ts1 <- (if is_sym Comma ts then eat_sym Comma ts else Ok ts);
          do (v, ts2) <-
            (if is_num ts1 then do (n, ts2) <- eat_num ts1; Ok (Num n, ts2)
             else
               do ts2 <- eat_sym LPare ts1;
               do (e, ts3) <- expr ts2;
               do ts4 <- eat_sym RPare ts3;
               Ok (e, ts4));
          do (l, ts3) <- shock_values_list f ts2;
          Ok (v :: l, ts3)
        else Ok ([], ts)
    end.

  (** parser.py:770-790 *)
  Definition deterministic_shock : P (shock N) := fun ts =>
    do ts1 <- eat_kw "var" ts;
    do (x, ts2) <- variable ts1;
    do ts3 <- eat_sym Semi ts2;
    do ts4 <- eat_kw "periods" ts3;
    do (ps, ts5) <- shock_periods_list (S (List.length ts4)) ts4;
    do ts6 <- eat_sym Semi ts5;
    do ts7 <- eat_kw "values" ts6;
    do (vs, ts8) <- shock_values_list (S (List.length ts7)) ts7;
    Ok (ShDet x ps vs, ts8).

  Definition tok_is_sym (y : sym) (t : tok N) : bool := is_sym y [t].
  Definition tok_is_kw (k : string) (t : tok N) : bool := is_kw k [t].

  (** parser.py:664-694, entered with CORR or VAR (line 655). *)
  Definition shock_stmt : P (shock N) := fun ts =>
    if is_kw "corr" ts then correlated_shock ts
    else
      do t2 <- peek 2 ts;
      if tok_is_sym Comma t2 then covarying_shock ts
      else if tok_is_sym Equals t2 then variance_shock ts
      else if tok_is_sym Semi t2 then
        do t3 <- peek 3 ts;
        if tok_is_kw "stderr" t3 then stderr_shock ts else deterministic_shock ts
      else deterministic_shock ts.

  (** parser.py:655-658 *)
  Fixpoint shock_list (fuel : nat) (ts : toks) : res (list (shock N) * toks) :=
    match fuel with
    | 0 => Err OutOfFuel
    | S f =>
        if is_kw "corr" ts || is_kw "var" ts then
          do (s, ts1) <- shock_stmt ts;
          do ts2 <- eat_sym Semi ts1;
          do (l, ts3) <- shock_list f ts2;
          Ok (s :: l, ts3)
        else Ok ([], ts)
    end.

  (** parser.py:647-662 *)
  Definition shocks_block : P (list (argument N) * list (shock N)) := fun ts =>
    do ts1 <- eat_kw "shocks" ts;
    do (args, ts2) <- optional_argument_list ts1;
    do ts3 <- eat_sym Semi ts2;
    do (l, ts4) <- shock_list (S (List.length ts3)) ts3;
    do ts5 <- eat_kw "end" ts4;
    do ts6 <- eat_sym Semi ts5;
    Ok ((args, l), ts6).

  (** parser.py:858-866: whatever is found, NotImplementedError is raised. *)
  Definition model_actions (ts : toks) : res unit :=
    match ts with
    | TId _ :: _ => do _ <- variable_assignment ts; Err NotImplErr
    | _ => Err NotImplErr
    end.

  (** ast.py:329-351 *)
  Definition no_actions : actions N := Actions None None None None.
  Definition set_boundary (k : string) (b : boundary N) (a : actions N) : actions N :=
    if String.eqb k "initval" then Actions (Some b) (a_endval a) (a_histval a) (a_shocks a)
    else if String.eqb k "endval" then Actions (a_initval a) (Some b) (a_histval a) (a_shocks a)
    else Actions (a_initval a) (a_endval a) (Some b) (a_shocks a).
  Definition set_shocks (s : list (argument N) * list (shock N)) (a : actions N) : actions N :=
    Actions (a_initval a) (a_endval a) (a_histval a) (Some s).

  Definition boundary_kws : list string := ["initval"; "endval"; "histval"]%string.

  (** parser.py:587-618 *)
  Fixpoint general_model_actions (fuel : nat) (a : actions N) (ts : toks)
    : res (actions N * toks) :=
    match fuel with
    | 0 => Err OutOfFuel
    | S f =>
        match ts with
        | TEof :: _ => Ok (a, ts)
        | TKw k :: _ =>
            if mem k boundary_kws then
              do (b, ts1) <- boundary_values k ts;
              general_model_actions f (set_boundary k b a) ts1
            else if String.eqb k "shocks" then
              do (s, ts1) <- shocks_block ts;
              general_model_actions f (set_shocks s a) ts1
            else do _ <- model_actions ts; general_model_actions f a ts
        | _ => do _ <- model_actions ts; general_model_actions f a ts
        end
    end.

  (** parser.py:223-234 *)
  Definition model_file (ts : toks) : res (modfile N) :=
    do (ds, ps, ts1) <- variable_preamble (S (List.length ts)) ts;
    do (d, ts2) <- model_definition ts1;
    do (a, ts3) <- general_model_actions (S (List.length ts2)) no_actions ts2;
    Ok (ModFile ds ps (fst d) (snd d) a).

  (** parser.py:220-221 *)
  Definition parse_model (ts : toks) : res (modfile N) :=
    match ts with [] => Err IndexErr | _ => model_file ts end.
End Parse.

(** From text: parser.py:26-43 with lexer.py. *)
Section Text.
  Variable N : Type.
  Variable float_of : text -> option N.
  Variable trunc : N -> option Z.
  Variable nzero : N.

  (** api.py:36-58 [parse_string]; [exp] selects the lexer. *)
  Definition parse_string (g : cfg) (t : text) : res (ast N) :=
    do ts <- tokenize N float_of g t;
    parse_tokens N trunc (map tk ts).

  (** DynareParser(DynareLexer(text)).parse(): factory.py:167-170 *)
  Definition parse_file (t : text) : res (modfile N) :=
    do ts <- tokenize N float_of Dynare t;
    parse_model N trunc nzero (map tk ts).
End Text.
