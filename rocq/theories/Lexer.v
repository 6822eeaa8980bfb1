(** Model of pynare/parsing/lexer.py (BaseLexer and DynareLexer). *)
From Verif Require Export Base.

Definition text := list ascii.
Definition chars (s : string) : text := list_ascii_of_string s.
Definition str (t : text) : string := string_of_list_ascii t.

Definition nl : ascii := ascii_of_nat 10.
Definition squote : ascii := ascii_of_nat 39.
Definition dquote : ascii := ascii_of_nat 34.
Definition backslash : ascii := ascii_of_nat 92.

Definition ceq : ascii -> ascii -> bool := Ascii.eqb.

(** [str.isspace], [str.isalpha], [str.isdigit] restricted to ASCII. *)
Definition isspace (c : ascii) : bool :=
  let n := nat_of_ascii c in
  ((9 <=? n) && (n <=? 13)) || ((28 <=? n) && (n <=? 32)).
Definition isdigit (c : ascii) : bool :=
  let n := nat_of_ascii c in (48 <=? n) && (n <=? 57).
Definition isalpha (c : ascii) : bool :=
  let n := nat_of_ascii c in
  ((65 <=? n) && (n <=? 90)) || ((97 <=? n) && (n <=? 122)).
Definition isalnum (c : ascii) : bool := isalpha c || isdigit c.

(** Which lexer: [DynareLexer] (lexer.py:387) or [BaseLexer] with its [exp]
    argument (lexer.py:23-32). *)
Inductive cfg := BaseStandard | BasePython | Dynare.
Definition is_dynare (g : cfg) : bool := match g with Dynare => true | _ => false end.
Definition exp_python (g : cfg) : bool := match g with BasePython => true | _ => false end.

(** Punctuation and operator token types, base.py:25-58. *)
Inductive sym :=
| Comma | Period | Semi | Colon | Pound | Ampersand | Pipe | Atsign | Exclamation
| Tilde | Percent | Backslash | LTs | LTOE | GTs | GTOE | Equality
| LPare | RPare | LBracket | RBracket | LBrace | RBrace
| Plus | Minus | Mul | Div | Power | Equals.

Definition sym_eq_dec : forall a b : sym, {a = b} + {a <> b}.
Proof. decide equality. Defined.
Definition sym_eqb (a b : sym) : bool := if sym_eq_dec a b then true else false.

(** Tokens, base.py:82-107: type and value.  [TKw] are the tokens of
    [dynare_reserved_kw] (type = value = the keyword), [TFun] those of
    [reserved_funcs] (type FUNCTION). *)
Inductive tok (N : Type) :=
| TEof
| TId (s : string)
| TNum (n : N)
| TStr (s : string)
| TFun (f : string)
| TKw (k : string)
| TSym (s : sym).
Arguments TEof {N}. Arguments TId {N} s. Arguments TNum {N} n. Arguments TStr {N} s.
Arguments TFun {N} f. Arguments TKw {N} k. Arguments TSym {N} s.

(** A token with the location recorded on it. *)
Record ltok (N : Type) := LTok { tk : tok N; tline : nat; tcol : nat }.
Arguments LTok {N}. Arguments tk {N}. Arguments tline {N}. Arguments tcol {N}.

(** base.py:110-129 *)
Definition reserved_funcs : list string :=
  ["exp"; "log"; "ln"; "log10"; "sqrt"; "abs"; "sign"; "sin"; "cos"; "tan"; "asin";
   "acos"; "atan"; "max"; "min"; "normcdf"; "normpdf"; "erf"]%string.

(** dynare.py:127-258, the keys of [dynare_reserved_kw]. *)
Definition dynare_kw : list string :=
  ["var"; "varexo"; "varexo_det"; "parameters"; "predetermined_variables"; "trend_var"; "log_trend_var"; "change_type"; "end"; "model"; "initval"; "endval"; "histval"; "resid"; "initval_file"; "histval_file"; "shocks"; "periods"; "values"; "corr"; "stderr"; "dsample"; "steady"; "homotopy_setup"; "steady_state_model"; "check"; "model_diagnostics"; "model_info"; "print_bytecode_dynamic_model"; "print_bytecode_static_model"; "perfect_foresight_setup"; "perfect_foresight_solver"; "simul"; "stoch_simul"; "extended_path"; "varobs"; "estimated_params"; "estimated_params_init"; "estimated_params_bounds"; "estimation"; "unit_root_vars"; "bvar_density"; "model_comparison"; "shock_decomposition"; "shock_groups"; "realtime_shock_decomposition"; "plot_shock_decomposition"; "calib_smoother"; "forecast"; "conditional_forecast"; "conditional_forecast_paths"; "plot_conditional_forecast"; "bvar_forecast"; "init_plan"; "basic_plan"; "flip_plan"; "det_cond_forecast"; "smoother2histval"; "osr"; "osr_params"; "osr_params_bounds"; "ramsey_model"; "ramsey_constraints"; "ramsey_policy"; "discretionary_policy"; "planner_objective"; "dynare_sensitivity"; "irf_calibration"; "momen_calibration"; "identification"; "markov_switching"; "svar"; "sbvar"; "svar_identification"; "ms_estimation"; "ms_simulation"; "ms_compute_mdd"; "ms_compute_probabilities"; "ms_irf"; "ms_forecast"; "ms_variance_decomposition"]%string.

(** lexer.py:21 and 389: [reserved_kw]. *)
Definition kws (g : cfg) : list string := if is_dynare g then dynare_kw else [].

Section Lex.
  Variable N : Type.
  (** python's [float(result)] on a string of digits and dots; [None] is ValueError. *)
  Variable float_of : text -> option N.
  Variable g : cfg.

  (** Lexer state, lexer.py:34-36: the text from [self.pos] on (so
      [current_char] is its head and [None] is the empty list), [current_line],
      [line_pos]. *)
  Record lst := St { rest : text; line : nat; col : nat }.

  Definition cur (s : lst) : option ascii := hd_error (rest s).

  (** lexer.py:62-73.  Only the character being left is compared with newline. *)
  Definition advance (n : nat) (s : lst) : lst :=
    match rest s with
    | c :: _ => if ceq c nl then St (skipn n (rest s)) (S (line s)) 0
                else St (skipn n (rest s)) (line s) (col s + n)
    | [] => St [] (line s) (col s + n)
    end.

  (** lexer.py:75-80 *)
  Definition peek (s : lst) : option ascii := nth_error (rest s) 1.

  Definition is_char (o : option ascii) (c : ascii) : bool :=
    match o with Some c' => ceq c' c | None => false end.

  (** Position after leaving character [c] with [advance(1)]. *)
  Definition step_line (c : ascii) (l : nat) : nat := if ceq c nl then S l else l.
  Definition step_col (c : ascii) (k : nat) : nat := if ceq c nl then 0 else k + 1.

  (** The loops that advance one character at a time while [p] holds:
      lexer.py:117-119 (whitespace), 143-146 (identifiers), 159-165 (numbers).
      Returns the characters passed and the new state. *)
  Fixpoint span (p : ascii -> bool) (r : text) (l k : nat) : text * lst :=
    match r with
    | c :: r' =>
        if p c then
          let (w, s) := span p r' (step_line c l) (step_col c k) in (c :: w, s)
        else ([], St r l k)
    | [] => ([], St [] l k)
    end.

  (** lexer.py:117-119 *)
  Definition skip_whitespace (s : lst) : lst := snd (span isspace (rest s) (line s) (col s)).

  (** lexer.py:203-219 and 399-411.  [None] (end of text) is never valid. *)
  Definition valid_varchar (c : ascii) : bool := isalnum c || ceq c "_".
  Definition valid_begchar (c : ascii) : bool :=
    isalpha c || (negb (is_dynare g) && ceq c "_").
  Definition valid_numchar (c : ascii) : bool := isdigit c || ceq c ".".

  (** lexer.py:137-152.  The location is assigned after the identifier. *)
  Definition lex_id (s : lst) : ltok N * lst :=
    let (w, s') := span valid_varchar (rest s) (line s) (col s) in
    let name := str w in
    let t := if mem name (kws g) then TKw name
             else if mem name reserved_funcs then TFun name
             else TId name in
    (LTok t (line s') (col s'), s').

  (** lexer.py:154-167 *)
  Definition lex_number (s : lst) : res (ltok N * lst) :=
    let (w, s') := span valid_numchar (rest s) (line s) (col s) in
    match float_of w with
    | Some n => Ok (LTok (TNum n) (line s') (col s'), s')
    | None => Err ValueErr
    end.

  (** lexer.py:169-180, after the opening quote: up to the closing quote.  At
      the end of the text [result += None] raises TypeError. *)
  Fixpoint lex_str_body (q : ascii) (r : text) (l k : nat) : res (text * lst) :=
    match r with
    | [] => Err TypeErr
    | c :: r' =>
        if ceq c q then Ok ([], St r l k)
        else do ws <- lex_str_body q r' (step_line c l) (step_col c k);
             Ok (c :: fst ws, snd ws)
    end.

  Definition lex_string (q : ascii) (s : lst) : res (ltok N * lst) :=
    let s1 := advance 1 s in
    do ws <- lex_str_body q (rest s1) (line s1) (col s1);
    let s2 := advance 1 (snd ws) in
    Ok (LTok (TStr (str (fst ws))) (line s2) (col s2), s2).

  (** lexer.py:261-379: the punctuation branches in their order; the result is
      the token type and how far to advance. [None]: no branch applies. *)
  Definition lex_sym (c : ascii) (pk : option ascii) : option (sym * nat) :=
    if ceq c "," then Some (Comma, 1)
    else if ceq c "." then Some (Period, 1)
    else if ceq c ";" then Some (Semi, 1)
    else if ceq c ":" then Some (Colon, 1)
    else if ceq c "#" then Some (Pound, 1)
    else if ceq c "&" then Some (Ampersand, 1)
    else if ceq c "|" then Some (Pipe, 1)
    else if ceq c "@" then Some (Atsign, 1)
    else if ceq c "!" then Some (Exclamation, 1)
    else if ceq c "~" then Some (Tilde, 1)
    else if ceq c "%" then Some (Percent, 1)
    else if ceq c "<" && is_char pk "=" then Some (LTOE, 2)
    else if ceq c "<" then Some (LTs, 1)
    else if ceq c ">" && is_char pk "=" then Some (GTOE, 2)
    else if ceq c ">" then Some (GTs, 1)
    else if ceq c "=" && is_char pk "=" then Some (Equality, 2)
    else if ceq c backslash then Some (Backslash, 1)
    else if negb (exp_python g) && ceq c "^" then Some (Power, 1)
    else if exp_python g && ceq c "*" && is_char pk "*" then Some (Power, 2)
    else if ceq c "+" then Some (Plus, 1)
    else if ceq c "-" then Some (Minus, 1)
    else if ceq c "*" then Some (Mul, 1)
    else if ceq c "/" then Some (Div, 1)
    else if ceq c "(" then Some (LPare, 1)
    else if ceq c ")" then Some (RPare, 1)
    else if ceq c "[" then Some (LBracket, 1)
    else if ceq c "]" then Some (RBracket, 1)
    else if ceq c "{" then Some (LBrace, 1)
    else if ceq c "}" then Some (RBrace, 1)
    else if ceq c "=" then Some (Equals, 1)
    else None.

  (** lexer.py:242-383: the rest of [next_token] once whitespace and comments
      are skipped.  At the end of the text no branch applies, [error(None)]
      (lexer.py:53-58) does nothing and the loop ends with an EOF token. *)
  Definition token_at (s : lst) : res (ltok N * lst) :=
    match rest s with
    | [] => Ok (LTok TEof (line s) (col s), s)
    | c :: _ =>
        if valid_begchar c then Ok (lex_id s)
        else if valid_numchar c then lex_number s
        else if ceq c squote then lex_string squote s
        else if ceq c dquote then lex_string dquote s
        else match lex_sym c (peek s) with
             | Some (y, n) =>
                 let s' := advance n s in Ok (LTok (TSym y) (line s') (col s'), s')
             | None => Err SyntaxErr
             end
    end.

  (** lexer.py:123-124, 414-421 *)
  Definition is_singleline_comment (s : lst) : bool :=
    is_dynare g &&
    (is_char (cur s) "%" || (is_char (cur s) "/" && is_char (peek s) "/")).

  (** lexer.py:423-426: [while current_char != '\n': advance()].  At the end of
      the text [current_char] stays [None], which differs from a newline for
      ever: [Hang]. *)
  Fixpoint to_newline (r : text) (l k : nat) : res lst :=
    match r with
    | [] => Err Hang
    | c :: r' => if ceq c nl then Ok (St r l k)
                 else to_newline r' (step_line c l) (step_col c k)
    end.

  (** lexer.py:423-427 *)
  Definition skip_singleline_comment (s : lst) : res lst :=
    do s' <- to_newline (rest s) (line s) (col s); Ok (skip_whitespace s').

  (** lexer.py:126-127, 429-432 *)
  Definition is_multiline_comment (s : lst) : bool :=
    is_dynare g && (is_char (cur s) "/" && is_char (peek s) "*").

  (** lexer.py:437-438: [while current_char != '*' and peek() != '/']; at the
      end of the text both are [None] for ever: [Hang]. *)
  Fixpoint to_comment_end (r : text) (l k : nat) : res lst :=
    match r with
    | [] => Err Hang
    | c :: r' => if ceq c "*" || is_char (hd_error r') "/" then Ok (St r l k)
                 else to_comment_end r' (step_line c l) (step_col c k)
    end.

  (** lexer.py:434-442 *)
  Definition skip_multiline_comment (s : lst) : res lst :=
    let s1 := advance 2 s in
    do s2 <- to_comment_end (rest s1) (line s1) (col s1);
    Ok (skip_whitespace (advance 2 s2)).

  (** lexer.py:236-240: [while is_comment(): skip_comment()] *)
  Fixpoint skip_while (fuel : nat) (test : lst -> bool) (skip : lst -> res lst) (s : lst)
    : res lst :=
    match fuel with
    | 0 => Err OutOfFuel
    | S f => if test s then do s' <- skip s; skip_while f test skip s' else Ok s
    end.

  Definition skip_comments (s : lst) : res lst :=
    do s1 <- skip_while (S (List.length (rest s))) is_singleline_comment skip_singleline_comment s;
    skip_while (S (List.length (rest s1))) is_multiline_comment skip_multiline_comment s1.

  (** lexer.py:223-383 *)
  Definition next_token (s : lst) : res (ltok N * lst) :=
    match rest s with
    | [] => Ok (LTok TEof (line s) (col s), s)          (* line 383 *)
    | _ =>
        let s1 := skip_whitespace s in                  (* lines 227-229 *)
        match rest s1 with
        | [] => Ok (LTok TEof (line s1) (col s1), s1)   (* lines 230-232 *)
        | _ => do s2 <- skip_comments s1; token_at s2
        end
    end.

  (** lexer.py:40-48 *)
  Fixpoint tokenize_loop (fuel : nat) (s : lst) : res (list (ltok N)) :=
    match rest s with
    | [] => Ok [LTok TEof (line s) (col s)]
    | _ =>
        match fuel with
        | 0 => Err OutOfFuel
        | S f =>
            do ts <- next_token s;
            do more <- tokenize_loop f (snd ts);
            Ok (fst ts :: more)
        end
    end.

  (** lexer.py:23-48: construction (IndexError on the empty text) and tokenising. *)
  Definition tokenize (t : text) : res (list (ltok N)) :=
    match t with
    | [] => Err IndexErr
    | _ => tokenize_loop (List.length t) (St t 1 0)
    end.

  (** Keyword and function tokens are single shared objects
      (base.py:110-129, dynare.py:127-258) whose location is overwritten at each
      occurrence (lexer.py:147-151): after tokenising, every occurrence shows the
      location of the last one. *)
  Definition shared (t : tok N) : option string :=
    match t with TKw k => Some k | TFun f => Some f | _ => None end.

  Definition same_shared (a b : tok N) : bool :=
    match shared a, shared b with
    | Some x, Some y => String.eqb x y
    | _, _ => false
    end.

  Definition observed (ts : list (ltok N)) (t : ltok N) : ltok N :=
    match find (fun u => same_shared (tk u) (tk t)) (rev ts) with
    | Some u => LTok (tk t) (tline u) (tcol u)
    | None => t
    end.

  Definition observed_stream (ts : list (ltok N)) : list (ltok N) := map (observed ts) ts.
End Lex.

