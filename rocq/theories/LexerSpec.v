(** Specification of tokenising, independent of how the lexer scans: what text
    spells which located tokens. *)
From Verif Require Import Base Lexer.

Section Spec.
  Variable N : Type.
  Variable float_of : text -> option N.
  Variable g : cfg.

  Definition letter (c : ascii) : bool := isalpha c.
  Definition ident_start (c : ascii) : bool :=
    match g with Dynare => letter c | _ => letter c || ceq c "_" end.
  Definition ident_char (c : ascii) : bool := letter c || isdigit c || ceq c "_".
  Definition number_char (c : ascii) : bool := isdigit c || ceq c ".".

  (** How each punctuation or operator token is written. *)
  Definition sym_text (y : sym) : text :=
    match y with
    | Comma => chars "," | Period => chars "." | Semi => chars ";" | Colon => chars ":"
    | Pound => chars "#" | Ampersand => chars "&" | Pipe => chars "|" | Atsign => chars "@"
    | Exclamation => chars "!" | Tilde => chars "~" | Percent => chars "%"
    | Backslash => [backslash]
    | LTs => chars "<" | LTOE => chars "<=" | GTs => chars ">" | GTOE => chars ">="
    | Equality => chars "==" | LPare => chars "(" | RPare => chars ")"
    | LBracket => chars "[" | RBracket => chars "]" | LBrace => chars "{" | RBrace => chars "}"
    | Plus => chars "+" | Minus => chars "-" | Mul => chars "*" | Div => chars "/"
    | Power => match g with BasePython => chars "**" | _ => chars "^" end
    | Equals => chars "="
    end.

  (** A lone period is read as a (malformed) number, and [%] starts a comment in
      Dynare files. *)
  Definition writable (y : sym) : bool :=
    match y, g with
    | Period, _ => false
    | Percent, Dynare => false
    | _, _ => true
    end.

  (** [writes t w]: the text [w] is a way to write the token [t]. *)
  Inductive writes : tok N -> text -> Prop :=
  | W_id c r :
      ident_start c = true -> forallb ident_char r = true ->
      ~ In (str (c :: r)) (kws g) -> ~ In (str (c :: r)) reserved_funcs ->
      writes (TId (str (c :: r))) (c :: r)
  | W_kw k : In k (kws g) -> writes (TKw k) (chars k)
  | W_fun f : In f reserved_funcs -> writes (TFun f) (chars f)
  | W_num c r n :
      forallb number_char (c :: r) = true -> float_of (c :: r) = Some n ->
      writes (TNum n) (c :: r)
  | W_str q b :
      q = squote \/ q = dquote -> ~ In q b ->
      writes (TStr (str b)) (q :: b ++ [q])
  | W_sym y : writable y = true -> writes (TSym y) (sym_text y).

  (** Characters that may not directly follow a token, because they would
      continue it (or start a comment). *)
  Definition sticks (t : tok N) (c : ascii) : bool :=
    match t with
    | TId _ | TKw _ | TFun _ => ident_char c
    | TNum _ => number_char c
    | TSym LTs | TSym GTs | TSym Equals => ceq c "="
    | TSym Mul => match g with BasePython => ceq c "*" | _ => false end
    | TSym Div => match g with Dynare => ceq c "/" || ceq c "*" | _ => false end
    | _ => false
    end.
  Definition follows (t : tok N) (r : text) : Prop :=
    match r with [] => True | c :: _ => sticks t c = false end.

  (** White space. *)
  Definition blank (w : text) : Prop := forallb isspace w = true.

  (** A single-line comment with the white space behind it. *)
  Inductive line_comment : text -> Prop :=
  | LC_percent b w : ~ In nl b -> blank w ->
      line_comment ("%"%char :: b ++ nl :: w)
  | LC_slashes b w : ~ In nl b -> blank w ->
      line_comment ("/"%char :: "/"%char :: b ++ nl :: w).

  (** A multi-line comment without [*] and [/] in its body. *)
  Inductive block_comment : text -> Prop :=
  | BC b w : ~ In "*"%char b -> ~ In "/"%char b -> blank w ->
      block_comment ("/"%char :: "*"%char :: b ++ "*"%char :: "/"%char :: w).

  (** What may stand between tokens: white space, and in Dynare files then
      single-line comments and then multi-line comments. *)
  Inductive layout : text -> Prop :=
  | Layout w cs bs :
      blank w -> Forall line_comment cs -> Forall block_comment bs ->
      (is_dynare g = false -> cs = [] /\ bs = []) ->
      layout (w ++ concat cs ++ concat bs).

  (** Row and column reached after reading a text: rows count from 1, columns
      from 0 after each newline. *)
  Definition pos := (nat * nat)%type.
  Definition pos_step (p : pos) (c : ascii) : pos :=
    if ceq c nl then (S (fst p), 0) else (fst p, S (snd p)).
  Definition pos_after (p : pos) (t : text) : pos := fold_left pos_step t p.

  Definition at_pos (t : tok N) (p : pos) : ltok N := LTok t (fst p) (snd p).

  (** [spells p ts t]: starting at position [p], the text [t] spells the located
      tokens [ts]; a token carries the position of its end.  End of file is
      reported twice when there is layout before it. *)
  Inductive spells : pos -> list (ltok N) -> text -> Prop :=
  | Sp_eof p : spells p [at_pos TEof p] []
  | Sp_layout p lay :
      layout lay -> lay <> [] ->
      spells p [at_pos TEof (pos_after p lay); at_pos TEof (pos_after p lay)] lay
  | Sp_tok p lay t w ts r :
      layout lay -> writes t w -> follows t r ->
      spells (pos_after p (lay ++ w)) ts r ->
      spells p (at_pos t (pos_after p (lay ++ w)) :: ts) (lay ++ w ++ r).
End Spec.
