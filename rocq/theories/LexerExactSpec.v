(** Specification of tokenising for every text, with multi-line comments as the
    code ends them: what every text is read as, or which error it raises. *)
From Verif Require Import Base Lexer LexerSpec.

Section Spec.
  Variable N : Type.
  Variable float_of : text -> option N.
  Variable g : cfg.

  (** The two characters that open a multi-line comment. *)
  Definition opening : text := ["/"%char; "*"%char].

  (** The body of a multi-line comment goes on until a star, or until a character
      in front of a slash; the slash may be the body's own first character. *)
  Definition goes_on (b : text) : Prop := ~ In "*"%char b /\ ~ In "/"%char (tl b).

  (** The character that ends the body is left together with the one behind it,
      whatever that is: [x] decides row and column for both. *)
  Definition jump (p : pos) (x : ascii) : pos :=
    if ceq x nl then (S (fst p), 0) else (fst p, 2 + snd p).

  (** [multis p bs r q]: starting at [p], the text [bs] is read as multi-line
      comments and the blanks behind each, when [r] follows; reading ends at [q].
      [x] and [y] are the two characters left at the end of a body; only at the
      end of the text [y] may be missing. *)
  Inductive multis : pos -> text -> text -> pos -> Prop :=
  | M_none p r : multis p [] r p
  | M_one p b x y w bs r q :
      ~ In "*"%char b -> ~ In "/"%char (tl (b ++ [x])) ->
      x = "*"%char \/ y = ["/"%char] ->
      List.length y = 1 \/ y ++ w ++ bs ++ r = [] ->
      blank w ->
      multis (pos_after (jump (pos_after p (opening ++ b)) x) w) bs r q ->
      multis p (opening ++ b ++ x :: y ++ w ++ bs) r q.

  (** What stands in front of the rest [r]: blanks, then in Dynare files
      single-line comments, then multi-line comments ([k]: there are some). *)
  Inductive lays : pos -> text -> text -> pos -> bool -> Prop :=
  | Lays p w cs bs r q (k : bool) :
      blank w -> Forall line_comment cs ->
      multis (pos_after p (w ++ concat cs)) bs r q ->
      (k = true <-> bs <> []) ->
      (is_dynare g = false -> cs = [] /\ bs = []) ->
      lays p (w ++ concat cs ++ bs) r q k.

  (** Behind a multi-line comment [%] and [//] do not start a comment. *)
  Definition writes_behind (k : bool) (t : tok N) (w : text) : Prop :=
    writes N float_of g t w \/ (k = true /\ t = TSym Percent /\ w = ["%"%char]).
  Definition follows_behind (k : bool) (t : tok N) (r : text) : Prop :=
    follows N g t r \/ (k = true /\ t = TSym Div /\ hd_error r = Some "/"%char).

  (** [reads p ts t]: the text [t] is read as the located tokens [ts]. *)
  Inductive reads : pos -> list (ltok N) -> text -> Prop :=
  | R_eof p : reads p [at_pos N TEof p] []
  | R_layout p lay q k :
      lays p lay [] q k -> lay <> [] ->
      reads p [at_pos N TEof q; at_pos N TEof q] lay
  | R_tok p lay q k t w ts r :
      lays p lay (w ++ r) q k -> writes_behind k t w -> follows_behind k t r ->
      reads (pos_after q w) ts r ->
      reads p (at_pos N t (pos_after q w) :: ts) (lay ++ w ++ r).

  (** Characters that begin no token. *)
  Definition begins_none (c : ascii) : bool :=
    negb (isspace c || ident_start g c || number_char c || ceq c squote || ceq c dquote ||
          existsb (ceq c) (chars ",;:#&|@!~%<>=+-*/()[]{}") || ceq c backslash ||
          match g with BasePython => false | _ => ceq c "^" end).

  (** [bad e r]: at a place that is not a comment, the text [r] raises [e]. *)
  Inductive bad : exn -> text -> Prop :=
  | B_number c w r :                          (* such as 1.2.3 *)
      forallb number_char (c :: w) = true ->
      match r with [] => True | d :: _ => number_char d = false end ->
      float_of (c :: w) = None -> bad ValueErr ((c :: w) ++ r)
  | B_quote q b :                             (* no closing quote *)
      q = squote \/ q = dquote -> ~ In q b -> bad TypeErr (q :: b)
  | B_char c r : begins_none c = true -> bad SyntaxErr (c :: r).

  (** [fails e p t]: reading [t] from [p] on ends in [e]; [Hang]: it never ends. *)
  Inductive fails : exn -> pos -> text -> Prop :=
  | F_line p w cs c b :                       (* a last line that is a comment *)
      is_dynare g = true -> blank w -> Forall line_comment cs ->
      c = ["%"%char] \/ c = ["/"%char; "/"%char] -> ~ In nl b ->
      fails Hang p (w ++ concat cs ++ c ++ b)
  | F_multi p lay q k b :                     (* a comment that is not ended *)
      is_dynare g = true -> lays p lay (opening ++ b) q k -> goes_on b ->
      fails Hang p (lay ++ opening ++ b)
  | F_bad p lay q k e r :
      lays p lay r q k -> bad e r -> fails e p (lay ++ r)
  | F_tok p lay q k t w e r :
      lays p lay (w ++ r) q k -> writes_behind k t w -> follows_behind k t r ->
      fails e (pos_after q w) r ->
      fails e p (lay ++ w ++ r).
End Spec.
