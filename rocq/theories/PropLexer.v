(** Properties C01-C04: tokenising. *)
From Verif Require Import Base Lexer LexerSpec LexerProofs LexerProofs2 LexerProofs3.

(** C01. Written tokens, separated by any blanks, are read back, for every
    number reader and each lexer. *)
Theorem C01_tokens_written_are_read_back :
  forall (N : Type) (float_of : text -> option N) (g : cfg) (b0 : text) (l : written N),
    Forall (fun x => writes N float_of g (fst (fst x)) (snd (fst x)) /\
                     blank (snd x) /\ snd x <> []) l ->
    blank b0 -> l <> [] ->
    exists lts, tokenize N float_of g (b0 ++ render l) = Ok lts /\
      map tk lts = map (fun x => fst (fst x)) l ++ [TEof; TEof].
Proof. exact tokenize_render. Qed.
Print Assumptions C01_tokens_written_are_read_back.

(** C01, C02. Tokenising is exactly the relation [spells] between texts and
    located tokens, for every text of the expression lexers and every Dynare
    text without [/*]; no blank is needed where tokens do not run together. *)
Theorem C01_tokenize_iff_spells :
  forall (N : Type) (float_of : text -> option N) (g : cfg) (t : text) (ts : list (ltok N)),
    (is_dynare g = true -> adjacent "/" "*" t = false) ->
    (tokenize N float_of g t = Ok ts <-> t <> [] /\ spells N float_of g (1, 0) ts t).
Proof. exact tokenize_iff. Qed.
Print Assumptions C01_tokenize_iff_spells.

(** In particular texts with (well-behaved) multi-line comments are covered in
    one direction. *)
Theorem C01_spelled_is_read :
  forall (N : Type) (float_of : text -> option N) (g : cfg) (ts : list (ltok N)) (t : text),
    spells N float_of g (1, 0) ts t -> t <> [] -> tokenize N float_of g t = Ok ts.
Proof. exact tokenize_spells. Qed.
Print Assumptions C01_spelled_is_read.

Example C01_nonvacuous :
  let l : written string :=
    [(TKw "var", chars "var", chars " "); (TId "k", chars "k", [nl]);
     (TSym LTOE, chars "<=", chars "  "); (TNum "0.33", chars "0.33", chars " ")]%string in
  Forall (fun x => writes string lit_of Dynare (fst (fst x)) (snd (fst x)) /\
                   blank (snd x) /\ snd x <> []) l.
Proof.
  cbn beta zeta; repeat (apply Forall_cons; [split; [cbn [fst snd]|split; [reflexivity|discriminate]]|]);
    [| | | |apply Forall_nil].
  - apply (W_kw string lit_of Dynare "var"); vm_compute; tauto.
  - apply (W_id string lit_of Dynare "k"%char []); try reflexivity;
      intros H; vm_compute in H; repeat (destruct H as [H|H]; [discriminate|]); exact H.
  - exact (W_sym string lit_of Dynare LTOE eq_refl).
  - apply (W_num string lit_of Dynare "0"%char (chars ".33")); reflexivity.
Qed.

(** C02. The full claim: the row shown on each token is one plus the number of
    newlines before its end.  True of the location given while tokenising, for
    every text without [/*], and of the location a token shows afterwards
    unless it is a keyword or function name. *)
Theorem C02_rows_partial :
  forall (N : Type) (float_of : text -> option N) (g : cfg) (t : text) (ts : list (ltok N)) (u : ltok N),
    (is_dynare g = true -> adjacent "/" "*" t = false) ->
    tokenize N float_of g t = Ok ts -> In u ts ->
    exists pre post, t = pre ++ post /\ (tline u, tcol u) = pos_after (1, 0) pre /\
      tline u = 1 + count_occ ascii_dec pre nl /\
      (shared N (tk u) = None -> observed N ts u = u).
Proof.
  intros N fo g t ts u Hadj H Hu.
  apply (tokenize_iff N fo g t ts Hadj) in H as [_ Hs].
  destruct (spells_prefix N fo g _ _ _ _ Hs Hu) as (pre & post & Et & Ep).
  exists pre, post; split; [exact Et|]; split; [exact Ep|]; split.
  - pose proof (pos_after_line (1, 0) pre) as X; rewrite <- Ep in X; exact X.
  - apply observed_fresh.
Qed.
Print Assumptions C02_rows_partial.

(** The keyword [var] on row 1 is reported on row 2, where it is used again. *)
Theorem C02_keyword_row_refuted :
  exists t ts u, lex Dynare t = Ok ts /\ In u ts /\
    tline u = 1 /\ tline (observed string ts u) = 2.
Proof.
  exists (chars "var x;" ++ [nl] ++ chars "var y;").
  eexists; exists (LTok (TKw "var") 1 3); split; [vm_compute; reflexivity|].
  vm_compute; auto.
Qed.
Print Assumptions C02_keyword_row_refuted.

(** After a multi-line comment whose first star is followed by a newline the
    row is wrong even while tokenising. *)
Theorem C02_comment_row_refuted :
  exists ts, lex Dynare (chars "/**" ++ [nl] ++ chars "x") = Ok ts /\
    In (LTok (TId "x") 1 5) ts.
Proof. eexists; split; [vm_compute; reflexivity|]; cbn; auto. Qed.
Print Assumptions C02_comment_row_refuted.

(** C03. The full claim is that tokenising ends on every text.  It does for the
    expression lexers, and for Dynare texts that end in a newline and contain
    no [/*]; the model's own fuel is never the reason for stopping. *)
Theorem C03_tokenize_terminates_partial :
  forall (N : Type) (float_of : text -> option N) (g : cfg) (t : text),
    (is_dynare g = true -> adjacent "/" "*" t = false /\ exists t', t = t' ++ [nl]) ->
    tokenize N float_of g t <> Err Hang /\ tokenize N float_of g t <> Err OutOfFuel.
Proof.
  intros N fo g t H; split; [apply tokenize_nohang; exact H|apply tokenize_fuel_suffices].
Qed.
Print Assumptions C03_tokenize_terminates_partial.

Theorem C03_fuel_suffices :
  forall (N : Type) (float_of : text -> option N) (g : cfg) (t : text),
    tokenize N float_of g t <> Err OutOfFuel.
Proof. exact tokenize_fuel_suffices. Qed.
Print Assumptions C03_fuel_suffices.

(** A comment on the last line without a newline, and an unterminated
    multi-line comment, never finish. *)
Theorem C03_comment_at_eof_refuted :
  exists t, lex Dynare t = Err Hang.
Proof. exists (chars "x; // done"); vm_compute; reflexivity. Qed.
Print Assumptions C03_comment_at_eof_refuted.

Theorem C03_unterminated_comment_refuted :
  exists t, lex Dynare t = Err Hang /\ exists t', t = t' ++ [nl].
Proof.
  exists (chars "x; /* done" ++ [nl]); split; [vm_compute; reflexivity|].
  exists (chars "x; /* done"); reflexivity.
Qed.
Print Assumptions C03_unterminated_comment_refuted.

Example C03_nonvacuous :
  adjacent "/" "*" (chars "x = 1; // done" ++ [nl]) = false /\
  is_ok (lex Dynare (chars "x = 1; // done" ++ [nl])) = true.
Proof. vm_compute; auto. Qed.

(** C04. The full claim is that any comment between tokens is ignored.  It is
    for single-line comments and, behind them, multi-line comments without [*]
    and [/] in their body: the tokens of a text do not depend on its layout. *)
Theorem C04_comments_ignored_partial :
  forall (N : Type) (float_of : text -> option N)
         (l l' : list (text * tok N * text)) (e e' : text),
    separated N float_of Dynare l e -> separated N float_of Dynare l' e' ->
    weave N l e <> [] -> weave N l' e' <> [] ->
    map (fun x => snd (fst x)) l = map (fun x => snd (fst x)) l' ->
    exists ts ts',
      tokenize N float_of Dynare (weave N l e) = Ok ts /\
      tokenize N float_of Dynare (weave N l' e') = Ok ts' /\
      filter (not_eof N) (map tk ts) = filter (not_eof N) (map tk ts').
Proof.
  intros N fo l l' e e' H H' Hn Hn' E.
  destruct (tokenize_weave N fo Dynare l e H Hn) as (ts & -> & Ets).
  destruct (tokenize_weave N fo Dynare l' e' H' Hn') as (ts' & -> & Ets').
  exists ts, ts'; repeat split; congruence.
Qed.
Print Assumptions C04_comments_ignored_partial.

(** A star inside a multi-line comment ends it: the rest of the comment is read
    as part of the model. *)
Theorem C04_star_in_comment_refuted :
  exists ts, lexs Dynare "x; /* a * b c */ y;" = Ok ts /\ In (TId "b") (map tk ts)
    /\ In (TId "c") (map tk ts).
Proof. eexists; split; [vm_compute; reflexivity|]; cbn; auto 10. Qed.
Print Assumptions C04_star_in_comment_refuted.

(** A slash in the body ends the comment as well, and a single-line comment
    after a multi-line comment is read as code. *)
Theorem C04_slash_in_comment_refuted :
  exists ts, lexs Dynare "x; /* per/unit */ y;" = Ok ts /\ In (TId "unit") (map tk ts).
Proof. eexists; split; [vm_compute; reflexivity|]; cbn; auto 10. Qed.
Print Assumptions C04_slash_in_comment_refuted.

Theorem C04_line_comment_after_block_refuted :
  exists ts, lex Dynare (chars "/* a */ // note" ++ [nl] ++ chars "x;") = Ok ts /\
    In (TId "note") (map tk ts).
Proof. eexists; split; [vm_compute; reflexivity|]; cbn; auto 10. Qed.
Print Assumptions C04_line_comment_after_block_refuted.

Example C04_nonvacuous :
  let l : list (text * tok string * text) :=
    [([], TId "x"%string, chars "x");
     (chars " " ++ concat [chars "% c" ++ [nl]] ++ concat [chars "/* d */ "], TSym Semi, chars ";")] in
  separated string lit_of Dynare l [] /\
  weave string l [] = chars "x % c" ++ [nl] ++ chars "/* d */ ;".
Proof.
  cbn beta zeta; split; [|reflexivity]; cbn [separated].
  split; [|split; [|split; [reflexivity|split; [|split; [|split; [exact I|]]]]]].
  - apply (Layout Dynare [] [] []); auto; reflexivity.
  - apply (W_id string lit_of Dynare "x"%char []); try reflexivity;
      intros H; vm_compute in H; repeat (destruct H as [H|H]; [discriminate|]); exact H.
  - apply Layout; try reflexivity; [| |discriminate].
    + apply Forall_cons; [|apply Forall_nil].
      apply (LC_percent (chars " c") []); [|reflexivity].
      vm_compute; intros [H|[H|[]]]; discriminate.
    + apply Forall_cons; [|apply Forall_nil].
      apply (BC (chars " d ") (chars " ")); try reflexivity;
        vm_compute; intros [H|[H|[H|[]]]]; discriminate.
  - exact (W_sym string lit_of Dynare Semi eq_refl).
  - apply (Layout Dynare [] [] []); auto; reflexivity.
Qed.
