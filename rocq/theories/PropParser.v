(** Properties C05-C10: parsing. *)
From Verif Require Import Base Syntax Lexer LexerSpec LexerProofs3 Parser ParserSpec ParserProofs
  ParserProofs2 ModFileSpec ModFileProofs ModFileProofs2 ModFileProofs3.

(** Integers as a concrete number type for the examples. *)
Definition dec_of (w : text) : option Z :=
  if forallb isdigit w && negb (match w with [] => true | _ => false end)
  then Some (fold_left (fun n c => (10 * n + Z.of_nat (nat_of_ascii c) - 48)%Z) w 0%Z) else None.
Definition parse_s (s : string) := parse_string Z dec_of Some BaseStandard (chars s).
Definition parse_f (s : string) := parse_file Z dec_of Some 0%Z (chars s).

(** C05. A printed expression is read back: from tokens inside and outside the
    model block, and from text. *)
Theorem C05_printed_expression_is_read_back :
  forall (N : Type) (float_of : text -> option N) (trunc : N -> option Z) (num_for : Z -> N)
    (g : cfg) (e : ast N) (b0 : text) (l : written N),
    printable_top N trunc num_for e ->
    Forall (fun x => writes N float_of g (fst (fst x)) (snd (fst x)) /\
                     blank (snd x) /\ snd x <> []) l ->
    blank b0 -> map (fun x => fst (fst x)) l = print N num_for 0 e ->
    parse_string N float_of trunc g (b0 ++ render l) = Ok e.
Proof. intros; eapply parse_string_print; eassumption. Qed.
Print Assumptions C05_printed_expression_is_read_back.

(** The same in the model block, where [x(-1)] is a variable: the expression is
    read back and exactly the tokens behind it are left, if the next token cannot
    continue an expression. *)
Theorem C05_printed_model_expression_is_read_back :
  forall (N : Type) (trunc : N -> option Z) (m : bool) (num_for : Z -> N) (e : ast N) (rest : list (tok N)),
    printable N trunc m num_for e ->
    match rest with
    | [] | TFun _ :: _ => False
    | TSym y :: _ => ~ In y [LPare; Power; Mul; Div; Plus; Minus]
    | _ => True
    end ->
    expr_of N trunc m (print N num_for 0 e ++ rest) = Ok (e, rest).
Proof.
  intros N trunc m nf e rest H Hr; apply expr_print; [exact H|].
  destruct rest as [|[| | | | | |y] rest]; cbn; auto; destruct y; cbn in *; tauto.
Qed.
Print Assumptions C05_printed_model_expression_is_read_back.

Example C05_nonvacuous :
  let e : ast Z := Bin BSub (Bin BSub (Var "a") (Bin BPow (Bin BMul (Var "b") (Num 2%Z)) (Un UNeg (PVar "c" (-1)%Z))))
                     (Fun "exp" (Bin BPow (Var "x") (Bin BPow (Var "y") (Var "z")))) in
  printable Z Some true (fun k => k) e /\
  print Z (fun k => k) 0 e =
    [TId "a"; TSym Minus; TSym LPare; TId "b"; TSym Mul; TNum 2%Z; TSym RPare; TSym Power;
     TSym LPare; TSym Minus; TId "c"; TSym LPare; TSym Minus; TNum 1%Z; TSym RPare; TSym RPare;
     TSym Minus; TFun "exp"; TSym LPare; TId "x"; TSym Power; TId "y"; TSym Power; TId "z"; TSym RPare]%string.
Proof. cbn; split; [tauto|reflexivity]. Qed.
Example C05_examples :
  parse_s "a - b - c^d^e*f" =
    Ok (Bin BSub (Bin BSub (Var "a") (Var "b")) (Bin BMul (Bin BPow (Var "c") (Bin BPow (Var "d") (Var "e"))) (Var "f"))).
Proof. vm_compute; reflexivity. Qed.

(** C06. The full claim: if parsing succeeds, the tokens read derive the tree in
    the grammar of the docstrings.  True when no function name stands directly
    behind a closing parenthesis. *)
Theorem C06_parsed_is_derived_partial :
  forall (N : Type) (trunc : N -> option Z) (m : bool) (ts rest : list (tok N)) (e : ast N),
    expr_of N trunc m ts = Ok (e, rest) -> juxtaposed N ts = false ->
    exists pre, ts = pre ++ rest /\ derives N trunc m NExpr e pre.
Proof.
  intros N trunc m ts rest e H J.
  apply expr_iff in H as (pre & o & en & -> & Hr & _).
  exists pre; split; [reflexivity|].
  eapply reads_derives; [exact Hr|right]; apply juxtaposed_app in J as [J _]; exact J.
Qed.
Print Assumptions C06_parsed_is_derived_partial.

(** Without that condition the parser is characterised exactly: it reads the
    grammar [reads] (which resolves the ambiguity of signs, and lets a function
    call be preceded by ignored function calls) as far as possible. *)
Theorem C06_parser_exact :
  forall (N : Type) (trunc : N -> option Z) (m : bool) (ts rest : list (tok N)) (e : ast N),
    expr_of N trunc m ts = Ok (e, rest) <->
    exists pre o en, ts = pre ++ rest /\ reads N trunc m true NExpr o en e pre /\ ends N m NExpr o en rest.
Proof. intros; apply expr_iff. Qed.
Print Assumptions C06_parser_exact.

Theorem C06_juxtaposed_calls_refuted :
  parse_s "sin(x) cos(y)" = Ok (Fun "cos" (Var "y")) /\
  ~ derives_comp Z Some false (Fun "cos" (Var "y"))
      [TFun "sin"; lp; TId "x"; rp; TFun "cos"; lp; TId "y"; rp]%string.
Proof.
  split; [vm_compute; reflexivity|].
  intros H.
  inversion H; subst; clear H.
  do 4 match goal with H : derives _ _ _ _ _ _ |- _ => inversion H; subst; clear H end.
  match goal with H : derives _ _ _ _ _ _ |- _ => inversion H end.
Qed.
Print Assumptions C06_juxtaposed_calls_refuted.

Example C06_nonvacuous :
  let ts : list (tok Z) := [TId "x"; TSym Plus; TFun "exp"; lp; TId "y"; rp; TSym Semi]%string in
  expr_of Z Some false ts = Ok (Bin BAdd (Var "x") (Fun "exp" (Var "y")), [TSym Semi])%string /\
  juxtaposed Z ts = false.
Proof. split; vm_compute; reflexivity. Qed.

(** C07. The full claim (all tokens are used) is false; what holds: the tree is
    the reading of some initial tokens that cannot be continued, and nothing is
    said about the tokens behind them. *)
Theorem C07_rest_is_ignored_partial :
  forall (N : Type) (trunc : N -> option Z) (ts : list (tok N)) (e : ast N),
    parse_tokens N trunc ts = Ok e <->
    (exists pre rest o en, ts = pre ++ rest /\ reads N trunc false true NExpr o en e pre /\
       ends N false NExpr o en rest /\ comp_of N rest = None) \/
    (exists c l r tl tr rest o en o' en', e = Comp c l r /\ ts = tl ++ cop_tok N c :: tr ++ rest /\
       reads N trunc false true NExpr o en l tl /\ reads N trunc false true NExpr o' en' r tr /\
       ends N false NExpr o' en' rest).
Proof. exact parse_tokens_iff. Qed.
Print Assumptions C07_rest_is_ignored_partial.

(** Any rest that starts with a token that cannot continue is dropped, for every
    expression: in particular [e x], [e )] and [e 2]. *)
Theorem C07_any_rest_refuted :
  forall (N : Type) (trunc : N -> option Z) (num_for : Z -> N) (e : ast N) (x : string) (n : N) (rest : list (tok N)),
    printable N trunc false num_for e ->
    parse_tokens N trunc (print N num_for 0 e ++ TId x :: rest) = Ok e /\
    parse_tokens N trunc (print N num_for 0 e ++ TSym RPare :: rest) = Ok e /\
    parse_tokens N trunc (print N num_for 0 e ++ TNum n :: rest) = Ok e.
Proof.
  intros N trunc nf e x n rest H.
  assert (X : forall k rest, closes N (k :: rest) -> comp_of N (k :: rest) = None ->
    parse_tokens N trunc (print N nf 0 e ++ k :: rest) = Ok e).
  { intros k r Hc Hcmp; apply parse_tokens_iff; left.
    destruct (print_reads N trunc false nf true e H) as ((o & en & Hr) & _).
    exists (print N nf 0 e), (k :: r), o, en; split; [reflexivity|]; split; [exact Hr|].
    split; [apply closes_ends; exact Hc|exact Hcmp]. }
  split; [|split]; apply X; reflexivity || exact I.
Qed.
Print Assumptions C07_any_rest_refuted.

Theorem C07_text_refuted :
  parse_s "1 2" = Ok (Num 1%Z) /\ parse_s "a + b) c" = Ok (Bin BAdd (Var "a") (Var "b")).
Proof. split; vm_compute; reflexivity. Qed.
Print Assumptions C07_text_refuted.

(** C08. The full claim is false for every choice of operands: the operand of a
    sign extends over the products behind it. *)
Theorem C08_minus_takes_product_refuted :
  forall (N : Type) (trunc : N -> option Z) (num_for : Z -> N) (a b c : ast N) (rest : list (tok N)),
    printable N trunc false num_for a -> printable N trunc false num_for b ->
    printable N trunc false num_for c -> closes N rest ->
    expr_of N trunc false
      (print N num_for 2 a ++ TSym Div :: TSym Minus :: print N num_for 3 b ++
       TSym Mul :: print N num_for 3 c ++ rest) =
    Ok (Bin BDiv a (Un UNeg (Bin BMul b c)), rest) /\
    Bin BDiv a (Un UNeg (Bin BMul b c)) <> Bin BMul (Bin BDiv a (Un UNeg b)) c.
Proof.
  intros N trunc nf a b c rest Ha Hb Hc Hr; split; [|discriminate].
  exact (minus_takes_product N trunc nf a b c rest BDiv (or_intror eq_refl) Ha Hb Hc Hr).
Qed.
Print Assumptions C08_minus_takes_product_refuted.

Theorem C08_minus_takes_product_pow_refuted :
  forall (N : Type) (trunc : N -> option Z) (num_for : Z -> N) (a b c : ast N) (rest : list (tok N)),
    printable N trunc false num_for a -> printable N trunc false num_for b ->
    printable N trunc false num_for c -> closes N rest ->
    expr_of N trunc false
      (print N num_for 4 a ++ TSym Power :: TSym Minus :: print N num_for 3 b ++
       TSym Mul :: print N num_for 3 c ++ rest) =
    Ok (Bin BPow a (Un UNeg (Bin BMul b c)), rest).
Proof. exact minus_takes_product_pow. Qed.
Print Assumptions C08_minus_takes_product_pow_refuted.

(** What holds of signs: at the start of a term they are read as in algebra up to
    associativity ([-b*c] is [-(b*c)]), and with a sum behind them they end:
    [a*-b+c] is [(a*(-b))+c]. *)
Theorem C08_sum_ends_sign_partial :
  forall (N : Type) (trunc : N -> option Z) (num_for : Z -> N) (a b c : ast N) (rest : list (tok N)),
    printable N trunc false num_for a -> printable N trunc false num_for b ->
    printable N trunc false num_for c -> closes N rest ->
    expr_of N trunc false
      (print N num_for 2 a ++ TSym Mul :: TSym Minus :: print N num_for 3 b ++
       TSym Plus :: print N num_for 1 c ++ rest) =
    Ok (Bin BAdd (Bin BMul a (Un UNeg b)) c, rest).
Proof.
  intros N trunc nf a b c rest Ha Hb Hc Hr.
  destruct (print_reads N trunc false nf true a Ha) as (_ & _ & (en2 & H2) & _).
  destruct (print_reads N trunc false nf true b Hb) as (_ & _ & _ & (en3 & H3) & _).
  destruct (print_reads N trunc false nf true c Hc) as (_ & (o1 & en1 & H1) & _).
  apply expr_iff.
  exists (print N nf 2 a ++ TSym Mul :: (TSym Minus :: print N nf 3 b) ++ TSym Plus :: print N nf 1 c), o1, en1.
  split; [cbn [app]; rewrite <- !app_assoc; cbn [app]; rewrite <- !app_assoc; reflexivity|].
  split; [|apply closes_ends; exact Hr].
  change (print N nf 2 a ++ TSym Mul :: (TSym Minus :: print N nf 3 b) ++ TSym Plus :: print N nf 1 c)
    with (print N nf 2 a ++ (TSym Mul :: TSym Minus :: print N nf 3 b) ++ TSym Plus :: print N nf 1 c).
  rewrite app_assoc; eapply R_add; [|exact H1].
  apply R_term; eapply R_mul; [exact H2|].
  apply R_call, R_atom; change (TSym Minus) with (sign_tok N UNeg); eapply R_unary; apply R_exponent; exact H3.
Qed.
Print Assumptions C08_sum_ends_sign_partial.

Example C08_nonvacuous :
  parse_s "a/-b*c" = Ok (Bin BDiv (Var "a") (Un UNeg (Bin BMul (Var "b") (Var "c")))) /\
  parse_s "a^-b*c" = Ok (Bin BPow (Var "a") (Un UNeg (Bin BMul (Var "b") (Var "c")))) /\
  parse_s "a*-b+c" = Ok (Bin BAdd (Bin BMul (Var "a") (Un UNeg (Var "b"))) (Var "c")).
Proof. repeat split; vm_compute; reflexivity. Qed.

(** C09. Parsing an expression always finishes; parsing a file finishes exactly
    when the declarations and assignments at its head are not followed by a token
    on which the loop of the preamble makes no progress. *)
Theorem C09_expression_parsing_terminates :
  forall (N : Type) (trunc : N -> option Z) (ts : list (tok N)),
    parse_tokens N trunc ts <> Err OutOfFuel /\ parse_tokens N trunc ts <> Err Hang.
Proof. intros; split; [apply parse_tokens_nof | apply parse_tokens_nohang]. Qed.
Print Assumptions C09_expression_parsing_terminates.

Theorem C09_file_parsing_terminates_partial :
  forall (N : Type) (trunc : N -> option Z) (nzero : N) (ts : list (tok N)),
    parse_model N trunc nzero ts <> Err OutOfFuel /\
    (parse_model N trunc nzero ts = Err Hang <->
     exists ds ps pre t rest, ts = pre ++ t :: rest /\ preamble_text N trunc ds ps pre /\
       match t with
       | TId _ => False
       | TKw k => ~ In k ("model"%string :: var_kinds)
       | _ => True
       end).
Proof. intros; split; [apply parse_model_nof | apply parse_model_hangs_iff]. Qed.
Print Assumptions C09_file_parsing_terminates_partial.

Theorem C09_file_parsing_refuted :
  parse_f "var x; ; model; x = 1; end;" = Err Hang /\
  parse_f "var x; parameters a; a = 1;" = Err Hang.
Proof. split; vm_compute; reflexivity. Qed.
Print Assumptions C09_file_parsing_refuted.

(** C10. A written file is read back, for every file that can be written at all:
    as tokens, and as text. *)
Theorem C10_written_file_is_read_back :
  forall (N : Type) (float_of : text -> option N) (trunc : N -> option Z) (nzero : N) (num_for : Z -> N)
    (f : modfile N) (b0 : text) (l : written N),
    writable N trunc num_for f ->
    Forall (fun x => writes N float_of Dynare (fst (fst x)) (snd (fst x)) /\
                     blank (snd x) /\ snd x <> []) l ->
    blank b0 -> map (fun x => fst (fst x)) l = write_file N num_for f ->
    parse_file N float_of trunc nzero (b0 ++ render l) = Ok f.
Proof. intros; eapply parse_file_write; eassumption. Qed.
Print Assumptions C10_written_file_is_read_back.

(** More generally the parser accepts exactly the ways to write a file, with the
    parameters, equations, options, tags, boundary values and shocks in order. *)
Theorem C10_file_parser_exact :
  forall (N : Type) (trunc : N -> option Z) (nzero : N) (ts : list (tok N)) (f : modfile N),
    parse_model N trunc nzero ts = Ok f <-> file_text N trunc nzero f ts.
Proof. intros; apply parse_model_iff. Qed.
Print Assumptions C10_file_parser_exact.

Example C10_nonvacuous :
  let f : modfile Z := ModFile
    [("y", "var"); ("e", "varexo"); ("rho", "parameters")]%string
    [("rho", Bin BDiv (Num 9%Z) (Num 10%Z))]%string
    [Arg "linear" None]
    [SLocal "s" (Bin BMul (Num 2%Z) (Var "rho"));
     SEq (Some [Arg "name" (Some (AStr "law"))])
       (Var "y") (Bin BAdd (Bin BMul (Var "rho") (PVar "y" (-1)%Z)) (Var "e"))]
    (Actions (Some ([], [("y", Num 0%Z)]))%string None None
       (Some ([], [ShStd "e" (Num 1%Z); ShDet "e" [(1, 4)]%Z [Un UNeg (Num 2%Z)]]))) in
  writable Z Some (fun k => k) f /\
  parse_f "var y; varexo e; parameters rho; rho = 9/10; model(linear); # s = 2*rho;
           [name='law'] y = rho*y(-1) + e; end; initval; y = 0; end;
           shocks; var e; stderr 1; var e; periods 1:4; values (-2); end;" = Ok f.
Proof.
  cbn beta zeta; split; [|vm_compute; reflexivity].
  unfold writable; cbn [m_decls m_params m_args m_stmts m_actions a_initval a_endval a_histval a_shocks writable_block].
  repeat match goal with |- _ /\ _ => split | |- Forall _ [] => apply Forall_nil | |- Forall _ (_ :: _) => apply Forall_cons end;
    cbn; tauto || (repeat constructor; discriminate) || auto.
Qed.
