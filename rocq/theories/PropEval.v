(** Properties C11 and C12: evaluation and substitution. *)
From Verif Require Import Base Syntax Lexer LexerSpec LexerProofs3 Parser ParserSpec ParserProofs
  ParserProofs2 ModFileSpec ModFileProofs ModFileProofs3 PropParser Eval EvalSpec EvalProofs.

Section Aux.
  Variable V : Type.
  Variable O : ops V.

  Lemma scope_get_bound s x v : scope_get V O s x = Ok v <-> bound V O s x v.
  Proof.
    destruct s as [d|ds]; cbn [scope_get].
    - split; intros H.
      + destruct (lookup x d) as [w|] eqn:E; [injection H as ->|discriminate]; constructor; exact E.
      + inversion H as [? ? ? E| |]; subst; rewrite E; reflexivity.
    - split.
      + intros H; injection H as <-.
        assert (G : forall pre, Forall (fun d' => forall w, lookup x d' = Some w -> o_isnone O w = true) pre ->
                    bound V O (SMem (pre ++ ds)) x (mem_lookup V O x ds)).
        { induction ds as [|d ds IH]; intros pre Hpre; cbn [mem_lookup].
          - rewrite app_nil_r; apply B_none; exact Hpre.
          - assert (Go : (forall w, lookup x d = Some w -> o_isnone O w = true) ->
              bound V O (SMem (pre ++ d :: ds)) x (mem_lookup V O x ds)).
            { intros Hd; specialize (IH (pre ++ [d])); rewrite <- app_assoc in IH; apply IH.
              apply Forall_app; split; [exact Hpre|]; constructor; [exact Hd|constructor]. }
            destruct (lookup x d) as [w|] eqn:E; [|apply Go; discriminate].
            destruct (o_isnone O w) eqn:En; [apply Go; congruence|].
            eapply B_mem; eassumption. }
        exact (G [] (Forall_nil _)).
      + intros H; inversion H as [|outer d inner ? ? Hi Hd Hn|? ? Hi]; subst; f_equal.
        * clear H; induction inner as [|d' inner IH]; cbn [app mem_lookup].
          -- rewrite Hd, Hn; reflexivity.
          -- inversion Hi as [|? ? H1 H2]; subst; destruct (lookup x d') as [w|] eqn:E; [rewrite (H1 w eq_refl)|]; auto.
        * clear H; induction ds as [|d' inner IH]; cbn [mem_lookup]; [reflexivity|].
          inversion Hi as [|? ? H1 H2]; subst; destruct (lookup x d') as [w|] eqn:E; [rewrite (H1 w eq_refl)|]; auto.
  Qed.

  Lemma value_ext rho rho' rt rt' e v :
    (forall x v, rho x v <-> rho' x v) -> (forall x k v, rt x k v <-> rt' x k v) ->
    value V O rho rt e v -> value V O rho' rt' e v.
  Proof. intros H1 H2 H; induction H; econstructor; eauto; (apply H1 || apply H2); assumption. Qed.
End Aux.

Section Tokens.
  Variable N : Type.
  Variable float_of : text -> option N.
  Variable g : cfg.
  Definition known (t : tok N) : Prop := match t with TFun f => In f reserved_funcs | _ => True end.
  Lemma token_known s lt s' : token_at N float_of g s = Ok (lt, s') -> known (tk lt).
  Proof.
    unfold token_at; destruct (rest s) as [|c r]; [intros H; injection H as <- _; exact I|].
    destruct (valid_begchar g c).
    { unfold lex_id; destruct (span valid_varchar (rest s) (line s) (col s)) as [w s1]; cbv zeta.
      match goal with |- context [LTok ?t _ _] => assert (K : known t); [|revert K; generalize t] end.
      - destruct (mem (str w) (kws g)); [exact I|].
        destruct (mem (str w) reserved_funcs) eqn:E; [apply mem_In in E; exact E|exact I].
      - intros t K H; injection H as <- _; exact K. }
    destruct (valid_numchar c).
    { unfold lex_number; destruct (span valid_numchar (rest s) (line s) (col s)) as [w s1].
      destruct (float_of w); [|discriminate]; intros H; injection H as <- _; exact I. }
    destruct (ceq c squote); [intros H; apply bind_ok in H as (ws & _ & H); injection H as <- _; exact I|].
    destruct (ceq c dquote); [intros H; apply bind_ok in H as (ws & _ & H); injection H as <- _; exact I|].
    destruct (lex_sym g c _) as [[y n]|]; [|discriminate]; intros H; injection H as <- _; exact I.
  Qed.
  Lemma next_token_known s lt s' : next_token N float_of g s = Ok (lt, s') -> known (tk lt).
  Proof.
    unfold next_token; destruct (rest s); [intros H; injection H as <- _; exact I|].
    destruct (rest (skip_whitespace _)); [intros H; injection H as <- _; exact I|].
    intros H; apply bind_ok in H as (s2 & _ & H); eapply token_known; exact H.
  Qed.
  Lemma tokenize_known t ts : tokenize N float_of g t = Ok ts -> Forall known (map tk ts).
  Proof.
    unfold tokenize; destruct t as [|c t]; [discriminate|].
    generalize (St (c :: t) 1 0) as s, (List.length (c :: t)) as fuel; intros s fuel; revert s ts.
    induction fuel as [|fu IH]; intros s ts H; cbn [tokenize_loop] in H.
    - destruct (rest s); [injection H as <-; repeat constructor|discriminate].
    - destruct (rest s); [injection H as <-; repeat constructor|].
      apply bind_ok in H as ([lt s1] & H1 & H); apply bind_ok in H as (more & H2 & H); injection H as <-.
      cbn [map fst snd] in *; constructor; [eapply next_token_known; exact H1|eapply IH; exact H2].
  Qed.

  Variable trunc : N -> option Z.
  Lemma reads_known m j t o en e ts :
    reads N trunc m j t o en e ts -> Forall known ts -> functions N (fun f => In f reserved_funcs) e.
  Proof.
    intros H; induction H; intros K; cbn [functions]; auto;
      repeat match goal with
      | K : Forall _ (_ :: _) |- _ => apply Forall_cons_iff in K as [? K]
      | K : Forall _ (_ ++ _) |- _ => apply Forall_app in K as [? K]
      end; auto 6.
  Qed.
  Lemma reads_untimed j t o en e ts :
    reads N trunc false j t o en e ts -> forall x k, ~ occurs_t N x k e.
  Proof.
    intros H; remember false as m eqn:Em; induction H; intros y q Ho; subst;
      try discriminate; try (inversion Ho; subst; solve [eauto | eapply IHreads; eauto | eapply IHreads1; eauto | eapply IHreads2; eauto]);
      solve [eapply IHreads; eauto | eapply IHreads1; eauto | eapply IHreads2; eauto | inversion Ho].
  Qed.
  Lemma parse_string_tree t e :
    parse_string N float_of trunc g t = Ok e ->
    functions N (fun f => In f reserved_funcs) e /\ (forall x k, ~ occurs_t N x k e).
  Proof.
    intros H; apply bind_ok in H as (ts & Ht & H); apply tokenize_known in Ht.
    apply parse_tokens_iff in H as [(pre & r & o & en & E & Hr & _)|(c & l & r & tl & tr & rest & o & en & o' & en' & -> & E & Hl & Hr & _)];
      rewrite E in Ht.
    - apply Forall_app in Ht as [Ht _]; split; [eapply reads_known; eassumption|eapply reads_untimed; eassumption].
    - apply Forall_app in Ht as [H1 Ht]; apply Forall_cons_iff in Ht as [_ Ht]; apply Forall_app in Ht as [H2 _].
      cbn [functions]; split.
      + split; [exact (reads_known _ _ _ _ _ _ _ Hl H1)|exact (reads_known _ _ _ _ _ _ _ Hr H2)].
      + intros x k Ho; inversion Ho; subst; [eapply reads_untimed in Hl|eapply reads_untimed in Hr]; eauto.
  Qed.
End Tokens.

(** C11. The value of an expression text is the value that the tree it is parsed to
    has when each variable has the value its scope gives it. *)
Theorem C11_evaluation_is_compositional :
  forall (V : Type) (O : ops V) (float_of : text -> option V) (trunc : V -> option Z)
    (g : cfg) (t : text) (s : scope V) (v : V),
    evaluate_text V O float_of trunc g t s = Ok v <->
    exists e, parse_string V float_of trunc g t = Ok e /\
      value V O (bound V O s) (fun _ _ _ => False) e v.
Proof.
  intros V O fo tr g t s v; unfold evaluate_text, evaluate; split.
  - intros H; apply bind_ok in H as (e & Hp & H); exists e; split; [exact Hp|].
    apply parse_string_tree in Hp as [Hf Ht]; apply eval_value in H; [|exact Hf].
    eapply value_ext; [intros; apply scope_get_bound| |exact H]; intros; split; [discriminate|contradiction].
  - intros (e & Hp & H); rewrite Hp; cbn [bind].
    apply parse_string_tree in Hp as [Hf Ht]; apply eval_value; [exact Hf|].
    eapply value_ext; [intros; symmetry; apply scope_get_bound| |exact H]; intros; split; [contradiction|discriminate].
Qed.
Print Assumptions C11_evaluation_is_compositional.

(** Two scopes that agree on the variables that occur give the same result or the
    same error: for every tree, and every text. *)
Theorem C11_only_occurring_variables_matter :
  forall (V : Type) (O : ops V) (s s' : scope V) (e : ast V),
    (forall x v, occurs V x e -> (bound V O s x v <-> bound V O s' x v)) ->
    evaluate V O s e = evaluate V O s' e.
Proof.
  intros V O s s' e H; apply eval_agree; [|reflexivity].
  intros x Hx; specialize (fun v => H x v Hx).
  assert (M : forall s e', scope_get V O s x = Err e' -> e' = SyntaxErr /\ forall v, scope_get V O s x <> Ok v).
  { intros [d|ds] e'; cbn [scope_get]; [destruct (lookup x d)|]; intros E; try discriminate; injection E as <-; split; congruence. }
  destruct (scope_get V O s x) as [v|e1] eqn:E1.
  - apply scope_get_bound, H, scope_get_bound in E1; symmetry; exact E1.
  - destruct (scope_get V O s' x) as [v|e2] eqn:E2.
    + apply scope_get_bound, H, scope_get_bound in E2; congruence.
    + apply M in E1 as [-> _]; apply M in E2 as [-> _]; reflexivity.
Qed.
Print Assumptions C11_only_occurring_variables_matter.

(** An expression whose variables are all in scope never fails for a missing name
    (SyntaxError), whatever else happens ... *)
Theorem C11_no_missing_name :
  forall (V : Type) (O : ops V) (d : list (string * V)) (e : ast V),
    (forall o v w, o_bin O o v w <> Err SyntaxErr) -> (forall o v, o_un O o v <> Err SyntaxErr) ->
    (forall o v w, o_cmp O o v w <> Err SyntaxErr) -> (forall f v, o_fun O f v <> Err SyntaxErr) ->
    (forall x, occurs V x e -> In x (keys d)) ->
    evaluate V O (SDict d) e <> Err SyntaxErr.
Proof.
  intros V O d e Hb Hu Hc Hf Hs; apply eval_no_error; auto; [left; discriminate| |intros; discriminate].
  intros x Hx E; cbn [scope_get] in E.
  destruct (lookup x d) eqn:El; [discriminate|]; apply lookup_None in El; exact (El (Hs x Hx)).
Qed.
Print Assumptions C11_no_missing_name.

(** ... and always has a value if arithmetic is total and the functions with several
    arguments ([max], [min], [normcdf], [normpdf]) are not called. *)
Theorem C11_value_exists :
  forall (V : Type) (O : ops V) (float_of : text -> option V) (trunc : V -> option Z) (g : cfg)
    (t : text) (d : list (string * V)) (e : ast V),
    (forall o v w, exists u, o_bin O o v w = Ok u) -> (forall o v, exists u, o_un O o v = Ok u) ->
    (forall o v w, exists u, o_cmp O o v w = Ok u) -> (forall f v, exists u, o_fun O f v = Ok u) ->
    parse_string V float_of trunc g t = Ok e ->
    functions V (fun f => ~ In f ["max"; "min"; "normcdf"; "normpdf"]%string) e ->
    (forall x, occurs V x e -> In x (keys d)) ->
    exists v, evaluate_text V O float_of trunc g t (SDict d) = Ok v.
Proof.
  intros V O fo tr g t d e Hb Hu Hc Hf Hp Hr Hs; unfold evaluate_text; rewrite Hp; cbn [bind].
  apply parse_string_tree in Hp as [_ Ht].
  destruct (evaluate V O (SDict d) e) as [v|er] eqn:E; [eauto|exfalso; revert E].
  assert (Tot : forall (r : res V), (exists u, r = Ok u) -> r <> Err er) by (intros r (u & ->); discriminate).
  apply eval_no_error; auto.
  - intros x Hx E; cbn [scope_get] in E.
    destruct (lookup x d) eqn:El; [discriminate|]; apply lookup_None in El; exact (El (Hs x Hx)).
  - intros x k Hx; exfalso; exact (Ht x k Hx).
Qed.
Print Assumptions C11_value_exists.

(** Integers, for examples. *)
Definition Zops : ops Z := Ops Z (-999)%Z (Z.eqb (-999)%Z)
  (fun o a b => match o with
     | BAdd => Ok (a + b) | BSub => Ok (a - b) | BMul => Ok (a * b)
     | BDiv => if (b =? 0)%Z then Err GenericErr else Ok (a / b) | BPow => Ok (a ^ b) end)%Z
  (fun o a => match o with UPos => Ok a | UNeg => Ok (- a) end)%Z
  (fun o a b => Ok (match o with
     | CLt => if a <? b then 1 else 0 | CLe => if a <=? b then 1 else 0
     | CGt => if b <? a then 1 else 0 | CGe => if b <=? a then 1 else 0
     | CEq => if a =? b then 1 else 0 end))%Z
  (fun f a => if String.eqb f "abs" then Ok (Z.abs a) else Ok a).

Example C11_nonvacuous :
  evaluate_text Z Zops dec_of Some BaseStandard (chars "2*x - abs(y)^2 ") (SDict [("x", 5); ("y", -3)]%Z%string) = Ok 1%Z /\
  evaluate_text Z Zops dec_of Some BaseStandard (chars "2*x - abs(y)^2 ") (SDict [("x", 5)]%Z%string) = Err SyntaxErr /\
  (let e := Bin BSub (Bin BMul (Num 2%Z) (Var "x")) (Bin BPow (Fun "abs" (Var "y")) (Num 2%Z)) in
   forall x, occurs Z x e -> In x (keys [("x", 5); ("y", -3)]%Z%string)).
Proof.
  split; [vm_compute; reflexivity|]; split; [vm_compute; reflexivity|].
  intros e x H; unfold e in H; cbn; repeat (match goal with H : occurs _ _ _ |- _ => inversion H; clear H; subst end); tauto.
Qed.

(** C12. Replacing names by numbers inside an equation and evaluating the result is
    evaluating the equation with those names in scope: for the general substitution,
    where names not substituted are looked up in [rest]. *)
Theorem C12_substitution :
  forall (V : Type) (O : ops V) (sigma rest : list (string * V)) (l r : ast V),
    algebraic V l -> algebraic V r ->
    Forall (fun p => o_isnone O (snd p) = false) sigma ->
    exists e', substitute V O (SDict sigma) (Bin BSub l r) = Ok e' /\
      evaluate V O (SDict rest) e' = evaluate V O (SDict (sigma ++ rest)) (Bin BSub l r).
Proof.
  intros V O sg rs l r Hl Hr Hn.
  destruct (subst_total V (found V O (SDict sg)) (fun _ _ => None) (Bin BSub l r) (conj Hl Hr)) as (e' & He).
  exists e'; split; [exact He|].
  unfold evaluate; rewrite (eval_subst_top V O _ _ _ _ (Bin BSub l r) e' eq_refl He); apply eval_agree; [|reflexivity].
  intros x _; unfold with_var, found; cbn [scope_get].
  assert (E : lookup x (sg ++ rs) = match lookup x sg with Some v => Some v | None => lookup x rs end).
  { clear; induction sg as [|[y v] sg IH]; cbn [app lookup]; [reflexivity|]; destruct (String.eqb x y); auto. }
  rewrite E; destruct (lookup x sg) as [v|] eqn:El; [|reflexivity].
  apply lookup_Some_In in El; rewrite Forall_forall in Hn; specialize (Hn _ El); cbn [snd] in Hn; rewrite Hn; reflexivity.
Qed.
Print Assumptions C12_substitution.

(** For the substitution of the compiled functions: parameters by their values; in
    the steady state also under leads and lags. *)
Theorem C12_compiled_substitutions :
  forall (V : Type) (O : ops V) (params : list (string * V)) (get : string -> res V) (get_t : string -> Z -> res V)
    (l r : ast V),
    algebraic V l -> algebraic V r ->
    let known_or x v := match lookup x params with Some w => Ok w | None => v end in
    (exists e', dynamic_substitution V params (Bin BSub l r) = Ok e' /\
      eval_with V O get get_t e' = eval_with V O (fun x => known_or x (get x)) get_t (Bin BSub l r)) /\
    (exists e', steady_substitution V params (Bin BSub l r) = Ok e' /\
      eval_with V O get get_t e' =
      eval_with V O (fun x => known_or x (get x)) (fun x k => known_or x (get_t x k)) (Bin BSub l r)).
Proof.
  intros V O ps get get_t l r Hl Hr known_or; split.
  - destruct (subst_total V (fun x => lookup x ps) (fun _ _ => None) (Bin BSub l r) (conj Hl Hr)) as (e' & He).
    exists e'; split; [exact He|]; rewrite (eval_subst_top V O _ _ _ _ (Bin BSub l r) e' eq_refl He); reflexivity.
  - destruct (subst_total V (fun x => lookup x ps) (fun x _ => lookup x ps) (Bin BSub l r) (conj Hl Hr)) as (e' & He).
    exists e'; split; [exact He|]; rewrite (eval_subst_top V O _ _ _ _ (Bin BSub l r) e' eq_refl He); reflexivity.
Qed.
Print Assumptions C12_compiled_substitutions.

(** Every equation of a parsed file is of this kind. *)
Theorem C12_equations_are_algebraic :
  forall (N : Type) (float_of : text -> option N) (trunc : N -> option Z) (nzero : N) (t : text) (f : modfile N) tag l r,
    parse_file N float_of trunc nzero t = Ok f -> In (SEq tag l r) (m_stmts f) ->
    algebraic N l /\ algebraic N r.
Proof.
  intros N fo tr nz t f tag l r H Hin.
  apply bind_ok in H as (ts & _ & H); apply parse_model_iff in H.
  inversion H as [ds ps args stmts bs tp ta tm tb tail Hp Ha Hs Hb]; subst; cbn [m_stmts] in Hin.
  assert (X : exists tx, stmt_text N tr nz (SEq tag l r) tx).
  { revert Hin Hs; clear; intros Hin Hs; induction Hs as [|a l0 t1 t2 H1 H2 IH]; [contradiction|].
    destruct Hin as [->|Hin]; [eauto|apply IH; exact Hin]. }
  destruct X as (tx & X).
  assert (Y : exists te, equation_text N tr nz l r te) by (inversion X; subst; eauto).
  destruct Y as (te & Y).
  assert (Z : forall e t0, expr_text N tr true e t0 -> algebraic N e)
    by (intros e t0 (o & en & Hr); eapply reads_algebraic; exact Hr).
  inversion Y; subst; split; try exact I; eapply Z; eassumption.
Qed.
Print Assumptions C12_equations_are_algebraic.

Example C12_nonvacuous :
  let eq : ast Z := Bin BSub (Var "y") (Bin BAdd (Bin BMul (Var "rho") (Var "y")) (Fun "abs" (Var "e"))) in
  substitute Z Zops (SDict [("rho", 3)]%Z%string) eq =
    Ok (Bin BSub (Var "y") (Bin BAdd (Bin BMul (Num 3%Z) (Var "y")) (Fun "abs" (Var "e")))) /\
  evaluate Z Zops (SDict ([("rho"%string, 3%Z)] ++ [("y", 2); ("e", -4)]%Z%string)) eq = Ok (-8)%Z.
Proof. split; vm_compute; reflexivity. Qed.

(** A tree that is a variable and nothing else is left as it is (equations are
    differences, so this does not concern them). *)
Example C12_bare_variable :
  substitute Z Zops (SDict [("rho", 3)]%Z%string) (Var "rho") = Ok (Var "rho").
Proof. reflexivity. Qed.
