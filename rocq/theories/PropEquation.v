(** C97: equations given as text (expressions.py:42-53, 105-116), as in
    [Model(..., exprs=['y = rho*y(-1) + e'])], [model.exprs[0] = '...'] and the alternatives of
    an occasionally binding constraint. *)
From Verif Require Import Base Syntax Lexer LexerSpec LexerProofs3 Parser ParserSpec ParserProofs ParserProofs2
  ModFileSpec ModFileProofs ModFileProofs2 ModFileProofs3 ExprList ExprListSpec ExprListProofs OutlineSpec PropParser.
Local Open Scope string_scope.
Local Open Scope list_scope.

(** An equation [l = r], written out with any blanks between the tokens, is read as [l - r];
    an expression [l] alone as [l - 0]. *)
Theorem C97_written :
  forall (N : Type) (float_of : text -> option N) (trunc : N -> option Z) (nzero : N) (num_for : Z -> N)
    (l r : ast N) (b0 : text) (w : written N),
  printable N trunc true num_for l -> printable N trunc true num_for r ->
  Forall (fun x => writes N float_of Dynare (fst (fst x)) (snd (fst x)) /\ blank (snd x) /\ snd x <> []) w -> blank b0 ->
  (map (fun x => fst (fst x)) w = print N num_for 0 l ++ TSym Equals :: print N num_for 0 r ->
   parse_equation N float_of trunc nzero (b0 ++ render w) = Ok (Bin BSub l r)) /\
  (map (fun x => fst (fst x)) w = print N num_for 0 l ->
   parse_equation N float_of trunc nzero (b0 ++ render w) = Ok (Bin BSub l (Num nzero))).
Proof.
  intros N fo tr nz nf l r b0 w Hl Hr Hw Hb.
  assert (X : forall ts, ts <> [] -> map (fun x => fst (fst x)) w = ts -> exists lts, tokenize N fo Dynare (b0 ++ render w) = Ok lts /\ map tk lts = ts ++ [TEof; TEof]).
  { intros ts Nt E; destruct (tokenize_render N fo Dynare b0 w Hw Hb) as (lts & T1 & T2); [intros ->; exact (Nt (eq_sym E))|].
    exists lts; split; [exact T1|rewrite T2, E; reflexivity]. }
  assert (Ne : print N nf 0 l <> []).
  { intros E; pose proof (expr_print N tr true nf l [TEof] Hl I) as H; rewrite E in H; cbn in H; discriminate H. }
  split; intros E.
  - apply X in E as (lts & T1 & T2); [|destruct (print N nf 0 l); discriminate]; unfold parse_equation; rewrite T1; cbn [bind]; rewrite T2, <- app_assoc; cbn [app].
    unfold model_expression, mexpr; (rewrite (expr_print N tr true nf l); [|exact Hl|exact I]); cbn [bind]; rewrite is_sym_refl, eat_sym_ok by (intros X0; apply app_eq_nil in X0 as [_ X0]; discriminate X0); cbn [bind].
    (rewrite (expr_print N tr true nf r); [|exact Hr|exact I]); reflexivity.
  - apply X in E as (lts & T1 & T2); [|exact Ne]; unfold parse_equation; rewrite T1; cbn [bind]; rewrite T2.
    unfold model_expression, mexpr; (rewrite (expr_print N tr true nf l); [|exact Hl|exact I]); reflexivity.
Qed.
Print Assumptions C97_written.

(** Where reading an equation stops: the rest does not continue the last expression, and is no
    second side. *)
Inductive stops (N : Type) (trunc : N -> option Z) (nzero : N) : ast N -> ast N -> list (tok N) -> list (tok N) -> Prop :=
| Stops_both l r tl tr rest o en : expr_text N trunc true l tl -> reads N trunc true true NExpr o en r tr -> ends N true NExpr o en rest ->
    stops N trunc nzero l r (tl ++ TSym Equals :: tr) rest
| Stops_left l tl rest o en : reads N trunc true true NExpr o en l tl -> ends N true NExpr o en rest -> hd_error rest <> Some (TSym Equals) ->
    stops N trunc nzero l (Num nzero) tl rest.

(** Which texts are accepted, and as what: exactly those that begin with an equation. *)
Theorem C97_exact :
  forall (N : Type) (float_of : text -> option N) (trunc : N -> option Z) (nzero : N) (t : text) (e : ast N),
  parse_equation N float_of trunc nzero t = Ok e <->
  exists lts l r pre rest, tokenize N float_of Dynare t = Ok lts /\ map tk lts = pre ++ rest /\
    stops N trunc nzero l r pre rest /\ equation_text N trunc nzero l r pre /\ e = Bin BSub l r.
Proof.
  intros N fo tr nz t e; unfold parse_equation; split.
  - intros H; apply bind_ok in H as (lts & T & H); apply bind_ok in H as ((lr & rest) & M & H); injection H as <-.
    exists lts, (fst lr), (snd lr); unfold model_expression, mexpr in M; apply bind_ok in M as ((l & ts1) & M1 & M); apply expr_iff in M1 as (tl & o & en & E1 & R1 & N1).
    destruct (is_sym N Equals ts1) eqn:Es.
    + apply bind_ok in M as (ts2 & M2 & M); apply eat_sym_inv in M2 as [-> _]; apply bind_ok in M as ((r & ts3) & M3 & M); apply expr_iff in M3 as (tr' & o' & en' & E3 & R3 & N3).
      injection M as <- <-; exists (tl ++ TSym Equals :: tr'), ts3; cbn [fst snd]; split; [exact T|]; split; [rewrite E1, E3, <- app_assoc; reflexivity|].
      split; [econstructor; [exists o, en; exact R1|exact R3|exact N3]|]; split; [constructor; [exists o, en; exact R1|exists o', en'; exact R3]|reflexivity].
    + injection M as <- <-; exists tl, ts1; cbn [fst snd]; split; [exact T|]; split; [exact E1|]; split; [|split; [constructor; exists o, en; exact R1|reflexivity]].
      econstructor; [exact R1|exact N1|]; intros X; destruct ts1 as [|k ts1]; [discriminate X|]; cbn in X; injection X as ->; discriminate Es.
  - intros (lts & l & r & pre & rest & T & E & S & _ & ->); rewrite T; cbn [bind]; rewrite E.
    destruct S as [l r tl tr' rest o en (o1 & en1 & R1) R N1|l tl rest o en R N1 Ne]; unfold model_expression, mexpr.
    + rewrite <- app_assoc; cbn [app]; rewrite (proj2 (expr_iff N tr true (tl ++ TSym Equals :: tr' ++ rest) l (TSym Equals :: tr' ++ rest)));
        [|exists tl, o1, en1; split; [reflexivity|]; split; [exact R1|reflexivity]]; cbn [bind]; rewrite is_sym_refl, eat_sym_ok by (intros X0; apply app_eq_nil in X0 as [_ ->]; exact N1); cbn [bind].
      rewrite (proj2 (expr_iff N tr true (tr' ++ rest) r rest)) by (exists tr', o, en; auto); reflexivity.
    + rewrite (proj2 (expr_iff N tr true (tl ++ rest) l rest)) by (exists tl, o, en; auto); cbn [bind].
      replace (is_sym N Equals rest) with false; [reflexivity|]; destruct rest as [|k rest]; [reflexivity|].
      destruct (is_sym N Equals (k :: rest)) eqn:Es; [|reflexivity]; exfalso; apply Ne; destruct k as [| | | | | |y]; try discriminate Es; destruct y; try discriminate Es; reflexivity.
Qed.
Print Assumptions C97_exact.

(** Full statement: an equation given as text is read as in a model file, or refused.  Proved:
    texts that are written as an equation in a file are read as that equation is. *)
Definition written_as (N : Type) (float_of : text -> option N) (trunc : N -> option Z) (nzero : N) (t : text) (l r : ast N) : Prop :=
  exists lts ts fin, tokenize N float_of Dynare t = Ok lts /\ map tk lts = ts ++ TEof :: fin /\ Forall (eq TEof) fin /\ equation_text N trunc nzero l r ts.
Theorem C97_equation_partial :
  forall (N : Type) (float_of : text -> option N) (trunc : N -> option Z) (nzero : N) (t : text) (l r : ast N),
  written_as N float_of trunc nzero t l r -> parse_equation N float_of trunc nzero t = Ok (Bin BSub l r).
Proof.
  intros N fo tr nz t l r (lts & ts & fin & T & E & Hf & H); apply C97_exact; exists lts, l, r, ts, (TEof :: fin); split; [exact T|]; split; [exact E|].
  split; [|split; [exact H|reflexivity]]; destruct H as [l r tl tr' Hl (o & en & Hr)|l tl (o & en & Hl)].
  - econstructor; [exact Hl|exact Hr|reflexivity].
  - econstructor; [exact Hl|reflexivity|discriminate].
Qed.
Print Assumptions C97_equation_partial.
(** A model given the texts of a file's equations has the equations of the file. *)
Theorem C97_file_partial :
  forall (N : Type) (float_of : text -> option N) (trunc : N -> option Z) (nzero : N) (f : modfile N) (us : list text),
  Forall2 (fun u e => exists l r, e = Bin BSub l r /\ written_as N float_of trunc nzero u l r) us (equations N f) ->
  new_exprs N (parse_equation N float_of trunc nzero) false (map GText us) = Ok (MExprs (equations N f) us).
Proof.
  intros N fo tr nz f us; generalize (equations N f) as es; intros es H; unfold new_exprs.
  replace (mapM _ (map GText us)) with (Ok es : res (list (ast N))).
  - cbn [bind]; f_equal; f_equal; clear H; induction us as [|u us IH]; [reflexivity|cbn; f_equal; exact IH].
  - symmetry; apply mapM_ok; induction H as [|u e us es (l & r & -> & H) _ IH]; [constructor|]; cbn [map]; constructor; [apply C97_equation_partial, H|exact IH].
Qed.
Print Assumptions C97_file_partial.

(** False without that: whatever follows an equation is dropped, a second equation as well. *)
Theorem C97_rest_refuted :
  forall (N : Type) (float_of : text -> option N) (trunc : N -> option Z) (nzero : N) (num_for : Z -> N)
    (l r : ast N) (k : tok N) (more : list (tok N)) (t : text) (lts : list (ltok N)),
  printable N trunc true num_for l -> printable N trunc true num_for r ->
  match k with TFun _ | TSym (LPare | Power | Mul | Div | Plus | Minus) => False | _ => True end ->
  tokenize N float_of Dynare t = Ok lts -> map tk lts = print N num_for 0 l ++ TSym Equals :: print N num_for 0 r ++ k :: more ->
  parse_equation N float_of trunc nzero t = Ok (Bin BSub l r).
Proof.
  intros N fo tr nz nf l r k more t lts Hl Hr Hk T E; unfold parse_equation; rewrite T; cbn [bind]; rewrite E.
  unfold model_expression, mexpr; (rewrite (expr_print N tr true nf l); [|exact Hl|exact I]); cbn [bind].
  rewrite is_sym_refl, eat_sym_ok by (intros X0; apply app_eq_nil in X0 as [_ X0]; discriminate X0); cbn [bind].
  (rewrite (expr_print N tr true nf r); [|exact Hr|exact Hk]); reflexivity.
Qed.
Print Assumptions C97_rest_refuted.
Definition read_eq (s : string) := parse_equation Z dec_of Some 0%Z (chars s).
Theorem C97_refuted :
  read_eq "x = y; y = 2*x" = Ok (Bin BSub (Var "x") (Var "y")) /\
  read_eq "x = y = z" = Ok (Bin BSub (Var "x") (Var "y")) /\
  read_eq "x = 2 y" = Ok (Bin BSub (Var "x") (Num 2%Z)) /\
  read_eq "x = y) + z" = Ok (Bin BSub (Var "x") (Var "y")).
Proof. repeat split; vm_compute; reflexivity. Qed.
Print Assumptions C97_refuted.

(** A file of two equations and a model given their texts. *)
Example C97_nonvacuous :
  exists f, parse_f "var x y; varexo e; parameters r; r = 2; model; [name='a'] x = r*x(-1) + e; # s = 3; y - s*x; end;" = Ok f /\
    Forall2 (fun u e => exists l r, e = Bin BSub l r /\ written_as Z dec_of Some 0%Z u l r) [chars "x=r * x(-1)+e"; chars "y - s*x"] (equations Z f) /\
    equations Z f = [Bin BSub (Var "x") (Bin BAdd (Bin BMul (Var "r") (PVar "x" (-1))) (Var "e")); Bin BSub (Bin BSub (Var "y") (Bin BMul (Var "s") (Var "x"))) (Num 0%Z)].
Proof.
  eexists; split; [vm_compute; reflexivity|]; split; [|reflexivity]; cbn [equations m_stmts flat_map app].
  assert (W : forall u l r, match tokenize Z dec_of Dynare u with Ok lts => exists rest, model_expression Z Some 0%Z (map tk lts) = Ok ((l, r), rest) /\ rest = [TEof] | Err _ => False end -> written_as Z dec_of Some 0%Z u l r).
  { intros u l r; unfold written_as; destruct (tokenize Z dec_of Dynare u) as [lts|]; [|contradiction]; intros (rest & H & ->); apply equation_sound in H as (pre & E & H); exists lts, pre, []; auto. }
  apply Forall2_cons; [|apply Forall2_cons; [|apply Forall2_nil]]; do 2 eexists; (split; [reflexivity|]); apply W; vm_compute; eexists; split; reflexivity.
Qed.
