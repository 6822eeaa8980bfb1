(** Files that are written are read back. *)
From Verif Require Import Base Syntax Lexer LexerSpec LexerProofs3 Parser ParserSpec ParserProofs
  ParserProofs2 ModFileSpec ModFileProofs.

Section Proofs.
  Variable N : Type.
  Variable trunc : N -> option Z.
  Variable nzero : N.
  Variable num_for : Z -> N.
  Notation toks := (list (tok N)).
  Notation sy := (@TSym N).
  Notation pr := (pr N num_for).
  Notation printable m := (printable N trunc m num_for).

  Lemma pr_text m e : printable m e -> expr_text N trunc m e (pr e).
  Proof. intros H; destruct (print_reads N trunc m num_for true e H) as (Hx & _); exact Hx. Qed.
  Lemma paren_text m e : printable m e -> expr_text N trunc m e (sy LPare :: pr e ++ [sy RPare]).
  Proof.
    intros H; destruct (pr_text m e H) as (o & en & Hr); exists false, EOther.
    apply R_term, R_exponent, R_call, R_atom; eapply R_paren; exact Hr.
  Qed.

  Lemma concat_text {A} (R : A -> toks -> Prop) (w : A -> toks) (ok : A -> Prop) l :
    (forall a, ok a -> R a (w a)) -> Forall ok l -> list_text N R l (concat (map w l)).
  Proof.
    intros H Hl; induction Hl as [|a l Ha Hl IH]; cbn [map concat]; constructor; auto.
  Qed.
  Lemma commas_text (R : argument N -> toks -> Prop) (ok : argument N -> Prop) l :
    (forall a, ok a -> R a (write_arg N num_for a)) -> Forall ok l ->
    comma_text N R l (write_commas N num_for l).
  Proof.
    intros H Hl; unfold write_commas; induction Hl as [|a l Ha Hl IH]; cbn [map concat app]; constructor; auto.
  Qed.

  Lemma write_arg_text a : writable_arg N trunc num_for a -> arg_text N trunc a (write_arg N num_for a).
  Proof.
    destruct a as [x [[s|s|e]|]]; unfold writable_arg, write_arg; cbn [arg_val arg_key]; intros H; constructor.
    - apply paren_text; exact H.
    - exact I.
  Qed.
  Lemma write_tag_text a : writable_tag N a -> tag_text N a (write_arg N num_for a).
  Proof.
    destruct a as [x [[s|s|e]|]]; unfold writable_tag, write_arg; cbn [arg_val arg_key]; intros H;
      try contradiction; constructor.
  Qed.
  Lemma write_args_text l : Forall (writable_arg N trunc num_for) l -> args_text N trunc l (write_args N num_for l).
  Proof.
    intros H; destruct H as [|a l Ha Hl]; cbn [write_args]; constructor.
    - apply write_arg_text; exact Ha.
    - apply (commas_text _ _ _ write_arg_text Hl).
  Qed.
  Lemma write_tags_text l : l <> [] -> Forall (writable_tag N) l -> tags_text N l (write_tags N num_for l).
  Proof.
    intros Hn H; destruct H as [|a l Ha Hl]; [congruence|]; cbn [write_tags]; constructor.
    - apply write_tag_text; exact Ha.
    - apply (commas_text _ _ _ write_tag_text Hl).
  Qed.
  Lemma write_assign_text a : writable_assign N trunc num_for a -> assign_text N trunc a (write_assign N num_for a).
  Proof. destruct a as [x e]; intros H; constructor; apply pr_text; exact H. Qed.
  Lemma write_stmt_text s : writable_stmt N trunc num_for s -> stmt_text N trunc nzero s (write_stmt N num_for s).
  Proof.
    destruct s as [x e|[tag|] l r]; cbn [writable_stmt write_stmt].
    - intros H; constructor; apply pr_text; exact H.
    - intros (Hl & Hr & Hn & Ht).
      change (pr l ++ sy Equals :: pr r ++ [sy Semi]) with (pr l ++ (sy Equals :: pr r) ++ [sy Semi]).
      rewrite (app_assoc (pr l)); constructor; [apply write_tags_text; assumption|].
      constructor; apply pr_text; assumption.
    - intros (Hl & Hr & _).
      change (pr l ++ sy Equals :: pr r ++ [sy Semi]) with (pr l ++ (sy Equals :: pr r) ++ [sy Semi]).
      rewrite (app_assoc (pr l)); constructor.
      constructor; apply pr_text; assumption.
  Qed.
  Lemma write_shock_text s : writable_shock N trunc num_for s ->
    shock_stmt_text N trunc s (write_shock N num_for s).
  Proof.
    destruct s as [x y e|x y e|x e|x e|x ps vs]; cbn [writable_shock write_shock]; intros H.
    - apply (Shs N trunc (ShCorr x y e) (_ :: _ :: _ :: _ :: _ :: pr e)); constructor; apply pr_text; exact H.
    - apply (Shs N trunc (ShCov x y e) (_ :: _ :: _ :: _ :: _ :: pr e)); constructor; apply pr_text; exact H.
    - apply (Shs N trunc (ShVar x e) (_ :: _ :: _ :: pr e)); constructor; apply pr_text; exact H.
    - apply (Shs N trunc (ShStd x e) (_ :: _ :: _ :: _ :: pr e)); constructor; apply pr_text; exact H.
    - set (tp := concat (map _ ps)); set (tv := concat (map _ vs)).
      replace (TKw _ :: TId x :: sy Semi :: TKw _ :: tp ++ sy Semi :: TKw _ :: tv ++ [sy Semi])
        with ((TKw "var" :: TId x :: sy Semi :: TKw "periods" :: tp ++ sy Semi :: TKw "values" :: tv) ++ [sy Semi])
        by (cbn [app]; rewrite <- app_assoc; reflexivity).
      constructor; constructor.
      + subst tp; clear; induction ps as [|[a b] ps IH]; cbn [map concat]; [constructor|].
        constructor; [|exact IH]; apply (Pd_range N a b []); constructor.
      + subst tv; apply (concat_text _ _ (printable false)); [|exact H].
        intros e He; apply (Vl_expr N trunc e (pr e) []); [constructor|apply pr_text; exact He].
  Qed.

  Lemma write_boundary_text k b : writable_block N trunc num_for (writable_assign N trunc num_for) (Some b) ->
    boundary_text N trunc k b (write_boundary N num_for k (Some b)).
  Proof.
    destruct b as [args l]; intros [Ha Hl]; exists (write_args N num_for args), (concat (map (write_assign N num_for) l)).
    split; [apply write_args_text; exact Ha|]; split; [|reflexivity].
    apply (concat_text _ _ _ _ write_assign_text Hl).
  Qed.

  Lemma decls_text ds : Forall (fun d => In (snd d) var_kinds) ds ->
    forall ps ts, preamble_text N trunc [] ps ts ->
    preamble_text N trunc ds ps (concat (map (write_decl N) ds) ++ ts).
  Proof.
    induction 1 as [|[x k] ds Hk Hd IH]; intros ps ts Hp; [exact Hp|].
    apply (P_decl N trunc k [x] [TId x] ds ps); [exact Hk| |apply IH; exact Hp].
    apply (L_cons N _ x [] [TId x] []); constructor.
  Qed.
  Lemma assigns_text ps : Forall (writable_assign N trunc num_for) ps ->
    preamble_text N trunc [] ps (concat (map (write_assign N num_for) ps)).
  Proof.
    induction 1 as [|a ps Ha Hp IH]; cbn [map concat]; constructor; [|exact IH].
    apply write_assign_text; exact Ha.
  Qed.

  (** The blocks that are written. *)
  Definition blocks (a : actions N) : list (block N) :=
    match a_initval a with Some b => [KInit b] | None => [] end ++
    match a_endval a with Some b => [KEnd b] | None => [] end ++
    match a_histval a with Some b => [KHist b] | None => [] end ++
    match a_shocks a with Some s => [KShocks (fst s) (snd s)] | None => [] end.
  Lemma blocks_actions a : actions_of N (blocks a) = a.
  Proof. destruct a as [[] [] [] [[]|]]; reflexivity. Qed.
  Lemma list_text_app {A} (R : A -> toks -> Prop) l1 l2 t1 t2 :
    list_text N R l1 t1 -> list_text N R l2 t2 -> list_text N R (l1 ++ l2) (t1 ++ t2).
  Proof. induction 1; intros; cbn [app]; [assumption|]; rewrite <- app_assoc; constructor; auto. Qed.
  Lemma list_text_one {A} (R : A -> toks -> Prop) a t : R a t -> list_text N R [a] t.
  Proof. intros H; rewrite <- (app_nil_r t); constructor; [exact H|constructor]. Qed.

  Lemma write_file_text f tail : writable N trunc num_for f ->
    file_text N trunc nzero f (write_file N num_for f ++ TEof :: tail).
  Proof.
    destruct f as [ds ps args stmts a]; unfold writable, write_file; cbn [m_decls m_params m_args m_stmts m_actions].
    intros (Hd & Hp & Ha & Hs & Hi & He & Hh & Hk).
    rewrite <- (blocks_actions a) at 1.
    set (tb := write_boundary N num_for "initval" (a_initval a) ++ write_boundary N num_for "endval" (a_endval a) ++
      write_boundary N num_for "histval" (a_histval a) ++ write_shocks N num_for (a_shocks a)).
    assert (Htb : list_text N (block_text N trunc) (blocks a) tb).
    { unfold blocks; subst tb; apply list_text_app; [|apply list_text_app; [|apply list_text_app]].
      - destruct (a_initval a); [|constructor]; apply list_text_one, Bk_init, write_boundary_text; exact Hi.
      - destruct (a_endval a); [|constructor]; apply list_text_one, Bk_end, write_boundary_text; exact He.
      - destruct (a_histval a); [|constructor]; apply list_text_one, Bk_hist, write_boundary_text; exact Hh.
      - destruct (a_shocks a) as [[ar l]|]; [|constructor]; apply list_text_one, Bk_shocks; destruct Hk as [H1 H2].
        + apply write_args_text; exact H1.
        + apply (concat_text _ _ _ _ write_shock_text H2). }
    match goal with |- file_text _ _ _ _ ?ts =>
      replace ts with ((concat (map (write_decl N) ds) ++ concat (map (write_assign N num_for) ps)) ++
        TKw "model" :: write_args N num_for args ++ sy Semi :: concat (map (write_stmt N num_for) stmts) ++
        TKw "end" :: sy Semi :: tb ++ TEof :: tail) end.
    2:{ rewrite <- !app_assoc; cbn [app]; rewrite <- !app_assoc; cbn [app]; rewrite <- !app_assoc; reflexivity. }
    apply (File N trunc nzero ds ps args stmts (blocks a)).
    - apply decls_text; [exact Hd|]; apply assigns_text; exact Hp.
    - apply write_args_text; exact Ha.
    - apply (concat_text _ _ _ _ write_stmt_text Hs).
    - exact Htb.
  Qed.

  Theorem parse_write f tail : writable N trunc num_for f ->
    parse_model N trunc nzero (write_file N num_for f ++ TEof :: tail) = Ok f.
  Proof. intros H; apply parse_model_iff, write_file_text; exact H. Qed.

  (** From text. *)
  Variable float_of : text -> option N.
  Notation rendered g l := (Forall (fun x => writes N float_of g (fst (fst x)) (snd (fst x)) /\
                     blank (snd x) /\ snd x <> []) l).
  Theorem parse_file_write f b0 (l : written N) : writable N trunc num_for f ->
    rendered Dynare l -> blank b0 -> map (fun x => fst (fst x)) l = write_file N num_for f ->
    parse_file N float_of trunc nzero (b0 ++ render l) = Ok f.
  Proof.
    intros Hw Hl Hb E.
    assert (Hn : l <> []).
    { intros ->; revert E; unfold write_file; cbn [map].
      destruct (concat (map (write_decl N) (m_decls f))); [|discriminate].
      destruct (concat (map (write_assign N num_for) (m_params f))); discriminate. }
    destruct (tokenize_render N float_of Dynare b0 l Hl Hb Hn) as (lts & Et & Em).
    unfold parse_file; rewrite Et; cbn [bind]; rewrite Em, E.
    apply (parse_write f [TEof] Hw).
  Qed.

  Theorem parse_string_print g e b0 (l : written N) : printable_top N trunc num_for e ->
    rendered g l -> blank b0 -> map (fun x => fst (fst x)) l = print N num_for 0 e ->
    parse_string N float_of trunc g (b0 ++ render l) = Ok e.
  Proof.
    intros He Hl Hb E.
    assert (Hn : l <> []).
    { intros ->; cbn [map] in E.
      assert (X : forall c e', [] <> print N num_for c e').
      { intros c e' Ee; apply (f_equal (@List.length _)) in Ee; revert Ee.
        destruct e' as [| | |u e'|o x y|fn e'|o x y]; cbn [print]; try discriminate;
          try destruct o; unfold paren; try destruct (_ <=? _); cbn [List.length];
          rewrite ?app_length; cbn [List.length]; lia. }
      exact (X _ _ E). }
    destruct (tokenize_render N float_of g b0 l Hl Hb Hn) as (lts & Et & Em).
    unfold parse_string; rewrite Et; cbn [bind]; rewrite Em, E.
    apply parse_print; exact He.
  Qed.
End Proofs.
