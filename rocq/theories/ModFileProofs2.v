(** Parsing a model file never runs out of steps, and exactly when it hangs. *)
From Verif Require Import Base Syntax Lexer Parser ParserSpec ParserProofs ParserProofs2 ModFileSpec ModFileProofs.

Section Proofs.
  Variable N : Type.
  Variable trunc : N -> option Z.
  Variable nzero : N.
  Notation toks := (list (tok N)).
  Notation sy := (@TSym N).

  Definition tame {A} (r : res A) : Prop := r <> Err OutOfFuel /\ r <> Err Hang.
  Lemma tame_ok {A} (a : A) : tame (Ok a). Proof. split; discriminate. Qed.
  Lemma tame_bind {A B} (r : res A) (k : A -> res B) :
    tame r -> (forall a, r = Ok a -> tame (k a)) -> tame (bind r k).
  Proof.
    unfold tame; destruct r as [a|e]; cbn [bind]; [intros _ H; exact (H a eq_refl)|].
    intros [H1 H2] _; split; congruence.
  Qed.
  Lemma tame_adv (ts : toks) : tame (adv N ts).
  Proof. destruct ts as [|? [|]]; split; discriminate. Qed.
  Lemma tame_eat_sym y (ts : toks) : tame (eat_sym N y ts).
  Proof. unfold eat_sym; destruct (is_sym N y ts); [apply tame_adv|split; discriminate]. Qed.
  Lemma tame_eat_kw y (ts : toks) : tame (eat_kw N y ts).
  Proof. unfold eat_kw; destruct (is_kw N y ts); [apply tame_adv|split; discriminate]. Qed.
  Lemma tame_eat_id (ts : toks) : tame (eat_id N ts).
  Proof.
    unfold eat_id; destruct ts as [|[] ts]; try (split; discriminate).
    apply tame_bind; [apply tame_adv|]; intros; apply tame_ok.
  Qed.
  Lemma tame_eat_num (ts : toks) : tame (eat_num N ts).
  Proof.
    unfold eat_num; destruct ts as [|[] ts]; try (split; discriminate).
    apply tame_bind; [apply tame_adv|]; intros; apply tame_ok.
  Qed.
  Lemma tame_eat_str (ts : toks) : tame (eat_str N ts).
  Proof.
    unfold eat_str; destruct ts as [|[] ts]; try (split; discriminate).
    apply tame_bind; [apply tame_adv|]; intros; apply tame_ok.
  Qed.
  Lemma tame_expr m (ts : toks) : tame (expr_of N trunc m ts).
  Proof. split; [apply expr_nof | apply expr_nohang]. Qed.

  Ltac bnd := apply tame_bind; [first
    [ apply tame_eat_sym | apply tame_eat_kw | apply tame_eat_id | apply tame_eat_num
    | apply tame_eat_str | apply tame_expr | apply tame_adv | idtac ] |].
  Ltac ok := intros; apply tame_ok.

  Lemma eat_sym_len y (ts ts' : toks) : eat_sym N y ts = Ok ts' -> List.length ts = S (List.length ts').
  Proof. intros H; apply eat_sym_inv in H as [-> _]; reflexivity. Qed.
  Lemma eat_id_len (ts ts' : toks) x : eat_id N ts = Ok (x, ts') -> List.length ts = S (List.length ts').
  Proof. intros H; apply eat_id_inv in H as [-> _]; reflexivity. Qed.
  Lemma eat_num_len (ts ts' : toks) x : eat_num N ts = Ok (x, ts') -> List.length ts = S (List.length ts').
  Proof. intros H; apply eat_num_inv in H as [-> _]; reflexivity. Qed.

  Lemma tame_declared f (ts : toks) : List.length ts < f -> tame (declared_names N f ts).
  Proof.
    revert ts; induction f as [|f IH]; intros ts L; [lia|]; cbn [declared_names]; unfold variable.
    destruct (is_sym N Comma ts).
    - bnd; intros ts1 H1; apply eat_sym_len in H1; bnd; intros [x ts2] H2; apply eat_id_len in H2.
      bnd; [apply IH; lia|]; intros []; ok.
    - destruct ts as [|[] ts]; try apply tame_ok.
      bnd; intros [x ts2] H2; apply eat_id_len in H2; cbn [List.length] in *.
      bnd; [apply IH; lia|]; intros []; ok.
  Qed.
  Lemma tame_decl k (ts : toks) : tame (variable_type_declaration N k ts).
  Proof.
    unfold variable_type_declaration; bnd; intros ts1 _; bnd; [apply tame_declared; lia|].
    intros [xs ts2] _; bnd; ok.
  Qed.
  Lemma tame_assign (ts : toks) : tame (variable_assignment N trunc ts).
  Proof.
    unfold variable_assignment, variable; bnd; intros [x ts1] _; bnd; intros ts2 _; bnd; intros [e ts3] _; bnd; ok.
  Qed.

  Lemma tame_comma_list {A} (p : toks -> res (A * toks)) R f (ts : toks) :
    (forall ts, tame (p ts)) -> Sound N p R ->
    List.length ts < f -> tame (comma_list N p f ts).
  Proof.
    intros Hp Hs; revert ts; induction f as [|f IH]; intros ts L; [lia|]; cbn [comma_list].
    destruct (is_sym N Comma ts); [|apply tame_ok].
    bnd; intros ts1 H1; apply eat_sym_len in H1; bnd; [apply Hp|]; intros [a ts2] H2.
    apply Hs in H2 as (pre & -> & _); rewrite app_length in H1.
    bnd; [apply IH; lia|]; intros []; ok.
  Qed.
  Lemma tame_until_end {A} (p : toks -> res (A * toks)) (R : A -> toks -> Prop) f (ts : toks) :
    (forall ts, tame (p ts)) -> Sound N p R -> (forall a pre, R a pre -> 1 <= List.length pre) ->
    List.length ts < f -> tame (until_end N p f ts).
  Proof.
    intros Hp Hs Hl; revert ts; induction f as [|f IH]; intros ts L; [lia|]; cbn [until_end].
    destruct (is_kw N "end" ts); [apply tame_ok|].
    bnd; [apply Hp|]; intros [a ts2] H2; apply Hs in H2 as (pre & -> & Ha); apply Hl in Ha.
    rewrite app_length in L; bnd; [apply IH; lia|]; intros []; ok.
  Qed.

  Lemma tame_arg (ts : toks) : tame (single_argument N trunc ts).
  Proof.
    unfold single_argument; bnd; intros [x ts1] _.
    destruct (is_sym N Equals ts1); [|apply tame_ok].
    bnd; intros ts2 _.
    assert (tame (do (e, ts3) <- expr N trunc ts2; Ok (Arg x (Some (AExpr e)), ts3)))
      by (bnd; intros []; ok).
    destruct ts2 as [|[] ts2]; try assumption; bnd; intros []; ok.
  Qed.
  Lemma tame_args (ts : toks) : tame (optional_argument_list N trunc ts).
  Proof.
    unfold optional_argument_list; destruct (is_sym N LPare ts); [|apply tame_ok].
    unfold argument_list; bnd; intros ts1 _; bnd; [apply tame_arg|]; intros [a ts2] _.
    bnd; [apply (tame_comma_list _ _ _ _ tame_arg (arg_sound N trunc)); lia|].
    intros [l ts3] _; bnd; ok.
  Qed.
  Lemma tame_tag (ts : toks) : tame (single_tag N ts).
  Proof.
    unfold single_tag; bnd; intros [x ts1] _.
    destruct (is_sym N Equals ts1); [|apply tame_ok].
    bnd; intros ts2 _; bnd; intros []; ok.
  Qed.
  Lemma tame_tags (ts : toks) : tame (tag_list N ts).
  Proof.
    unfold tag_list; bnd; intros ts1 _; bnd; [apply tame_tag|]; intros [a ts2] _.
    bnd; [apply (tame_comma_list _ _ _ _ tame_tag (tag_sound N)); lia|].
    intros [l ts3] _; bnd; ok.
  Qed.
  Lemma tame_equation (ts : toks) : tame (model_expression N trunc nzero ts).
  Proof.
    unfold model_expression; bnd; intros [l ts1] _; destruct (is_sym N Equals ts1); [|apply tame_ok].
    bnd; intros ts2 _; bnd; intros []; ok.
  Qed.
  Lemma tame_stmt (ts : toks) : tame (model_statement N trunc nzero ts).
  Proof.
    unfold model_statement; bnd; [|intros [s ts1] _; bnd; ok].
    destruct (is_sym N Pound ts); [|destruct (is_sym N LBracket ts)].
    - unfold local_declaration; bnd; intros ts1 _; bnd; intros [x ts2] _; bnd; intros ts3 _; bnd; intros []; ok.
    - bnd; [apply tame_tags|]; intros [t ts1] _; bnd; [apply tame_equation|]; intros []; ok.
    - bnd; [apply tame_equation|]; intros []; ok.
  Qed.
  Lemma stmt_len s pre : stmt_text N trunc nzero s pre -> 1 <= List.length pre.
  Proof. intros H; destruct (stmt_starts _ _ _ _ _ H) as (k & ts' & -> & _); cbn; lia. Qed.
  Lemma assign_len s pre : assign_text N trunc s pre -> 1 <= List.length pre.
  Proof. intros []; cbn; lia. Qed.

  Lemma tame_definition (ts : toks) : tame (model_definition N trunc nzero ts).
  Proof.
    unfold model_definition; bnd; intros ts1 _; bnd; [apply tame_args|]; intros [a ts2] _; bnd; intros ts3 _.
    bnd; [apply (tame_until_end _ _ _ _ tame_stmt (stmt_sound N trunc nzero) stmt_len); lia|].
    intros [b ts4] _; bnd; intros ts5 _; bnd; ok.
  Qed.
  Lemma tame_boundary k (ts : toks) : tame (boundary_values N trunc k ts).
  Proof.
    unfold boundary_values; bnd; intros ts1 _; bnd; [apply tame_args|]; intros [a ts2] _; bnd; intros ts3 _.
    bnd; [apply (tame_until_end _ _ _ _ tame_assign (assign_sound N trunc) assign_len); lia|].
    intros [b ts4] _; bnd; intros ts5 _; bnd; ok.
  Qed.

  Lemma tame_opt_comma (ts : toks) : tame (if is_sym N Comma ts then eat_sym N Comma ts else Ok ts).
  Proof. destruct (is_sym N Comma ts); [apply tame_eat_sym|apply tame_ok]. Qed.
  Lemma opt_comma_len (ts ts' : toks) :
    (if is_sym N Comma ts then eat_sym N Comma ts else Ok ts) = Ok ts' -> List.length ts' <= List.length ts.
  Proof.
    destruct (is_sym N Comma ts); intros H; [apply eat_sym_len in H; lia|injection H as <-; lia].
  Qed.
  Lemma tame_periods f (ts : toks) : List.length ts < f -> tame (shock_periods_list N f ts).
  Proof.
    revert ts; induction f as [|f IH]; intros ts L; [lia|]; cbn [shock_periods_list].
    destruct (is_sym N Comma ts || is_num N ts); [|apply tame_ok].
    bnd; [apply tame_opt_comma|]; intros ts1 H1; apply opt_comma_len in H1.
    bnd; intros [a ts2] H2; apply eat_num_len in H2.
    bnd.
    - destruct (is_sym N Colon ts2); [|apply tame_ok]; bnd; intros; apply tame_eat_num.
    - intros [b ts3] H3; bnd; [apply IH|intros []; ok].
      destruct (is_sym N Colon ts2); [|injection H3 as _ <-; lia].
      apply bind_ok in H3 as (ts5 & H5 & H3); apply eat_sym_len in H5; apply eat_num_len in H3; lia.
  Qed.
  Lemma tame_values f (ts : toks) : List.length ts < f -> tame (shock_values_list N trunc f ts).
  Proof.
    revert ts; induction f as [|f IH]; intros ts L; [lia|]; cbn [shock_values_list].
    destruct (is_sym N Comma ts || is_num N ts || is_sym N LPare ts); [|apply tame_ok].
    bnd; [apply tame_opt_comma|]; intros ts1 H1; apply opt_comma_len in H1.
    bnd.
    - destruct (is_num N ts1); bnd.
      + intros []; ok.
      + intros ts2 _; bnd; intros [e ts3] _; bnd; ok.
    - intros [v ts2] H2; bnd; [apply IH|intros []; ok].
      destruct (is_num N ts1).
      + apply bind_ok in H2 as ((n & ts5) & H5 & H2); apply eat_num_len in H5; injection H2 as _ <-; lia.
      + apply bind_ok in H2 as (ts5 & H5 & H2); apply eat_sym_len in H5.
        apply bind_ok in H2 as ((e & ts6) & H6 & H2); apply expr_sound in H6 as (pre & -> & _).
        apply bind_ok in H2 as (ts7 & H7 & H2); apply eat_sym_len in H7; injection H2 as _ <-.
        rewrite app_length in H5; lia.
  Qed.
  Lemma tame_peek k (ts : toks) : tame (peek N k ts).
  Proof. unfold peek; destruct (nth_error ts k); split; discriminate. Qed.

  Lemma tame_pair k mk (ts : toks) : tame (pair_shock N trunc k mk ts).
  Proof.
    unfold pair_shock, variable; bnd; intros ts1 _; bnd; intros [x ts2] _; bnd; intros ts3 _; bnd; intros [y ts4] _.
    bnd; intros ts5 _; bnd; intros []; ok.
  Qed.
  Lemma tame_det (ts : toks) : tame (deterministic_shock N trunc ts).
  Proof.
    unfold deterministic_shock, variable; bnd; intros ts1 _; bnd; intros [x ts2] _; bnd; intros ts3 _.
    bnd; intros ts4 _; bnd; [apply tame_periods; lia|]; intros [ps ts5] _; bnd; intros ts6 _; bnd; intros ts7 _.
    bnd; [apply tame_values; lia|]; intros []; ok.
  Qed.
  Lemma tame_shock (ts : toks) : tame (shock_stmt N trunc ts).
  Proof.
    unfold shock_stmt; destruct (is_kw N "corr" ts); [apply tame_pair|].
    bnd; [apply tame_peek|]; intros t2 _.
    destruct (tok_is_sym N Comma t2); [apply tame_pair|].
    destruct (tok_is_sym N Equals t2).
    { unfold variance_shock, variable; bnd; intros ts1 _; bnd; intros [x ts2] _; bnd; intros ts3 _; bnd; intros []; ok. }
    destruct (tok_is_sym N Semi t2); [|apply tame_det].
    bnd; [apply tame_peek|]; intros t3 _.
    destruct (tok_is_kw N "stderr" t3); [|apply tame_det].
    unfold stderr_shock, variable; bnd; intros ts1 _; bnd; intros [x ts2] _; bnd; intros ts3 _; bnd; intros ts4 _; bnd; intros []; ok.
  Qed.
  Lemma tame_shock_list f (ts : toks) : List.length ts < f -> tame (shock_list N trunc f ts).
  Proof.
    revert ts; induction f as [|f IH]; intros ts L; [lia|]; cbn [shock_list].
    destruct (is_kw N "corr" ts || is_kw N "var" ts); [|apply tame_ok].
    bnd; [apply tame_shock|]; intros [s ts1] H1; apply shock_sound in H1 as (pre & -> & _).
    rewrite app_length in L; bnd; intros ts2 H2; apply eat_sym_len in H2.
    bnd; [apply IH; lia|]; intros []; ok.
  Qed.
  Lemma tame_shocks (ts : toks) : tame (shocks_block N trunc ts).
  Proof.
    unfold shocks_block; bnd; intros ts1 _; bnd; [apply tame_args|]; intros [a ts2] _; bnd; intros ts3 _.
    bnd; [apply tame_shock_list; lia|]; intros [l ts4] _; bnd; intros ts5 _; bnd; ok.
  Qed.
  Lemma tame_actions f a (ts : toks) : List.length ts < f -> tame (general_model_actions N trunc f a ts).
  Proof.
    revert a ts; induction f as [|f IH]; intros a ts L; [lia|]; cbn [general_model_actions].
    assert (tame (do _ <- model_actions N trunc ts; general_model_actions N trunc f a ts)).
    { bnd.
      - unfold model_actions; destruct ts as [|[] ts]; try (split; discriminate).
        bnd; [apply tame_assign|]; intros; split; discriminate.
      - intros u Hu; exfalso; exact (model_actions_err _ _ _ _ Hu). }
    destruct ts as [|[| | | | |k|] ts]; try assumption; [apply tame_ok|].
    destruct (mem k boundary_kws); [|destruct (String.eqb k "shocks"); [|assumption]].
    - bnd; [apply tame_boundary|]; intros [b ts1] H1; apply boundary_sound in H1 as (pre & E & (ta & tl & _ & _ & ->) & _).
      apply IH; rewrite E in L; cbn [app List.length] in L; rewrite app_length in L; lia.
    - bnd; [apply tame_shocks|]; intros [s ts1] H1; apply shocks_sound in H1 as (pre & E & Hb & _).
      apply block_len in Hb as (k' & ts' & ->).
      apply IH; rewrite E in L; cbn [app List.length] in L; rewrite app_length in L; lia.
  Qed.

  (** ** The preamble *)
  (** The tokens on which the loop of the preamble makes no progress. *)
  Definition stuck (t : tok N) : Prop :=
    match t with
    | TId _ => False
    | TKw k => ~ In k ("model"%string :: var_kinds)
    | _ => True
    end.

  Lemma preamble_nof f (ts : toks) : List.length ts < f -> variable_preamble N trunc f ts <> Err OutOfFuel.
  Proof.
    revert ts; induction f as [|f IH]; intros ts L; [lia|]; cbn [variable_preamble].
    destruct ts as [|[|x| | | |k|] ts]; try discriminate.
    - apply nof_bind; [apply tame_assign|]; intros [a ts1] H1; apply assign_sound in H1 as (pre & E & Ha).
      apply assign_len in Ha; rewrite E, app_length in L.
      apply nof_bind; [apply IH; lia|]; intros [[]]; intros; apply nof_ok.
    - destruct (String.eqb k "model"); [discriminate|].
      destruct (mem k variable_types); [|discriminate].
      apply nof_bind; [apply tame_decl|]; intros [ds ts1] H1; apply decl_sound in H1 as (xs & tx & E & _).
      rewrite E in L; cbn [List.length] in L; rewrite app_length in L; cbn [List.length] in L.
      apply nof_bind; [apply IH; lia|]; intros [[]]; intros; apply nof_ok.
  Qed.

  Lemma preamble_hang f (ts : toks) :
    variable_preamble N trunc f ts = Err Hang -> ts <> [] ->
    exists ds ps pre t rest, ts = pre ++ t :: rest /\ preamble_text N trunc ds ps pre /\ stuck t.
  Proof.
    revert ts; induction f as [|f IH]; intros ts H Hne; [discriminate|]; cbn [variable_preamble] in H.
    assert (Hst : forall t ts', ts = t :: ts' -> stuck t ->
      exists ds ps pre t rest, ts = pre ++ t :: rest /\ preamble_text N trunc ds ps pre /\ stuck t).
    { intros t ts' -> Ht; exists [], [], [], t, ts'; split; [reflexivity|]; split; [constructor|exact Ht]. }
    destruct ts as [|[|x| | | |k|] ts]; try (eapply Hst; [reflexivity|exact I]); [congruence| |].
    - pose proof (tame_assign (TId x :: ts)) as T.
      destruct (variable_assignment N trunc (TId x :: ts)) as [(a & ts1)|] eqn:E1; cbn [bind] in H;
        [|exfalso; apply T; congruence].
      destruct (variable_preamble N trunc f ts1) as [[[? ?] ?]|ee] eqn:E2; cbn [bind] in H; [discriminate|].
      injection H as ->; pose proof (assign_nonempty _ _ _ _ _ E1) as Hn1.
      apply IH in E2 as (ds & ps & pre & t & rest & -> & Hp & Ht); [|exact Hn1].
      apply assign_sound in E1 as (pre1 & -> & Ha).
      exists ds, (a :: ps), (pre1 ++ pre), t, rest; split; [apply app_assoc|]; split; [constructor; assumption|exact Ht].
    - destruct (String.eqb_spec k "model") as [->|Nk]; [discriminate|].
      destruct (mem k variable_types) eqn:Ek.
      + apply mem_In in Ek; pose proof (tame_decl k (TKw k :: ts)) as T.
        destruct (variable_type_declaration N k (TKw k :: ts)) as [(d & ts1)|] eqn:E1; cbn [bind] in H;
          [|exfalso; apply T; congruence].
        destruct (variable_preamble N trunc f ts1) as [[[? ?] ?]|ee] eqn:E2; cbn [bind] in H; [discriminate|].
        injection H as ->; apply decl_sound in E1 as (xs & tx & -> & Hx & -> & Hn1).
        apply IH in E2 as (ds & ps & pre & t & rest & -> & Hp & Ht); [|exact Hn1].
        eexists _, ps, (TKw k :: tx ++ sy Semi :: pre), t, rest; split; [|split; [constructor; eassumption|exact Ht]].
        cbn [app]; rewrite <- app_assoc; reflexivity.
      + eapply Hst; [reflexivity|]; intros [E|E]; [congruence|].
        apply (mem_In k variable_types) in E; congruence.
  Qed.

  Lemma stuck_hangs t (rest : toks) f : stuck t -> variable_preamble N trunc (S f) (t :: rest) = Err Hang.
  Proof.
    cbn [variable_preamble]; destruct t as [|x| | | |k|]; cbn [stuck]; try reflexivity; [contradiction|].
    intros H; destruct (String.eqb_spec k "model") as [->|Nk]; [exfalso; apply H; left; reflexivity|].
    destruct (mem k variable_types) eqn:Ek; [|reflexivity].
    exfalso; apply H; right; apply mem_In in Ek; exact Ek.
  Qed.

  (** The file parser loops forever exactly when the declarations and assignments
      at the head of the file are followed by a token that is no name, no kind of
      variable and not [model]. *)
  Theorem parse_model_hangs_iff ts :
    parse_model N trunc nzero ts = Err Hang <->
    exists ds ps pre t rest, ts = pre ++ t :: rest /\ preamble_text N trunc ds ps pre /\ stuck t.
  Proof.
    split.
    - unfold parse_model; destruct ts as [|t0 ts0]; [discriminate|].
      intros H; unfold model_file in H.
      destruct (variable_preamble N trunc _ _) as [[[ds ps] ts1]|e] eqn:E; cbn [bind] in H.
      + exfalso.
        assert (tame (do (d, ts2) <- model_definition N trunc nzero ts1;
          do (a, _) <- general_model_actions N trunc (S (List.length ts2)) (no_actions N) ts2;
          Ok (ModFile ds ps (fst d) (snd d) a))) as T.
        { bnd; [apply tame_definition|]; intros [d ts2] _; bnd; [apply tame_actions; lia|]; intros []; ok. }
        apply T; exact H.
      + injection H as ->; eapply preamble_hang; [exact E|discriminate].
    - intros (ds & ps & pre & t & rest & -> & Hp & Ht).
      assert (E : model_file N trunc nzero (pre ++ t :: rest) = Err Hang).
      { unfold model_file.
        destruct (preamble_run N trunc _ _ _ Hp (t :: rest) (S (List.length (pre ++ t :: rest)))
          ltac:(discriminate) ltac:(rewrite app_length; lia)) as (f' & Lf & ->).
        rewrite app_length in Lf; cbn [List.length] in Lf; destruct f' as [|f']; [lia|].
        rewrite stuck_hangs by exact Ht; reflexivity. }
      destruct (pre ++ t :: rest) eqn:Eq; [destruct pre; discriminate|exact E].
  Qed.

  Theorem parse_model_nof ts : parse_model N trunc nzero ts <> Err OutOfFuel.
  Proof.
    unfold parse_model; destruct ts as [|t0 ts0]; [discriminate|].
    unfold model_file; apply nof_bind; [apply preamble_nof; lia|]; intros [[ds ps] ts1] _.
    apply nof_bind; [apply tame_definition|]; intros [d ts2] _.
    apply nof_bind; [apply tame_actions; lia|]; intros []; intros; apply nof_ok.
  Qed.
End Proofs.
