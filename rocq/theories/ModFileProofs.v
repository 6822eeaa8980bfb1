From Verif Require Import Base Syntax Lexer Parser ParserSpec ParserProofs ParserProofs2 ModFileSpec.

Section Proofs.
  Variable N : Type.
  Variable trunc : N -> option Z.
  Variable nzero : N.
  Notation toks := (list (tok N)).
  Notation sy := (@TSym N).
  Notation expr_text := (expr_text N trunc).
  Notation closes := (closes N).

  Ltac ne := repeat first [discriminate | assumption | apply app_ne].

  (** ** Steps *)
  Lemma eat_sym_ok y (ts : toks) : ts <> [] -> eat_sym N y (sy y :: ts) = Ok ts.
  Proof.
    intros H; unfold eat_sym; cbn [is_sym]; unfold sym_eqb.
    destruct (sym_eq_dec y y); [apply adv_cons; exact H|congruence].
  Qed.
  Lemma eat_kw_ok k (ts : toks) : ts <> [] -> eat_kw N k (TKw k :: ts) = Ok ts.
  Proof.
    intros H; unfold eat_kw; cbn [is_kw]; rewrite String.eqb_refl; apply adv_cons; exact H.
  Qed.
  Lemma eat_id_ok x (ts : toks) : ts <> [] -> eat_id N (TId x :: ts) = Ok (x, ts).
  Proof. intros H; unfold eat_id; rewrite adv_cons by exact H; reflexivity. Qed.
  Lemma eat_num_ok n (ts : toks) : ts <> [] -> eat_num N (TNum n :: ts) = Ok (n, ts).
  Proof. intros H; unfold eat_num; rewrite adv_cons by exact H; reflexivity. Qed.
  Lemma eat_str_ok x (ts : toks) : ts <> [] -> eat_str N (TStr x :: ts) = Ok (x, ts).
  Proof. intros H; unfold eat_str; rewrite adv_cons by exact H; reflexivity. Qed.
  Lemma eat_kw_inv k (ts ts' : toks) : eat_kw N k ts = Ok ts' -> ts = TKw k :: ts' /\ ts' <> [].
  Proof.
    unfold eat_kw; destruct (is_kw N k ts) eqn:E; [|discriminate].
    destruct ts as [|[] ts]; try discriminate; cbn [is_kw] in E; apply String.eqb_eq in E as <-.
    intros H; apply adv_inv in H as [(t & H) Hn]; injection H as <- <-; auto.
  Qed.
  Lemma eat_str_inv (ts ts' : toks) x : eat_str N ts = Ok (x, ts') -> ts = TStr x :: ts' /\ ts' <> [].
  Proof.
    unfold eat_str; destruct ts as [|[| | |x'| | |y] ts]; try discriminate; intros H.
    apply bind_ok in H as (ts1 & H1 & H); apply adv_inv in H1 as [(t & H1) Hn].
    injection H as <- <-; injection H1 as <- <-; auto.
  Qed.
  Lemma is_sym_refl y (ts : toks) : is_sym N y (sy y :: ts) = true.
  Proof. cbn [is_sym]; unfold sym_eqb; destruct (sym_eq_dec y y); congruence. Qed.
  Lemma is_kw_refl k (ts : toks) : is_kw N k (TKw k :: ts) = true.
  Proof. apply String.eqb_refl. Qed.
  Lemma is_kw_inv k (ts : toks) : is_kw N k ts = true -> exists ts', ts = TKw k :: ts'.
  Proof.
    destruct ts as [|[] ts]; try discriminate; cbn [is_kw]; intros E; apply String.eqb_eq in E as <-; eauto.
  Qed.

  Lemma expr_sound m (ts rest : toks) e :
    expr_of N trunc m ts = Ok (e, rest) -> exists pre, ts = pre ++ rest /\ expr_text m e pre /\ rest <> [].
  Proof.
    intros H; apply expr_iff in H as (pre & o & en & -> & Hr & He).
    exists pre; split; [reflexivity|]; split; [exists o, en; exact Hr | exact (ends_ne _ _ _ _ _ _ He)].
  Qed.
  Lemma expr_complete m e (pre rest : toks) :
    expr_text m e pre -> closes rest -> expr_of N trunc m (pre ++ rest) = Ok (e, rest).
  Proof.
    intros (o & en & Hr) Hc; apply expr_iff; exists pre, o, en; split; [reflexivity|].
    split; [exact Hr|]; apply closes_ends; exact Hc.
  Qed.

  (** What an expression can start with. *)
  Definition starts (t : tok N) : Prop :=
    match t with
    | TId _ | TNum _ | TFun _ | TSym (LPare | Plus | Minus) => True
    | _ => False
    end.
  Lemma reads_starts m t o en e ts :
    reads N trunc m true t o en e ts -> exists k ts', ts = k :: ts' /\ starts k.
  Proof.
    intros H; induction H; try (eexists _, _; split; [reflexivity|exact I]);
      try (eexists _, _; split; [reflexivity|destruct u; exact I]); auto;
      destruct IHreads1 as (k' & ts' & -> & Hk); cbn [app]; eauto.
  Qed.
  Lemma expr_starts m e ts : expr_text m e ts -> exists k ts', ts = k :: ts' /\ starts k.
  Proof. intros (o & en & H); eapply reads_starts; exact H. Qed.
  Lemma closes_ne (ts : toks) : closes ts -> ts <> [].
  Proof. destruct ts; [contradiction|discriminate]. Qed.

  Definition Sound {A} (p : toks -> res (A * toks)) (R : A -> toks -> Prop) : Prop :=
    forall ts a rest, p ts = Ok (a, rest) -> exists pre, ts = pre ++ rest /\ R a pre.
  Definition Complete {A} (p : toks -> res (A * toks)) (R : A -> toks -> Prop) (F : toks -> Prop) : Prop :=
    forall a pre rest, R a pre -> F rest -> p (pre ++ rest) = Ok (a, rest).

  Ltac eats :=
    repeat (first
      [ rewrite eat_sym_ok by ne | rewrite eat_kw_ok by ne | rewrite eat_id_ok by ne
      | rewrite eat_num_ok by ne | rewrite eat_str_ok by ne ]; cbn [bind]); cbn [bind].

  (** ** Loops *)
  Lemma list_len {A} (R : A -> toks -> Prop) :
    (forall a ts, R a ts -> 1 <= List.length ts) ->
    forall l ts, list_text N R l ts -> List.length l <= List.length ts.
  Proof.
    intros H l ts Hl; induction Hl as [|a l ta tl Ha Hl IH]; cbn [List.length]; [lia|].
    rewrite app_length; specialize (H _ _ Ha); lia.
  Qed.

  Lemma until_end_sound {A} (p : toks -> res (A * toks)) (R : A -> toks -> Prop) f :
    Sound p R -> Sound (until_end N p f) (fun l => list_text N R l).
  Proof.
    intros Hp; induction f as [|f IH]; intros ts l rest H; [discriminate|]; cbn [until_end] in H.
    destruct (is_kw N "end" ts).
    - injection H as <- <-; exists []; split; [reflexivity|constructor].
    - apply bind_ok in H as ((a & ts1) & H1 & H); apply Hp in H1 as (pre1 & -> & Ha).
      apply bind_ok in H as ((l' & ts2) & H2 & H); injection H as <- <-.
      apply IH in H2 as (pre2 & -> & Hl).
      exists (pre1 ++ pre2); split; [apply app_assoc|constructor; assumption].
  Qed.

  Lemma until_end_complete {A} (p : toks -> res (A * toks)) (R : A -> toks -> Prop) l tl rest :
    (forall a pre rest, R a pre -> rest <> [] -> p (pre ++ rest) = Ok (a, rest)) ->
    (forall a pre, R a pre -> exists k ts', pre = k :: ts' /\ match k with TKw _ => False | _ => True end) ->
    list_text N R l tl -> forall f, List.length tl < f ->
    until_end N p f (tl ++ TKw "end" :: rest) = Ok (l, TKw "end" :: rest).
  Proof.
    intros Hp Hk Hl; induction Hl as [|a l ta tl Ha Hl IH]; intros f Hf;
      (destruct f as [|f]; [lia|]); cbn [until_end].
    - cbn [app]; rewrite is_kw_refl; reflexivity.
    - destruct (Hk _ _ Ha) as (k & ts' & E & Hnk).
      replace (is_kw N "end" ((ta ++ tl) ++ TKw "end" :: rest)) with false
        by (subst ta; cbn [app is_kw]; destruct k; tauto).
      rewrite <- app_assoc, (Hp a ta _ Ha) by ne; cbn [bind].
      rewrite IH by (subst ta; rewrite app_length in Hf; cbn [List.length] in Hf; lia); reflexivity.
  Qed.

  Lemma comma_list_sound {A} (p : toks -> res (A * toks)) (R : A -> toks -> Prop) f :
    Sound p R -> Sound (comma_list N p f) (fun l => comma_text N R l).
  Proof.
    intros Hp; induction f as [|f IH]; intros ts l rest H; [discriminate|]; cbn [comma_list] in H.
    destruct (is_sym N Comma ts).
    - apply bind_ok in H as (ts0 & H0 & H); apply eat_sym_inv in H0 as [-> _].
      apply bind_ok in H as ((a & ts1) & H1 & H); apply Hp in H1 as (pre1 & -> & Ha).
      apply bind_ok in H as ((l' & ts2) & H2 & H); injection H as <- <-.
      apply IH in H2 as (pre2 & -> & Hl).
      exists (sy Comma :: pre1 ++ pre2); split; [cbn [app]; rewrite app_assoc; reflexivity|constructor; assumption].
    - injection H as <- <-; exists []; split; [reflexivity|constructor].
  Qed.

  (** The tokens behind an item in a list with closing token [y]. *)
  Definition sep (y : sym) (ts : toks) : Prop :=
    exists ts', (ts = sy Comma :: ts' \/ ts = sy y :: ts') /\ ts' <> [].

  Lemma comma_list_complete {A} (p : toks -> res (A * toks)) (R : A -> toks -> Prop) l tl y rest :
    y <> Comma -> rest <> [] ->
    Complete p R (sep y) -> (forall a pre, R a pre -> 1 <= List.length pre) ->
    comma_text N R l tl -> forall f, List.length tl < f ->
    comma_list N p f (tl ++ sy y :: rest) = Ok (l, sy y :: rest).
  Proof.
    intros Hy Hr Hp Hlen Hl; induction Hl as [|a l ta tl Ha Hl IH]; intros f Hf;
      (destruct f as [|f]; [lia|]); cbn [comma_list].
    - cbn [app is_sym]; unfold sym_eqb; destruct (sym_eq_dec Comma y); [congruence|reflexivity].
    - cbn [app]; rewrite is_sym_refl, <- app_assoc, eat_sym_ok by ne; cbn [bind].
      rewrite (Hp a ta) ; [|exact Ha|].
      + cbn [bind]; rewrite IH by (cbn [List.length] in Hf; rewrite app_length in Hf; specialize (Hlen _ _ Ha); lia); reflexivity.
      + destruct Hl as [|a' l' ta' tl' Ha' Hl']; cbn [app].
        * exists rest; auto.
        * eexists; split; [left; reflexivity|]; ne.
  Qed.

  (** ** Declarations and assignments *)
  Lemma declared_sound f : Sound (declared_names N f) (fun xs => list_text N (name_text N) xs).
  Proof.
    induction f as [|f IH]; intros ts l rest H; [discriminate|]; cbn [declared_names] in H.
    destruct (is_sym N Comma ts) eqn:Ec.
    - apply bind_ok in H as (ts0 & H0 & H); apply eat_sym_inv in H0 as [-> _].
      apply bind_ok in H as ((x & ts1) & H1 & H); apply eat_id_inv in H1 as [-> _].
      apply bind_ok in H as ((l' & ts2) & H2 & H); injection H as <- <-.
      apply IH in H2 as (pre2 & -> & Hl).
      exists ([sy Comma; TId x] ++ pre2); split; [reflexivity|constructor; [constructor|assumption]].
    - assert (H' : Ok ([], ts) = Ok (l, rest) -> exists pre, ts = pre ++ rest /\ list_text N (name_text N) l pre)
        by (intros E; injection E as <- <-; exists []; split; [reflexivity|constructor]).
      destruct ts as [|[] ts]; try exact (H' H).
      apply bind_ok in H as ((x & ts1) & H1 & H); apply eat_id_inv in H1 as [E _]; injection E as <- ->.
      apply bind_ok in H as ((l' & ts2) & H2 & H); injection H as <- <-.
      apply IH in H2 as (pre2 & -> & Hl).
      exists ([TId s] ++ pre2); split; [reflexivity|constructor; [constructor|assumption]].
  Qed.
  Lemma declared_complete xs tx rest f :
    list_text N (name_text N) xs tx -> List.length tx < f ->
    declared_names N f (tx ++ sy Semi :: rest) = Ok (xs, sy Semi :: rest).
  Proof.
    intros H; revert f; induction H as [|x l ta tl Ha Hl IH]; intros f Hf;
      (destruct f as [|f]; [lia|]).
    - reflexivity.
    - rewrite <- app_assoc; rewrite app_length in Hf.
      inversion Ha; subst; cbn [app declared_names List.length] in *.
      + change (is_sym N Comma (TId x :: tl ++ sy Semi :: rest)) with false; cbv iota.
        unfold variable; rewrite eat_id_ok by ne; cbn [bind]; rewrite IH by lia; reflexivity.
      + change (is_sym N Comma (sy Comma :: TId x :: tl ++ sy Semi :: rest)) with true; cbv iota.
        unfold variable; rewrite eat_sym_ok by ne; cbn [bind]; rewrite eat_id_ok by ne; cbn [bind].
        rewrite IH by lia; reflexivity.
  Qed.

  Lemma decl_sound k (ts rest : toks) ds :
    variable_type_declaration N k ts = Ok (ds, rest) ->
    exists xs tx, ts = TKw k :: tx ++ sy Semi :: rest /\ list_text N (name_text N) xs tx /\
      ds = map (fun x => (x, k)) xs /\ rest <> [].
  Proof.
    unfold variable_type_declaration; intros H.
    apply bind_ok in H as (ts1 & H1 & H); apply eat_kw_inv in H1 as [-> _].
    apply bind_ok in H as ((xs & ts2) & H2 & H); apply declared_sound in H2 as (tx & -> & Hx).
    apply bind_ok in H as (ts3 & H3 & H); apply eat_sym_inv in H3 as [-> Hn]; injection H as <- <-.
    exists xs, tx; auto.
  Qed.
  Lemma decl_complete k xs tx (rest : toks) :
    list_text N (name_text N) xs tx -> rest <> [] ->
    variable_type_declaration N k (TKw k :: tx ++ sy Semi :: rest) = Ok (map (fun x => (x, k)) xs, rest).
  Proof.
    intros H Hn; unfold variable_type_declaration; eats.
    rewrite (declared_complete xs) by (auto; rewrite app_length; lia); cbn [bind].
    rewrite eat_sym_ok by exact Hn; reflexivity.
  Qed.

  Lemma assign_sound : Sound (variable_assignment N trunc) (assign_text N trunc).
  Proof.
    intros ts a rest H; unfold variable_assignment, variable in H.
    apply bind_ok in H as ((x & ts1) & H1 & H); apply eat_id_inv in H1 as [-> _].
    apply bind_ok in H as (ts2 & H2 & H); apply eat_sym_inv in H2 as [-> _].
    apply bind_ok in H as ((e & ts3) & H3 & H); apply expr_sound in H3 as (pre & -> & He & _).
    apply bind_ok in H as (ts4 & H4 & H); apply eat_sym_inv in H4 as [-> _]; injection H as <- <-.
    exists (TId x :: sy Equals :: pre ++ [sy Semi]); split; [cbn [app]; rewrite <- app_assoc; reflexivity|].
    constructor; exact He.
  Qed.
  Lemma assign_complete : Complete (variable_assignment N trunc) (assign_text N trunc) (fun rest => rest <> []).
  Proof.
    intros a pre rest H Hn; destruct H as [x e ts He]; unfold variable_assignment, variable; cbn [app].
    rewrite <- app_assoc; eats.
    unfold expr; (erewrite expr_complete; [|eassumption|exact I]); cbn [bind app]; eats; reflexivity.
  Qed.
  Lemma assign_starts a pre : assign_text N trunc a pre ->
    exists x ts', pre = TId x :: ts'.
  Proof. intros []; eauto. Qed.

  Lemma assign_nonempty (ts rest : toks) a : variable_assignment N trunc ts = Ok (a, rest) -> rest <> [].
  Proof.
    intros H; unfold variable_assignment in H.
    apply bind_ok in H as ((x & ts1) & H1 & H).
    apply bind_ok in H as (ts2 & H2 & H).
    apply bind_ok in H as ((e & ts3) & H3 & H).
    apply bind_ok in H as (ts4 & H4 & H); apply eat_sym_inv in H4 as [-> Hn]; injection H as <- <-; exact Hn.
  Qed.

  (** ** Preamble *)
  Lemma preamble_sound f ts ds ps rest :
    variable_preamble N trunc f ts = Ok (ds, ps, rest) ->
    exists pre rest', ts = pre ++ rest /\ rest = TKw "model" :: rest' /\ preamble_text N trunc ds ps pre.
  Proof.
    revert ts ds ps; induction f as [|f IH]; intros ts ds ps H; [discriminate|]; cbn [variable_preamble] in H.
    destruct ts as [|[|x| | | |k|] ts]; try discriminate.
    - apply bind_ok in H as ((a & ts1) & H1 & H); apply assign_sound in H1 as (pre1 & E & Ha).
      apply bind_ok in H as (((ds' & ps') & ts2) & H2 & H); injection H as <- <- <-.
      apply IH in H2 as (pre2 & rest' & -> & -> & Hp).
      exists (pre1 ++ pre2), rest'; split; [rewrite <- app_assoc; exact E|]; split; [reflexivity|].
      constructor; assumption.
    - destruct (String.eqb_spec k "model") as [->|Nk].
      + injection H as <- <- <-; exists [], ts; split; [reflexivity|]; split; [reflexivity|constructor].
      + destruct (mem k variable_types) eqn:Ek; [|discriminate].
        apply mem_In in Ek.
        apply bind_ok in H as ((ds1 & ts1) & H1 & H); apply decl_sound in H1 as (xs & tx & E & Hx & -> & _).
        apply bind_ok in H as (((ds' & ps') & ts2) & H2 & H); injection H as <- <- <-.
        apply IH in H2 as (pre2 & rest' & -> & -> & Hp).
        exists (TKw k :: tx ++ sy Semi :: pre2), rest'; split; [|split; [reflexivity|constructor; assumption]].
        rewrite E; cbn [app]; rewrite <- app_assoc; reflexivity.
  Qed.

  Lemma preamble_run ds ps tp : preamble_text N trunc ds ps tp ->
    forall rest f, rest <> [] -> List.length tp < f ->
    exists f', f - List.length tp <= f' /\
    variable_preamble N trunc f (tp ++ rest) =
      do (ds', ps', ts) <- variable_preamble N trunc f' rest; Ok (ds ++ ds', ps ++ ps', ts).
  Proof.
    induction 1 as [|k xs tx ds ps ts Hk Hx Hp IH|a ta ds ps ts Ha Hp IH]; intros rest f Hn Hf.
    - exists f; split; [cbn; lia|]; cbn [app].
      destruct (variable_preamble N trunc f rest) as [[[? ?] ?]|]; reflexivity.
    - destruct f as [|f]; [cbn in Hf; lia|].
      cbn [List.length app] in *; rewrite app_length in Hf; cbn [List.length] in Hf.
      destruct (IH rest f Hn ltac:(lia)) as (f' & Lf & E).
      exists f'; split; [rewrite app_length; cbn [List.length]; lia|].
      cbn [variable_preamble].
      assert (Hkm : String.eqb k "model" = false /\ mem k variable_types = true).
      { cbn [var_kinds In] in Hk.
        repeat match type of Hk with _ \/ _ => destruct Hk as [<-|Hk]; [split; reflexivity|] end; contradiction. }
      destruct Hkm as [-> ->].
      rewrite <- app_assoc; cbn [app].
      rewrite (decl_complete k xs tx) by (auto; ne); cbn [bind].
      rewrite E; destruct (variable_preamble N trunc f' rest) as [[[ds' ps'] ts']|]; cbn [bind]; [|reflexivity].
      rewrite <- app_assoc; reflexivity.
    - destruct (assign_starts _ _ Ha) as (x & ts' & Et).
      destruct f as [|f]; [lia|].
      assert (Hlen : 1 <= List.length ta) by (subst ta; cbn; lia).
      rewrite app_length in Hf.
      destruct (IH rest f Hn ltac:(lia)) as (f' & Lf & E).
      exists f'; split; [rewrite app_length; lia|].
      rewrite <- app_assoc.
      pose proof (assign_complete a ta (ts ++ rest) Ha ltac:(ne)) as Ea.
      cbn [variable_preamble].
      rewrite Ea; subst ta; cbn [app bind].
      rewrite E; destruct (variable_preamble N trunc f' rest) as [[[ds' ps'] ts'']|]; reflexivity.
  Qed.

  (** ** Options and tags *)
  Lemma arg_sound : Sound (single_argument N trunc) (arg_text N trunc).
  Proof.
    intros ts a rest H; unfold single_argument in H.
    apply bind_ok in H as ((x & ts1) & H1 & H); apply eat_id_inv in H1 as [-> _].
    destruct (is_sym N Equals ts1).
    - apply bind_ok in H as (ts2 & H2 & H); apply eat_sym_inv in H2 as [-> _].
      assert (He : (do (e, ts3) <- expr N trunc ts2; Ok (Arg x (Some (AExpr e)), ts3)) = Ok (a, rest) ->
        match ts2 with TId _ :: _ => False | _ => True end ->
        exists pre, TId x :: sy Equals :: ts2 = pre ++ rest /\ arg_text N trunc a pre).
      { intros He Hnid; apply bind_ok in He as ((e & ts3) & H3 & He); injection He as <- <-.
        apply expr_sound in H3 as (pre & -> & Hx & _).
        exists (TId x :: sy Equals :: pre); split; [reflexivity|constructor; [exact Hx|]].
        destruct (expr_starts _ _ _ Hx) as (k & ts' & -> & _); exact Hnid. }
      destruct ts2 as [|[] ts2]; try (apply He; [exact H|exact I]).
      + apply bind_ok in H as ((s' & ts3) & H3 & H); apply eat_id_inv in H3 as [E _]; injection E as -> ->.
        injection H as <- <-; eexists [_; _; _]; split; [reflexivity|constructor].
      + apply bind_ok in H as ((s' & ts3) & H3 & H); apply eat_str_inv in H3 as [E _]; injection E as -> ->.
        injection H as <- <-; eexists [_; _; _]; split; [reflexivity|constructor].
    - injection H as <- <-; exists [TId x]; split; [reflexivity|constructor].
  Qed.
  Lemma sep_closes y ts : (y = RPare \/ y = RBracket) -> sep y ts -> closes ts /\ ts <> [] /\ is_sym N Equals ts = false.
  Proof. intros [->| ->] (ts' & [->| ->] & _); repeat split; ne. Qed.
  Lemma arg_complete : Complete (single_argument N trunc) (arg_text N trunc) (sep RPare).
  Proof.
    intros a pre rest H Hs; destruct (sep_closes RPare rest (or_introl eq_refl) Hs) as (Hc & Hn & He).
    unfold single_argument; destruct H as [x|x s|x s|x e ts Hx Hnid]; cbn [app]; eats.
    - rewrite He; reflexivity.
    - rewrite is_sym_refl; eats; reflexivity.
    - rewrite is_sym_refl; eats; reflexivity.
    - rewrite is_sym_refl.
      destruct (expr_starts _ _ _ Hx) as (k & ts' & Et & Hk).
      cbn [bind].
      pose proof (expr_complete _ _ _ _ Hx Hc) as E.
      fold (expr N trunc) in E; rewrite E; subst ts; cbn [app].
      destruct k; try contradiction; reflexivity.
  Qed.
  Lemma arg_len a pre : arg_text N trunc a pre -> 1 <= List.length pre.
  Proof. intros []; cbn; lia. Qed.

  Lemma tag_sound : Sound (single_tag N) (tag_text N).
  Proof.
    intros ts a rest H; unfold single_tag in H.
    apply bind_ok in H as ((x & ts1) & H1 & H); apply eat_id_inv in H1 as [-> _].
    destruct (is_sym N Equals ts1).
    - apply bind_ok in H as (ts2 & H2 & H); apply eat_sym_inv in H2 as [-> _].
      apply bind_ok in H as ((s' & ts3) & H3 & H); apply eat_str_inv in H3 as [-> _].
      injection H as <- <-; eexists [_; _; _]; split; [reflexivity|constructor].
    - injection H as <- <-; exists [TId x]; split; [reflexivity|constructor].
  Qed.
  Lemma tag_complete : Complete (single_tag N) (tag_text N) (sep RBracket).
  Proof.
    intros a pre rest H Hs; destruct (sep_closes RBracket rest (or_intror eq_refl) Hs) as (Hc & Hn & He).
    unfold single_tag; destruct H as [x|x s]; cbn [app]; eats.
    - rewrite He; reflexivity.
    - rewrite is_sym_refl; eats; reflexivity.
  Qed.
  Lemma tag_len a pre : tag_text N a pre -> 1 <= List.length pre.
  Proof. intros []; cbn; lia. Qed.

  Lemma sep_next {A} (R : A -> toks -> Prop) l tl y rest :
    comma_text N R l tl -> rest <> [] -> sep y (tl ++ sy y :: rest).
  Proof.
    intros Hl Hr; destruct Hl; cbn [app]; eexists; (split; [|idtac]); eauto; ne.
  Qed.

  Lemma args_sound : Sound (optional_argument_list N trunc) (args_text N trunc).
  Proof.
    intros ts a rest H; unfold optional_argument_list in H.
    destruct (is_sym N LPare ts); [|injection H as <- <-; exists []; split; [reflexivity|constructor]].
    unfold argument_list in H.
    apply bind_ok in H as (ts1 & H1 & H); apply eat_sym_inv in H1 as [-> _].
    apply bind_ok in H as ((a0 & ts2) & H2 & H); apply arg_sound in H2 as (pre1 & -> & Ha).
    apply bind_ok in H as ((l & ts3) & H3 & H); apply (comma_list_sound _ _ _ arg_sound) in H3 as (pre2 & -> & Hl).
    apply bind_ok in H as (ts4 & H4 & H); apply eat_sym_inv in H4 as [-> _]; injection H as <- <-.
    exists (sy LPare :: pre1 ++ pre2 ++ [sy RPare]); split; [|constructor; assumption].
    cbn [app]; rewrite <- !app_assoc; reflexivity.
  Qed.
  Lemma args_complete args ta rest :
    args_text N trunc args ta -> rest <> [] ->
    optional_argument_list N trunc (ta ++ sy Semi :: rest) = Ok (args, sy Semi :: rest).
  Proof.
    intros H Hn; destruct H as [|a l ta tl Ha Hl]; unfold optional_argument_list; [reflexivity|].
    cbn [app]; rewrite is_sym_refl; unfold argument_list.
    rewrite <- !app_assoc; cbn [app]; eats.
    rewrite (arg_complete a ta) by (auto; apply (sep_next _ _ _ _ _ Hl); ne); cbn [bind].
    rewrite (comma_list_complete _ _ l tl RPare (sy Semi :: rest) ltac:(discriminate) ltac:(ne) arg_complete arg_len Hl)
      by (rewrite app_length; lia); cbn [bind]; eats; reflexivity.
  Qed.

  Lemma tags_sound : Sound (tag_list N) (tags_text N).
  Proof.
    intros ts a rest H; unfold tag_list in H.
    apply bind_ok in H as (ts1 & H1 & H); apply eat_sym_inv in H1 as [-> _].
    apply bind_ok in H as ((a0 & ts2) & H2 & H); apply tag_sound in H2 as (pre1 & -> & Ha).
    apply bind_ok in H as ((l & ts3) & H3 & H); apply (comma_list_sound _ _ _ tag_sound) in H3 as (pre2 & -> & Hl).
    apply bind_ok in H as (ts4 & H4 & H); apply eat_sym_inv in H4 as [-> _]; injection H as <- <-.
    exists (sy LBracket :: pre1 ++ pre2 ++ [sy RBracket]); split; [|constructor; assumption].
    cbn [app]; rewrite <- !app_assoc; reflexivity.
  Qed.
  Lemma tags_complete : Complete (tag_list N) (tags_text N) (fun rest => rest <> []).
  Proof.
    intros tags tt rest H Hn; destruct H as [a l ta tl Ha Hl]; unfold tag_list.
    cbn [app]; rewrite <- !app_assoc; cbn [app]; eats.
    rewrite (tag_complete a ta) by (auto; apply (sep_next _ _ _ _ _ Hl); ne); cbn [bind].
    rewrite (comma_list_complete _ _ l tl RBracket rest ltac:(discriminate) ltac:(ne) tag_complete tag_len Hl)
      by (rewrite app_length; lia); cbn [bind]; eats; reflexivity.
  Qed.

  (** ** The model block *)
  Lemma equation_sound (ts rest : toks) lr :
    model_expression N trunc nzero ts = Ok (lr, rest) ->
    exists pre, ts = pre ++ rest /\ equation_text N trunc nzero (fst lr) (snd lr) pre.
  Proof.
    unfold model_expression; intros H.
    apply bind_ok in H as ((l & ts1) & H1 & H); apply expr_sound in H1 as (pre1 & -> & Hl & _).
    destruct (is_sym N Equals ts1).
    - apply bind_ok in H as (ts2 & H2 & H); apply eat_sym_inv in H2 as [-> _].
      apply bind_ok in H as ((r & ts3) & H3 & H); apply expr_sound in H3 as (pre2 & -> & Hr & _).
      injection H as <- <-; exists (pre1 ++ sy Equals :: pre2); split; [rewrite <- app_assoc; reflexivity|].
      constructor; assumption.
    - injection H as <- <-; exists pre1; split; [reflexivity|constructor; assumption].
  Qed.
  Lemma equation_complete l r ts rest :
    equation_text N trunc nzero l r ts ->
    model_expression N trunc nzero (ts ++ sy Semi :: rest) = Ok ((l, r), sy Semi :: rest).
  Proof.
    intros H; unfold model_expression, mexpr; destruct H as [l r tl tr Hl Hr|l tl Hl].
    - rewrite <- app_assoc; cbn [app]; (erewrite expr_complete; [|eassumption|exact I]); cbn [bind].
      rewrite is_sym_refl; eats; (erewrite expr_complete; [|eassumption|exact I]); reflexivity.
    - (erewrite expr_complete; [|eassumption|exact I]); reflexivity.
  Qed.
  Lemma equation_starts l r ts : equation_text N trunc nzero l r ts -> exists k ts', ts = k :: ts' /\ starts k.
  Proof.
    intros [l0 r0 tl tr Hl Hr|l0 tl Hl]; destruct (expr_starts _ _ _ Hl) as (k & ts' & -> & Hk); cbn [app]; eauto.
  Qed.

  Lemma stmt_sound : Sound (model_statement N trunc nzero) (stmt_text N trunc nzero).
  Proof.
    intros ts s rest H; unfold model_statement in H.
    apply bind_ok in H as ((s0 & ts1) & H0 & H).
    apply bind_ok in H as (ts2 & H2 & H); apply eat_sym_inv in H2 as [-> _]; injection H as -> ->.
    destruct (is_sym N Pound ts) eqn:Ep; [|destruct (is_sym N LBracket ts)].
    - unfold local_declaration in H0.
      apply bind_ok in H0 as (ts3 & H3 & H); apply eat_sym_inv in H3 as [-> _].
      apply bind_ok in H as ((x & ts4) & H4 & H); apply eat_id_inv in H4 as [-> _].
      apply bind_ok in H as (ts5 & H5 & H); apply eat_sym_inv in H5 as [-> _].
      apply bind_ok in H as ((e & ts6) & H6 & H); apply expr_sound in H6 as (pre & -> & He & _).
      injection H as <- ->; exists (sy Pound :: TId x :: sy Equals :: pre ++ [sy Semi]).
      split; [cbn [app]; rewrite <- app_assoc; reflexivity|constructor; exact He].
    - apply bind_ok in H0 as ((tag & ts3) & H3 & H); apply tags_sound in H3 as (pre1 & -> & Ht).
      apply bind_ok in H as ((lr & ts4) & H4 & H); apply equation_sound in H4 as (pre2 & -> & He).
      injection H as <- ->; exists (pre1 ++ pre2 ++ [sy Semi]); split; [|constructor; assumption].
      rewrite <- !app_assoc; reflexivity.
    - apply bind_ok in H0 as ((lr & ts4) & H4 & H); apply equation_sound in H4 as (pre2 & -> & He).
      injection H as <- ->; exists (pre2 ++ [sy Semi]); split; [|constructor; assumption].
      rewrite <- !app_assoc; reflexivity.
  Qed.
  Lemma stmt_complete : Complete (model_statement N trunc nzero) (stmt_text N trunc nzero) (fun rest => rest <> []).
  Proof.
    intros s pre rest H Hn; unfold model_statement; destruct H as [x e ts He|l r ts He|tag tt l r ts Ht He].
    - cbn [app]; rewrite is_sym_refl; unfold local_declaration, mexpr; rewrite <- app_assoc; eats.
      (erewrite expr_complete; [|eassumption|exact I]); cbn [bind app]; eats; reflexivity.
    - destruct (equation_starts _ _ _ He) as (k & ts' & Et & Hk).
      pose proof (equation_complete _ _ _ rest He) as E.
      rewrite <- app_assoc; cbn [app]; rewrite E.
      replace (is_sym N Pound (ts ++ sy Semi :: rest)) with false
        by (subst ts; destruct k as [| | | | | |y]; try contradiction; auto; destruct y; auto; contradiction).
      replace (is_sym N LBracket (ts ++ sy Semi :: rest)) with false
        by (subst ts; destruct k as [| | | | | |y]; try contradiction; auto; destruct y; auto; contradiction).
      cbn [bind]; eats; reflexivity.
    - pose proof (equation_complete _ _ _ rest He) as E.
      pose proof (tags_complete tag tt (ts ++ sy Semi :: rest) Ht ltac:(ne)) as Et.
      rewrite <- !app_assoc; cbn [app].
      replace (is_sym N Pound (tt ++ ts ++ sy Semi :: rest)) with false by (destruct Ht; reflexivity).
      replace (is_sym N LBracket (tt ++ ts ++ sy Semi :: rest)) with true by (destruct Ht; reflexivity).
      rewrite Et; cbn [bind]; rewrite E; cbn [bind fst snd]; eats; reflexivity.
  Qed.
  Lemma stmt_starts s pre : stmt_text N trunc nzero s pre ->
    exists k ts', pre = k :: ts' /\ match k with TKw _ => False | _ => True end.
  Proof.
    intros [x e ts He|l r ts He|tag tt l r ts Ht He].
    - eexists _, _; split; [reflexivity|exact I].
    - destruct (equation_starts _ _ _ He) as (k & ts' & -> & Hk).
      eexists _, _; split; [reflexivity|destruct k; tauto].
    - destruct Ht; eexists _, _; split; [reflexivity|exact I].
  Qed.

  Lemma definition_sound (ts rest : toks) d :
    model_definition N trunc nzero ts = Ok (d, rest) ->
    exists ta tb, ts = TKw "model" :: ta ++ sy Semi :: tb ++ TKw "end" :: sy Semi :: rest /\
      args_text N trunc (fst d) ta /\ list_text N (stmt_text N trunc nzero) (snd d) tb /\ rest <> [].
  Proof.
    unfold model_definition; intros H.
    apply bind_ok in H as (ts1 & H1 & H); apply eat_kw_inv in H1 as [-> _].
    apply bind_ok in H as ((args & ts2) & H2 & H); apply args_sound in H2 as (ta & -> & Ha).
    apply bind_ok in H as (ts3 & H3 & H); apply eat_sym_inv in H3 as [-> _].
    apply bind_ok in H as ((b & ts4) & H4 & H); apply (until_end_sound _ _ _ stmt_sound) in H4 as (tb & -> & Hb).
    apply bind_ok in H as (ts5 & H5 & H); apply eat_kw_inv in H5 as [-> _].
    apply bind_ok in H as (ts6 & H6 & H); apply eat_sym_inv in H6 as [-> Hn]; injection H as <- <-.
    exists ta, tb; auto.
  Qed.
  Lemma definition_complete args ta stmts tb rest :
    args_text N trunc args ta -> list_text N (stmt_text N trunc nzero) stmts tb -> rest <> [] ->
    model_definition N trunc nzero (TKw "model" :: ta ++ sy Semi :: tb ++ TKw "end" :: sy Semi :: rest)
    = Ok ((args, stmts), rest).
  Proof.
    intros Ha Hb Hn; unfold model_definition; eats.
    rewrite (args_complete args ta) by (auto; ne); cbn [bind]; eats.
    unfold model; rewrite (until_end_complete _ _ stmts tb (sy Semi :: rest) stmt_complete stmt_starts Hb)
      by (rewrite app_length; lia); cbn [bind]; eats; reflexivity.
  Qed.

  (** ** Boundary blocks *)
  Lemma boundary_sound k (ts rest : toks) b :
    boundary_values N trunc k ts = Ok (b, rest) ->
    exists pre, ts = pre ++ rest /\ boundary_text N trunc k b pre /\ rest <> [].
  Proof.
    unfold boundary_values; intros H.
    apply bind_ok in H as (ts1 & H1 & H); apply eat_kw_inv in H1 as [-> _].
    apply bind_ok in H as ((args & ts2) & H2 & H); apply args_sound in H2 as (ta & -> & Ha).
    apply bind_ok in H as (ts3 & H3 & H); apply eat_sym_inv in H3 as [-> _].
    apply bind_ok in H as ((l & ts4) & H4 & H); apply (until_end_sound _ _ _ assign_sound) in H4 as (tb & -> & Hb).
    apply bind_ok in H as (ts5 & H5 & H); apply eat_kw_inv in H5 as [-> _].
    apply bind_ok in H as (ts6 & H6 & H); apply eat_sym_inv in H6 as [-> Hn]; injection H as <- <-.
    exists (TKw k :: ta ++ sy Semi :: tb ++ [TKw "end"; sy Semi])%string.
    split; [cbn [app]; rewrite <- app_assoc; cbn [app]; rewrite <- app_assoc; reflexivity|].
    split; [exists ta, tb; auto | exact Hn].
  Qed.
  Lemma boundary_complete k b pre rest :
    boundary_text N trunc k b pre -> rest <> [] ->
    boundary_values N trunc k (pre ++ rest) = Ok (b, rest).
  Proof.
    intros (ta & tl & Ha & Hl & ->) Hn; destruct b as [args l]; cbn [fst snd] in *.
    unfold boundary_values; cbn [app]; rewrite <- app_assoc; cbn [app]; rewrite <- app_assoc; cbn [app]; eats.
    rewrite (args_complete args ta) by (auto; ne); cbn [bind]; eats.
    rewrite (until_end_complete _ _ l tl (sy Semi :: rest) assign_complete) ; cbn [bind]; eats; auto.
    - intros a p Hp; destruct (assign_starts _ _ Hp) as (x & ts' & ->); eexists _, _; split; [reflexivity|exact I].
    - rewrite app_length; lia.
  Qed.

  (** ** Shocks *)
  Lemma opt_comma_sound (ts ts' : toks) :
    (if is_sym N Comma ts then eat_sym N Comma ts else Ok ts) = Ok ts' ->
    exists c, opt_comma N c /\ ts = c ++ ts'.
  Proof.
    destruct (is_sym N Comma ts); intros H.
    - apply eat_sym_inv in H as [-> _]; exists [sy Comma]; split; [constructor|reflexivity].
    - injection H as <-; exists []; split; [constructor|reflexivity].
  Qed.

  Lemma periods_sound f : Sound (shock_periods_list N f) (fun l => list_text N (period_text N) l).
  Proof.
    induction f as [|f IH]; intros ts l rest H; [discriminate|]; cbn [shock_periods_list] in H.
    destruct (is_sym N Comma ts || is_num N ts).
    - apply bind_ok in H as (ts1 & H1 & H); apply opt_comma_sound in H1 as (c & Hc & ->).
      apply bind_ok in H as ((a & ts2) & H2 & H); apply eat_num_inv in H2 as [-> _].
      apply bind_ok in H as ((b & ts3) & H3 & H).
      apply bind_ok in H as ((l' & ts4) & H4 & H); injection H as <- <-.
      apply IH in H4 as (pre & -> & Hl).
      destruct (is_sym N Colon ts2).
      + apply bind_ok in H3 as (ts5 & H5 & H3); apply eat_sym_inv in H5 as [-> _].
        apply eat_num_inv in H3 as [-> _].
        exists ((c ++ [TNum a; sy Colon; TNum b]) ++ pre); split; [rewrite <- !app_assoc; reflexivity|].
        constructor; [constructor; exact Hc|exact Hl].
      + injection H3 as -> ->.
        exists ((c ++ [TNum b]) ++ pre); split; [rewrite <- !app_assoc; reflexivity|].
        constructor; [constructor; exact Hc|exact Hl].
    - injection H as <- <-; exists []; split; [reflexivity|constructor].
  Qed.
  Lemma period_tokens_nocolon l tl (rest : toks) :
    list_text N (period_text N) l tl -> is_sym N Colon (tl ++ sy Semi :: rest) = false.
  Proof.
    intros H; destruct H as [|a l ta tl Ha Hl]; [reflexivity|].
    destruct Ha as [n c Hc|n n' c Hc]; destruct Hc; reflexivity.
  Qed.
  Lemma periods_complete l tl (rest : toks) f :
    list_text N (period_text N) l tl -> List.length tl < f ->
    shock_periods_list N f (tl ++ sy Semi :: rest) = Ok (l, sy Semi :: rest).
  Proof.
    intros H; revert f; induction H as [|a l ta tl Ha Hl IH]; intros f Hf;
      (destruct f as [|f]; [lia|]); [reflexivity|].
    rewrite <- app_assoc; rewrite app_length in Hf.
    pose proof (period_tokens_nocolon _ _ rest Hl) as Hnc.
    destruct Ha as [n c Hc|n n' c Hc]; destruct Hc; cbn [app] in *; cbn [List.length] in Hf;
      cbn [shock_periods_list].
    - change (is_sym N Comma (TNum n :: tl ++ sy Semi :: rest)) with false; cbn [orb is_num bind]; eats.
      rewrite Hnc; cbn [bind]; rewrite IH by lia; reflexivity.
    - rewrite is_sym_refl; cbn [orb]; eats; rewrite Hnc; cbn [bind]; rewrite IH by lia; reflexivity.
    - change (is_sym N Comma (TNum n :: sy Colon :: TNum n' :: tl ++ sy Semi :: rest)) with false; cbn [orb is_num bind]; eats.
      rewrite is_sym_refl; eats; rewrite IH by lia; reflexivity.
    - rewrite is_sym_refl; cbn [orb]; eats; rewrite is_sym_refl; eats; rewrite IH by lia; reflexivity.
  Qed.

  Lemma values_sound f : Sound (shock_values_list N trunc f) (fun l => list_text N (value_text N trunc) l).
  Proof.
    induction f as [|f IH]; intros ts l rest H; [discriminate|]; cbn [shock_values_list] in H.
    destruct (is_sym N Comma ts || is_num N ts || is_sym N LPare ts).
    - apply bind_ok in H as (ts1 & H1 & H); apply opt_comma_sound in H1 as (c & Hc & ->).
      apply bind_ok in H as ((v & ts2) & H2 & H).
      apply bind_ok in H as ((l' & ts4) & H4 & H); injection H as <- <-.
      apply IH in H4 as (pre & -> & Hl).
      destruct (is_num N ts1).
      + apply bind_ok in H2 as ((n & ts5) & H5 & H2); apply eat_num_inv in H5 as [-> _]; injection H2 as <- ->.
        exists ((c ++ [TNum n]) ++ pre); split; [rewrite <- !app_assoc; reflexivity|].
        constructor; [constructor; exact Hc|exact Hl].
      + apply bind_ok in H2 as (ts5 & H5 & H2); apply eat_sym_inv in H5 as [-> _].
        apply bind_ok in H2 as ((e & ts6) & H6 & H2); apply expr_sound in H6 as (pre2 & -> & He & _).
        apply bind_ok in H2 as (ts7 & H7 & H2); apply eat_sym_inv in H7 as [-> _]; injection H2 as <- ->.
        exists ((c ++ sy LPare :: pre2 ++ [sy RPare]) ++ pre).
        split; [rewrite <- !app_assoc; cbn [app]; rewrite <- !app_assoc; reflexivity|].
        constructor; [constructor; assumption|exact Hl].
    - injection H as <- <-; exists []; split; [reflexivity|constructor].
  Qed.
  Lemma values_complete l tl (rest : toks) f :
    list_text N (value_text N trunc) l tl -> List.length tl < f ->
    shock_values_list N trunc f (tl ++ sy Semi :: rest) = Ok (l, sy Semi :: rest).
  Proof.
    intros H; revert f; induction H as [|a l ta tl Ha Hl IH]; intros f Hf;
      (destruct f as [|f]; [lia|]); [reflexivity|].
    rewrite <- app_assoc; rewrite app_length in Hf.
    destruct Ha as [n c Hc|e ts c Hc He]; destruct Hc; cbn [app] in *; cbn [List.length] in Hf;
      cbn [shock_values_list].
    - change (is_sym N Comma (TNum n :: tl ++ sy Semi :: rest)) with false; cbn [orb is_num bind]; eats.
      rewrite IH by lia; reflexivity.
    - rewrite is_sym_refl; cbn [orb]; eats; cbn [is_num]; eats; rewrite IH by lia; reflexivity.
    - change (is_sym N Comma (sy LPare :: (ts ++ [sy RPare]) ++ tl ++ sy Semi :: rest)) with false.
      rewrite is_sym_refl; cbn [orb is_num bind]; rewrite <- app_assoc; eats.
      unfold expr; (erewrite expr_complete; [|eassumption|exact I]); cbn [bind app]; eats.
      rewrite IH by (rewrite app_length in Hf; lia); reflexivity.
    - rewrite is_sym_refl; cbn [orb]; eats; cbn [is_num]; rewrite <- app_assoc; eats.
      unfold expr; (erewrite expr_complete; [|eassumption|exact I]); cbn [bind app]; eats.
      rewrite IH by (rewrite app_length in Hf; lia); reflexivity.
  Qed.

  Lemma pair_sound k mk (ts rest : toks) s :
    pair_shock N trunc k mk ts = Ok (s, rest) ->
    exists x y e pre, s = mk x y e /\ expr_text false e pre /\
      ts = TKw k :: TId x :: sy Comma :: TId y :: sy Equals :: pre ++ rest.
  Proof.
    unfold pair_shock, variable; intros H.
    apply bind_ok in H as (ts1 & H1 & H); apply eat_kw_inv in H1 as [-> _].
    apply bind_ok in H as ((x & ts2) & H2 & H); apply eat_id_inv in H2 as [-> _].
    apply bind_ok in H as (ts3 & H3 & H); apply eat_sym_inv in H3 as [-> _].
    apply bind_ok in H as ((y & ts4) & H4 & H); apply eat_id_inv in H4 as [-> _].
    apply bind_ok in H as (ts5 & H5 & H); apply eat_sym_inv in H5 as [-> _].
    apply bind_ok in H as ((e & ts6) & H6 & H); apply expr_sound in H6 as (pre & -> & He & _).
    injection H as <- <-; eauto 10.
  Qed.
  Lemma pair_complete k mk x y e pre rest :
    expr_text false e pre -> closes rest ->
    pair_shock N trunc k mk (TKw k :: TId x :: sy Comma :: TId y :: sy Equals :: pre ++ rest)
    = Ok (mk x y e, rest).
  Proof.
    intros He Hc; pose proof (closes_ne _ Hc); unfold pair_shock, variable, expr; eats.
    (erewrite expr_complete; [|eassumption|eassumption]); reflexivity.
  Qed.

  Lemma shock_sound : Sound (shock_stmt N trunc) (shock_text N trunc).
  Proof.
    intros ts s rest H; unfold shock_stmt in H.
    destruct (is_kw N "corr" ts).
    { apply pair_sound in H as (x & y & e & pre & -> & He & ->).
      eexists (TKw "corr" :: _ :: _ :: _ :: _ :: pre)%string; split; [reflexivity|constructor; exact He]. }
    apply bind_ok in H as (t2 & _ & H).
    assert (Hdet : deterministic_shock N trunc ts = Ok (s, rest) ->
      exists pre, ts = pre ++ rest /\ shock_text N trunc s pre).
    { clear H; unfold deterministic_shock, variable; intros H.
      apply bind_ok in H as (ts1 & H1 & H); apply eat_kw_inv in H1 as [-> _].
      apply bind_ok in H as ((x & ts2) & H2 & H); apply eat_id_inv in H2 as [-> _].
      apply bind_ok in H as (ts3 & H3 & H); apply eat_sym_inv in H3 as [-> _].
      apply bind_ok in H as (ts4 & H4 & H); apply eat_kw_inv in H4 as [-> _].
      apply bind_ok in H as ((ps & ts5) & H5 & H); apply periods_sound in H5 as (tp & -> & Hp).
      apply bind_ok in H as (ts6 & H6 & H); apply eat_sym_inv in H6 as [-> _].
      apply bind_ok in H as (ts7 & H7 & H); apply eat_kw_inv in H7 as [-> _].
      apply bind_ok in H as ((vs & ts8) & H8 & H); apply values_sound in H8 as (tv & -> & Hv).
      injection H as <- <-.
      exists (TKw "var" :: TId x :: sy Semi :: TKw "periods" :: tp ++ sy Semi :: TKw "values" :: tv)%string.
      split; [cbn [app]; rewrite <- app_assoc; reflexivity|constructor; assumption]. }
    destruct (tok_is_sym N Comma t2).
    { apply pair_sound in H as (x & y & e & pre & -> & He & ->).
      eexists (TKw "var" :: _ :: _ :: _ :: _ :: pre)%string; split; [reflexivity|constructor; exact He]. }
    destruct (tok_is_sym N Equals t2).
    { unfold variance_shock, variable in H.
      apply bind_ok in H as (ts1 & H1 & H); apply eat_kw_inv in H1 as [-> _].
      apply bind_ok in H as ((x & ts2) & H2 & H); apply eat_id_inv in H2 as [-> _].
      apply bind_ok in H as (ts3 & H3 & H); apply eat_sym_inv in H3 as [-> _].
      apply bind_ok in H as ((e & ts6) & H6 & H); apply expr_sound in H6 as (pre & -> & He & _).
      injection H as <- <-; eexists (TKw "var" :: _ :: _ :: pre)%string; split; [reflexivity|constructor; exact He]. }
    destruct (tok_is_sym N Semi t2); [|exact (Hdet H)].
    apply bind_ok in H as (t3 & _ & H).
    destruct (tok_is_kw N "stderr" t3); [|exact (Hdet H)].
    unfold stderr_shock, variable in H.
    apply bind_ok in H as (ts1 & H1 & H); apply eat_kw_inv in H1 as [-> _].
    apply bind_ok in H as ((x & ts2) & H2 & H); apply eat_id_inv in H2 as [-> _].
    apply bind_ok in H as (ts3 & H3 & H); apply eat_sym_inv in H3 as [-> _].
    apply bind_ok in H as (ts4 & H4 & H); apply eat_kw_inv in H4 as [-> _].
    apply bind_ok in H as ((e & ts6) & H6 & H); apply expr_sound in H6 as (pre & -> & He & _).
    injection H as <- <-; eexists (TKw "var" :: _ :: _ :: _ :: pre)%string; split; [reflexivity|constructor; exact He].
  Qed.

  Lemma shock_complete s pre rest :
    shock_text N trunc s pre -> rest <> [] ->
    shock_stmt N trunc (pre ++ sy Semi :: rest) = Ok (s, sy Semi :: rest).
  Proof.
    intros H Hn; unfold shock_stmt; destruct H as [x y e ts He|x y e ts He|x e ts He|x e ts He|x ps vs tp tv Hp Hv];
      cbn [app].
    - rewrite is_kw_refl; apply pair_complete; [exact He|exact I].
    - cbn [is_kw]; change (String.eqb "corr" "var") with false; cbn [peek nth_error bind]; cbv iota.
      change (tok_is_sym N Comma (sy Comma)) with true; cbv iota.
      apply pair_complete; [exact He|exact I].
    - cbn [is_kw]; change (String.eqb "corr" "var") with false; cbn [peek nth_error bind]; cbv iota.
      change (tok_is_sym N Comma (sy Equals)) with false.
      change (tok_is_sym N Equals (sy Equals)) with true; cbv iota.
      unfold variance_shock, variable, expr; eats; (erewrite expr_complete; [|eassumption|exact I]); reflexivity.
    - cbn [is_kw]; change (String.eqb "corr" "var") with false; cbn [peek nth_error bind]; cbv iota.
      change (tok_is_sym N Comma (sy Semi)) with false.
      change (tok_is_sym N Equals (sy Semi)) with false.
      change (tok_is_sym N Semi (sy Semi)) with true; cbv iota.
      change (tok_is_kw N "stderr" (TKw "stderr")) with true; cbv iota.
      unfold stderr_shock, variable, expr; eats; (erewrite expr_complete; [|eassumption|exact I]); reflexivity.
    - cbn [is_kw]; change (String.eqb "corr" "var") with false; cbn [peek nth_error bind]; cbv iota.
      change (tok_is_sym N Comma (sy Semi)) with false.
      change (tok_is_sym N Equals (sy Semi)) with false.
      change (tok_is_sym N Semi (sy Semi)) with true; cbv iota.
      change (tok_is_kw N "stderr" (TKw "periods")) with false; cbv iota.
      unfold deterministic_shock, variable; rewrite <- app_assoc; cbn [app]; eats.
      rewrite (periods_complete ps tp) by (auto; rewrite app_length; lia); cbn [bind]; eats.
      rewrite (values_complete vs tv) by (auto; rewrite app_length; lia); reflexivity.
  Qed.
  Lemma shock_starts s pre : shock_text N trunc s pre ->
    (exists ts', pre = TKw "corr"%string :: ts') \/ (exists ts', pre = TKw "var"%string :: ts').
  Proof. intros []; eauto. Qed.

  Lemma shock_list_sound f : Sound (shock_list N trunc f) (fun l => list_text N (shock_stmt_text N trunc) l).
  Proof.
    induction f as [|f IH]; intros ts l rest H; [discriminate|]; cbn [shock_list] in H.
    destruct (is_kw N "corr" ts || is_kw N "var" ts).
    - apply bind_ok in H as ((s & ts1) & H1 & H); apply shock_sound in H1 as (pre1 & -> & Hs).
      apply bind_ok in H as (ts2 & H2 & H); apply eat_sym_inv in H2 as [-> _].
      apply bind_ok in H as ((l' & ts3) & H3 & H); injection H as <- <-.
      apply IH in H3 as (pre2 & -> & Hl).
      exists ((pre1 ++ [sy Semi]) ++ pre2); split; [rewrite <- !app_assoc; reflexivity|].
      constructor; [constructor; exact Hs|exact Hl].
    - injection H as <- <-; exists []; split; [reflexivity|constructor].
  Qed.
  Lemma shock_list_complete l tl (rest : toks) f :
    list_text N (shock_stmt_text N trunc) l tl -> List.length tl < f ->
    shock_list N trunc f (tl ++ TKw "end" :: rest) = Ok (l, TKw "end" :: rest).
  Proof.
    intros H; revert f; induction H as [|a l ta tl Ha Hl IH]; intros f Hf;
      (destruct f as [|f]; [lia|]); [reflexivity|].
    destruct Ha as [s ts Hs]; rewrite !app_length in Hf; cbn [List.length] in Hf.
    rewrite <- !app_assoc; cbn [app shock_list].
    replace (is_kw N "corr" (ts ++ sy Semi :: tl ++ TKw "end" :: rest) ||
             is_kw N "var" (ts ++ sy Semi :: tl ++ TKw "end" :: rest)) with true
      by (destruct (shock_starts _ _ Hs) as [(ts' & ->)|(ts' & ->)]; reflexivity).
    rewrite (shock_complete _ _ _ Hs) by ne; cbn [bind]; eats.
    rewrite IH by lia; reflexivity.
  Qed.

  Lemma shocks_sound (ts rest : toks) s :
    shocks_block N trunc ts = Ok (s, rest) ->
    exists pre, ts = pre ++ rest /\ block_text N trunc (KShocks (fst s) (snd s)) pre /\ rest <> [].
  Proof.
    unfold shocks_block; intros H.
    apply bind_ok in H as (ts1 & H1 & H); apply eat_kw_inv in H1 as [-> _].
    apply bind_ok in H as ((args & ts2) & H2 & H); apply args_sound in H2 as (ta & -> & Ha).
    apply bind_ok in H as (ts3 & H3 & H); apply eat_sym_inv in H3 as [-> _].
    apply bind_ok in H as ((l & ts4) & H4 & H); apply shock_list_sound in H4 as (tb & -> & Hb).
    apply bind_ok in H as (ts5 & H5 & H); apply eat_kw_inv in H5 as [-> _].
    apply bind_ok in H as (ts6 & H6 & H); apply eat_sym_inv in H6 as [-> Hn]; injection H as <- <-.
    exists (TKw "shocks" :: ta ++ sy Semi :: tb ++ [TKw "end"; sy Semi])%string.
    split; [cbn [app]; rewrite <- app_assoc; cbn [app]; rewrite <- app_assoc; reflexivity|].
    split; [constructor; assumption | exact Hn].
  Qed.
  Lemma shocks_complete args l pre rest :
    block_text N trunc (KShocks args l) pre -> rest <> [] ->
    shocks_block N trunc (pre ++ rest) = Ok ((args, l), rest).
  Proof.
    intros H Hn; inversion H as [| | |args' l' ta tl Ha Hl]; subst.
    unfold shocks_block; cbn [app]; rewrite <- app_assoc; cbn [app]; rewrite <- app_assoc; cbn [app]; eats.
    rewrite (args_complete args ta) by (auto; ne); cbn [bind]; eats.
    rewrite (shock_list_complete l tl) by (auto; rewrite app_length; lia); cbn [bind]; eats; reflexivity.
  Qed.

  (** ** Blocks behind the model *)
  Definition apply_block (a : actions N) (b : block N) : actions N :=
    match b with
    | KInit b => Actions (Some b) (a_endval a) (a_histval a) (a_shocks a)
    | KEnd b => Actions (a_initval a) (Some b) (a_histval a) (a_shocks a)
    | KHist b => Actions (a_initval a) (a_endval a) (Some b) (a_shocks a)
    | KShocks x l => Actions (a_initval a) (a_endval a) (a_histval a) (Some (x, l))
    end.

  Lemma fold_blocks bs a :
    fold_left apply_block bs a = Actions
      (match a_initval (actions_of N bs) with Some b => Some b | None => a_initval a end)
      (match a_endval (actions_of N bs) with Some b => Some b | None => a_endval a end)
      (match a_histval (actions_of N bs) with Some b => Some b | None => a_histval a end)
      (match a_shocks (actions_of N bs) with Some b => Some b | None => a_shocks a end).
  Proof.
    revert a; induction bs as [|b bs IH]; intros a; cbn [fold_left].
    - destruct a; reflexivity.
    - rewrite IH; clear IH; unfold actions_of; cbn [last_of a_initval a_endval a_histval a_shocks].
      destruct b; cbn [apply_block a_initval a_endval a_histval a_shocks];
        repeat match goal with |- context [last_of N ?s bs] => destruct (last_of N s bs) end; reflexivity.
  Qed.
  Lemma fold_blocks_none bs : fold_left apply_block bs (no_actions N) = actions_of N bs.
  Proof.
    rewrite fold_blocks; unfold no_actions, actions_of; cbn [a_initval a_endval a_histval a_shocks].
    repeat match goal with |- context [last_of N ?s bs] => destruct (last_of N s bs) end; reflexivity.
  Qed.

  Lemma model_actions_err ts r : model_actions N trunc ts = Ok r -> False.
  Proof.
    unfold model_actions; destruct ts as [|[] ts]; try discriminate.
    destruct (variable_assignment N trunc _) as [[? ?]|]; discriminate.
  Qed.

  Lemma actions_sound f a ts a' rest :
    general_model_actions N trunc f a ts = Ok (a', rest) ->
    exists bs pre rest', ts = pre ++ rest /\ rest = TEof :: rest' /\
      list_text N (block_text N trunc) bs pre /\ a' = fold_left apply_block bs a.
  Proof.
    revert a ts; induction f as [|f IH]; intros a ts H; [discriminate|]; cbn [general_model_actions] in H.
    assert (Hno : forall r, (do _ <- model_actions N trunc ts; r) = Ok (a', rest) -> False).
    { intros r E; apply bind_ok in E as (u & E & _); exact (model_actions_err _ _ E). }
    destruct ts as [|[| | | | |k|] ts]; try (exfalso; exact (Hno _ H)).
    - injection H as <- <-; exists [], [], ts; repeat split; constructor.
    - destruct (mem k boundary_kws) eqn:Ek; [|destruct (String.eqb_spec k "shocks") as [->|Nk]].
      + apply bind_ok in H as ((b & ts1) & H1 & H); apply boundary_sound in H1 as (pre & E & Hb & _).
        apply IH in H as (bs & pre2 & rest' & -> & -> & Hbs & ->).
        rewrite E, app_assoc.
        apply mem_In in Ek; cbn [boundary_kws In] in Ek.
        destruct Ek as [<-|[<-|[<-|[]]]];
          [exists (KInit b :: bs)|exists (KEnd b :: bs)|exists (KHist b :: bs)]; exists (pre ++ pre2), rest';
          (split; [reflexivity|]; split; [reflexivity|]; split; [constructor; [constructor; exact Hb|exact Hbs]|reflexivity]).
      + apply bind_ok in H as ((s & ts1) & H1 & H); apply shocks_sound in H1 as (pre & E & Hb & _).
        apply IH in H as (bs & pre2 & rest' & -> & -> & Hbs & ->).
        rewrite E, app_assoc; exists (KShocks (fst s) (snd s) :: bs), (pre ++ pre2), rest'.
        split; [reflexivity|]; split; [reflexivity|]; split; [constructor; assumption|].
        cbn [fold_left apply_block]; rewrite <- surjective_pairing; reflexivity.
      + exfalso; exact (Hno _ H).
  Qed.

  Lemma block_len b ts : block_text N trunc b ts -> exists k ts', ts = TKw k :: ts'.
  Proof. intros [b' ? (ta & tl & _ & _ & ->)|b' ? (ta & tl & _ & _ & ->)|b' ? (ta & tl & _ & _ & ->)|]; eauto. Qed.

  Lemma actions_complete bs tb rest a f :
    list_text N (block_text N trunc) bs tb -> List.length tb < f ->
    general_model_actions N trunc f a (tb ++ TEof :: rest) = Ok (fold_left apply_block bs a, TEof :: rest).
  Proof.
    intros H; revert a f; induction H as [|b l ta tl Hb Hl IH]; intros a f Hf;
      (destruct f as [|f]; [lia|]); [reflexivity|].
    destruct (block_len _ _ Hb) as (k0 & ts0 & Et0).
    assert (Hlen : 1 <= List.length ta) by (subst; cbn; lia).
    rewrite app_length in Hf; rewrite <- app_assoc; clear k0 ts0 Et0.
    assert (Hbound : forall k b0, boundary_text N trunc k b0 ta -> mem k boundary_kws = true ->
      apply_block a b = set_boundary N k b0 a ->
      general_model_actions N trunc (S f) a (ta ++ tl ++ TEof :: rest) =
      Ok (fold_left apply_block (b :: l) a, TEof :: rest)).
    { intros k b0 Hk Ek Ea.
      pose proof (boundary_complete k b0 ta (tl ++ TEof :: rest) Hk ltac:(ne)) as E.
      destruct Hk as (tg & tas & _ & _ & Et).
      cbn [general_model_actions]; rewrite Et in *; cbn [app] in *; rewrite Ek, E; cbn [bind fold_left].
      rewrite <- Ea; apply IH; lia. }
    destruct Hb as [b0 ts Hb0|b0 ts Hb0|b0 ts Hb0|args sl tg tsl Ha Hs].
    - apply (Hbound _ _ Hb0); reflexivity.
    - apply (Hbound _ _ Hb0); reflexivity.
    - apply (Hbound _ _ Hb0); reflexivity.
    - clear Hbound.
      pose proof (shocks_complete args sl _ (tl ++ TEof :: rest) (Bk_shocks N trunc _ _ _ _ Ha Hs) ltac:(ne)) as E.
      cbn [general_model_actions]; rewrite E; cbn [app]; rewrite Hf || idtac.
      change (mem "shocks" boundary_kws) with false; change (String.eqb "shocks" "shocks") with true; cbv iota.
      cbn [bind fold_left].
      change (set_shocks N (args, sl) a) with (apply_block a (KShocks args sl)); apply IH; lia.
  Qed.

  (** ** Whole files *)
  Theorem parse_model_iff ts mf :
    parse_model N trunc nzero ts = Ok mf <-> file_text N trunc nzero mf ts.
  Proof.
    split.
    - unfold parse_model; destruct ts as [|t ts]; [discriminate|].
      generalize (t :: ts); clear t ts; intros ts H; unfold model_file in H.
      apply bind_ok in H as (((ds & ps) & ts1) & H1 & H); apply preamble_sound in H1 as (tp & r1 & -> & -> & Hp).
      apply bind_ok in H as ((d & ts2) & H2 & H); apply definition_sound in H2 as (ta & tb & E & Ha & Hb & _).
      apply bind_ok in H as ((a & ts3) & H3 & H); injection H as <-.
      apply actions_sound in H3 as (bs & tbs & r3 & -> & -> & Hbs & ->).
      rewrite E, fold_blocks_none; constructor; assumption.
    - intros H; destruct H as [ds ps args stmts bs tp ta ts tb tail Hp Ha Hs Hb].
      unfold parse_model; set (all := _ ++ _).
      assert (Hne : all <> []) by (subst all; ne).
      assert (E : model_file N trunc nzero all = Ok (ModFile ds ps args stmts (actions_of N bs))).
      { unfold model_file; subst all.
        destruct (preamble_run _ _ _ Hp (TKw "model" :: ta ++ sy Semi :: ts ++ TKw "end" :: sy Semi :: tb ++ TEof :: tail)
          (S (List.length (tp ++ TKw "model" :: ta ++ sy Semi :: ts ++ TKw "end" :: sy Semi :: tb ++ TEof :: tail)))
          ltac:(ne) ltac:(rewrite app_length; lia)) as (f' & Lf & ->).
        rewrite app_length in Lf.
        destruct f' as [|f']; [cbn [List.length] in Lf; lia|].
        cbn [variable_preamble]; change (String.eqb "model" "model") with true; cbv iota; cbn [bind].
        rewrite !app_nil_r.
        rewrite (definition_complete args ta stmts ts) by (auto; ne); cbn [bind fst snd].
        rewrite (actions_complete bs tb tail) by (auto; rewrite app_length; lia); cbn [bind].
        rewrite fold_blocks_none; reflexivity. }
      destruct all as [|t0 all0]; [congruence|exact E].
  Qed.
End Proofs.
