From Verif Require Import Base Syntax Lexer LexerSpec LexerProofs3 Parser ParserSpec ParserProofs ParserProofs2
  ModFileProofs3 Eval EvalSpec.

Section Proofs.
  Variable V : Type.
  Variable O : ops V.
  Notation eval_with := (eval_with V O).
  Notation value := (value V O).

  Lemma eval_agree vv vv' pv pv' e :
    (forall x, occurs V x e -> vv x = vv' x) ->
    (forall x k, occurs_t V x k e -> pv x k = pv' x k) ->
    eval_with vv pv e = eval_with vv' pv' e.
  Proof.
    induction e as [n|x|x k|u e IH|o l IHl r IHr|f e IH|o l IHl r IHr]; intros Hv Hp; cbn [Eval.eval_with].
    - reflexivity.
    - apply Hv; constructor.
    - apply Hp; constructor.
    - rewrite IH by (intros; (apply Hv || apply Hp); constructor; assumption); reflexivity.
    - rewrite IHl by (intros; (apply Hv || apply Hp); constructor; assumption).
      rewrite IHr; [reflexivity| |]; intros; (apply Hv || apply Hp); [apply O_binr|apply T_binr]; assumption.
    - rewrite IH by (intros; (apply Hv || apply Hp); constructor; assumption); reflexivity.
    - rewrite IHl by (intros; (apply Hv || apply Hp); constructor; assumption).
      rewrite IHr; [reflexivity| |]; intros; (apply Hv || apply Hp); [apply O_compr|apply T_compr]; assumption.
  Qed.

  Lemma evaluated_not_refused f : In f evaluated_funcs -> mem f refused_funcs = false.
  Proof.
    intros H; cbn [evaluated_funcs In] in H.
    repeat (destruct H as [<-|H]; [reflexivity|]); contradiction.
  Qed.

  Lemma language_function f g : In (f, g) language_functions <-> In f evaluated_funcs /\ g = func_name f.
  Proof.
    split.
    - intros H; cbn [language_functions In] in H.
      repeat (destruct H as [H|H]; [injection H as <- <-; split; [apply mem_In; reflexivity|reflexivity]|]); contradiction.
    - intros [H ->]; cbn [evaluated_funcs In] in H.
      repeat (destruct H as [<-|H]; [vm_compute; repeat first [left; reflexivity|right]|]); contradiction.
  Qed.

  (** Every function the lexer knows is evaluated or refused. *)
  Lemma reserved_split f : In f reserved_funcs -> In f evaluated_funcs \/ In f refused_funcs.
  Proof.
    intros H; cbn [reserved_funcs In] in H.
    repeat (destruct H as [<-|H]; [cbn; tauto|]); contradiction.
  Qed.

  Lemma eval_value vv pv e v :
    functions V (fun f => In f reserved_funcs) e ->
    (eval_with vv pv e = Ok v <->
     value (fun x v => vv x = Ok v) (fun x k v => pv x k = Ok v) e v).
  Proof.
    revert v; induction e as [n|x|x k|u e IH|o l IHl r IHr|f e IH|o l IHl r IHr]; intros v Hf;
      cbn [Eval.eval_with functions] in *.
    - split; intros H; [injection H as <-; constructor|inversion H; reflexivity].
    - split; intros H; [constructor; exact H|inversion H; assumption].
    - split; intros H; [constructor; exact H|inversion H; assumption].
    - split; intros H.
      + apply bind_ok in H as (w & Hw & H); apply IH in Hw; [|exact Hf]; econstructor; eassumption.
      + inversion H as [| | |? ? w ? Hw Ho| | |]; subst; apply IH in Hw; [|exact Hf]; rewrite Hw; exact Ho.
    - destruct Hf as [Hl Hr]; split; intros H.
      + apply bind_ok in H as (w & Hw & H); apply bind_ok in H as (w' & Hw' & H).
        apply IHl in Hw; [|exact Hl]; apply IHr in Hw'; [|exact Hr]; econstructor; eassumption.
      + inversion H as [| | | |? ? ? w w' ? Hw Hw' Ho| |]; subst.
        apply IHl in Hw; [|exact Hl]; apply IHr in Hw'; [|exact Hr]; rewrite Hw; cbn [bind]; rewrite Hw'; exact Ho.
    - destruct Hf as [Hff Hf]; split; intros H.
      + destruct (mem f refused_funcs) eqn:Er; [discriminate|].
        destruct (reserved_split f Hff) as [He|He]; [|apply mem_In in He; congruence].
        pose proof He as He'; apply mem_In in He'; rewrite He' in H.
        apply bind_ok in H as (w & Hw & H); apply IH in Hw; [|exact Hf].
        econstructor; [apply language_function; split; [exact He|reflexivity]|eassumption|eassumption].
      + inversion H as [| | | | | |? ? ? w ? He Hw Ho]; subst; apply IH in Hw; [|exact Hf].
        apply language_function in He as [He ->].
        rewrite evaluated_not_refused by exact He; apply mem_In in He; rewrite He, Hw; exact Ho.
    - destruct Hf as [Hl Hr]; split; intros H.
      + apply bind_ok in H as (w & Hw & H); apply bind_ok in H as (w' & Hw' & H).
        apply IHl in Hw; [|exact Hl]; apply IHr in Hw'; [|exact Hr]; econstructor; eassumption.
      + inversion H as [| | | | |? ? ? w w' ? Hw Hw' Ho|]; subst.
        apply IHl in Hw; [|exact Hl]; apply IHr in Hw'; [|exact Hr]; rewrite Hw; cbn [bind]; rewrite Hw'; exact Ho.
  Qed.

  (** Errors come from variables, operators or functions. *)
  Lemma eval_no_error E vv pv e :
    (forall o v w, o_bin O o v w <> Err E) -> (forall o v, o_un O o v <> Err E) ->
    (forall o v w, o_cmp O o v w <> Err E) -> (forall f v, o_fun O f v <> Err E) ->
    E <> NotImplErr \/ functions V (fun f => ~ In f refused_funcs) e ->
    (forall x, occurs V x e -> vv x <> Err E) -> (forall x k, occurs_t V x k e -> pv x k <> Err E) ->
    eval_with vv pv e <> Err E.
  Proof.
    intros Hb Hu Hc Hfn.
    assert (Hbind : forall (r : res V) (k : V -> res V), r <> Err E -> (forall a, k a <> Err E) -> bind r k <> Err E).
    { intros [a|e0] k Hr Hk; cbn [bind]; [apply Hk|congruence]. }
    induction e as [n|x|x k|u e IH|o l IHl r IHr|f e IH|o l IHl r IHr]; intros Hf Hv Hp; cbn [Eval.eval_with functions] in *.
    - discriminate.
    - apply Hv; constructor.
    - apply Hp; constructor.
    - apply Hbind; [apply IH; [exact Hf| |]; intros; (apply Hv || apply Hp); constructor; assumption|apply Hu].
    - apply Hbind; [apply IHl; [tauto| |]; intros; (apply Hv || apply Hp); constructor; assumption|intros a].
      apply Hbind; [apply IHr; [tauto| |]; intros; (apply Hv || apply Hp); [apply O_binr|apply T_binr]; assumption|intros; apply Hb].
    - destruct (mem f refused_funcs) eqn:Er.
      + destruct Hf as [Hf|[Hf _]]; [congruence|apply mem_In in Er; contradiction].
      + destruct (mem f evaluated_funcs); [|discriminate].
        apply Hbind; [apply IH; [tauto| |]; intros; (apply Hv || apply Hp); constructor; assumption|intros; apply Hfn].
    - apply Hbind; [apply IHl; [tauto| |]; intros; (apply Hv || apply Hp); constructor; assumption|intros a].
      apply Hbind; [apply IHr; [tauto| |]; intros; (apply Hv || apply Hp); [apply O_compr|apply T_compr]; assumption|intros; apply Hc].
  Qed.

  (** ** Substitution *)
  Notation subst_with := (subst_with V).
  Lemma subst_total sv sp e : algebraic V e -> exists e', subst_with sv sp e = Ok e'.
  Proof.
    induction e as [n|x|x k|u e IH|o l IHl r IHr|f e IH|o l IHl r IHr]; cbn [algebraic Eval.subst_with]; intros H; eauto.
    - destruct (IH H) as (e' & ->); cbn [bind]; eauto.
    - destruct H as [Hl Hr]; destruct (IHl Hl) as (l' & ->); destruct (IHr Hr) as (r' & ->); cbn [bind]; eauto.
    - destruct (IH H) as (e' & ->); cbn [bind]; eauto.
    - contradiction.
  Qed.
  Lemma subst_comp sv sp e : ~ algebraic V e -> subst_with sv sp e = Err GenericErr.
  Proof.
    assert (dec : forall e : ast V, algebraic V e \/ ~ algebraic V e)
      by (clear; intros e; induction e; cbn [algebraic]; tauto).
    induction e as [n|x|x k|u e IH|o l IHl r IHr|f e IH|o l IHl r IHr]; cbn [algebraic Eval.subst_with]; intros H;
      try (exfalso; apply H; exact I).
    - rewrite IH by exact H; reflexivity.
    - destruct (dec l) as [Hl|Hl].
      + destruct (subst_total sv sp l Hl) as (l' & ->); cbn [bind]; rewrite IHr by tauto; reflexivity.
      + rewrite IHl by exact Hl; reflexivity.
    - rewrite IH by exact H; reflexivity.
    - reflexivity.
  Qed.

  Definition with_var (sv : string -> option V) (vv : string -> res V) (x : string) : res V :=
    match sv x with Some v => Ok v | None => vv x end.
  Definition with_pvar (sp : string -> Z -> option V) (pv : string -> Z -> res V) (x : string) (k : Z) : res V :=
    match sp x k with Some v => Ok v | None => pv x k end.

  Definition is_leaf (e : ast V) : bool := match e with Var _ | PVar _ _ => true | _ => false end.

  Lemma subst_leaf sv sp e e' : subst_with sv sp e = Ok e' -> is_leaf e' = is_leaf e.
  Proof.
    destruct e; cbn [Eval.subst_with]; intros H;
      repeat (apply bind_ok in H as (? & ? & H)); first [injection H as <-; reflexivity | discriminate H].
  Qed.

  Lemma eval_subst vv pv sv sp e e' :
    subst_with sv sp e = Ok e' ->
    eval_with vv pv (maybe_substitute V sv sp e') =
    eval_with (with_var sv vv) (with_pvar sp pv) e.
  Proof.
    revert e'; induction e as [n|x|x k|u e IH|o l IHl r IHr|f e IH|o l IHl r IHr]; intros e' H;
      cbn [Eval.subst_with] in H.
    - injection H as <-; reflexivity.
    - injection H as <-; cbn [maybe_substitute Eval.eval_with with_var]; unfold with_var; destruct (sv x); reflexivity.
    - injection H as <-; cbn [maybe_substitute Eval.eval_with with_pvar]; unfold with_pvar; destruct (sp x k); reflexivity.
    - apply bind_ok in H as (e1 & H1 & H); injection H as <-.
      cbn [maybe_substitute Eval.eval_with]; rewrite (IH _ H1); reflexivity.
    - apply bind_ok in H as (l1 & H1 & H); apply bind_ok in H as (r1 & H2 & H); injection H as <-.
      cbn [maybe_substitute Eval.eval_with]; rewrite (IHl _ H1), (IHr _ H2); reflexivity.
    - apply bind_ok in H as (e1 & H1 & H); injection H as <-.
      cbn [maybe_substitute Eval.eval_with]; rewrite (IH _ H1); reflexivity.
    - discriminate.
  Qed.

  Lemma eval_subst_top vv pv sv sp e e' :
    is_leaf e = false -> subst_with sv sp e = Ok e' ->
    eval_with vv pv e' = eval_with (with_var sv vv) (with_pvar sp pv) e.
  Proof.
    intros Hl H; rewrite <- (eval_subst vv pv sv sp e e' H).
    rewrite <- (subst_leaf _ _ _ _ H) in Hl; destruct e'; reflexivity || discriminate.
  Qed.

  (** Expressions read by the parser contain no comparison, and only functions the
      lexer knows if the tokens do. *)
  Lemma reads_algebraic trunc m j t o en e ts : reads V trunc m j t o en e ts -> algebraic V e.
  Proof. intros H; induction H; cbn [algebraic]; auto. Qed.

  (** ** Named values *)
  Lemma named_values_lookup names vals keep acc d :
    named_values V names vals keep acc = Ok d -> NoDup names ->
    forall x, lookup x d =
      if mem x keep && mem x names
      then match lookup x (combine names vals) with Some v => Some v | None => lookup x acc end
      else lookup x acc.
  Proof.
    revert vals acc; induction names as [|y names IH]; intros vals acc H ND x; cbn [named_values] in H.
    - injection H as <-; cbn [mem existsb]; rewrite andb_false_r; reflexivity.
    - inversion ND as [|? ? Hy ND']; subst.
      destruct (mem y keep) eqn:Ek.
      + destruct vals as [|v vals]; [discriminate|].
        rewrite (IH _ _ H ND' x); cbn [combine lookup mem existsb]; rewrite !lookup_update.
        fold (mem x names).
        destruct (String.eqb_spec x y) as [->|N]; cbn [orb].
        * apply mem_false in Hy; rewrite Hy, Ek; reflexivity.
        * reflexivity.
      + rewrite (IH _ _ H ND' x); cbn [mem existsb]; fold (mem x names).
        destruct (String.eqb_spec x y) as [->|N]; cbn [orb].
        * rewrite Ek; reflexivity.
        * destruct vals as [|v vals]; cbn [tl combine lookup].
          -- destruct names; reflexivity.
          -- destruct (String.eqb_spec x y); [congruence|]; reflexivity.
  Qed.
  Lemma named_values_total names vals keep acc :
    List.length names <= List.length vals -> exists d, named_values V names vals keep acc = Ok d.
  Proof.
    revert vals acc; induction names as [|y names IH]; intros vals acc L; cbn [named_values]; [eauto|].
    destruct vals as [|v vals]; cbn [List.length] in L; [lia|].
    destruct (mem y keep); cbn [tl]; apply IH; lia.
  Qed.

  (** ** Which leaves are recorded *)
  Lemma leaf_recorded_var lv lp e x n :
    is_leaf e = false -> algebraic V e -> occurs V x e -> lv x = Some n -> In n (not_provided V lv lp e).
  Proof.
    intros Hl Ha Ho Hx.
    assert (G : algebraic V e -> occurs V x e -> In n (not_provided V lv lp e ++ leaf V lv lp e)).
    { clear Hl Ha Ho; induction e as [m|y|y k|u e IH|o l IHl r IHr|f e IH|o l IHl r IHr]; intros Ha Ho;
        cbn [algebraic] in Ha; inversion Ho; subst; cbn [not_provided leaf].
      - rewrite Hx; left; reflexivity.
      - rewrite app_nil_r; auto.
      - rewrite app_nil_r; destruct Ha as [Ha _]; specialize (IHl Ha ltac:(assumption)); rewrite !in_app_iff in *; tauto.
      - rewrite app_nil_r; destruct Ha as [_ Ha]; specialize (IHr Ha ltac:(assumption)); rewrite !in_app_iff in *; tauto.
      - rewrite app_nil_r; auto.
      - contradiction.
      - contradiction. }
    specialize (G Ha Ho); apply in_app_iff in G as [G|G]; [exact G|].
    destruct e; cbn [leaf] in G; discriminate || contradiction.
  Qed.
  Lemma leaf_recorded_pvar lv lp e x k n :
    is_leaf e = false -> algebraic V e -> occurs_t V x k e -> lp x k = Some n -> In n (not_provided V lv lp e).
  Proof.
    intros Hl Ha Ho Hx.
    assert (G : algebraic V e -> occurs_t V x k e -> In n (not_provided V lv lp e ++ leaf V lv lp e)).
    { clear Hl Ha Ho; induction e as [m|y|y k'|u e IH|o l IHl r IHr|f e IH|o l IHl r IHr]; intros Ha Ho;
        cbn [algebraic] in Ha; inversion Ho; subst; cbn [not_provided leaf].
      - rewrite Hx; left; reflexivity.
      - rewrite app_nil_r; auto.
      - rewrite app_nil_r; destruct Ha as [Ha _]; specialize (IHl Ha ltac:(assumption)); rewrite !in_app_iff in *; tauto.
      - rewrite app_nil_r; destruct Ha as [_ Ha]; specialize (IHr Ha ltac:(assumption)); rewrite !in_app_iff in *; tauto.
      - rewrite app_nil_r; auto.
      - contradiction.
      - contradiction. }
    specialize (G Ha Ho); apply in_app_iff in G as [G|G]; [exact G|].
    destruct e; cbn [leaf] in G; discriminate || contradiction.
  Qed.
End Proofs.
