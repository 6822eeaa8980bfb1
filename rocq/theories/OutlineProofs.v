From Verif Require Import Base Syntax Lexer LexerSpec LexerExactSpec LexerExact Parser ParserSpec ModFileSpec ModFileProofs
  ModFileProofs2 ModFileProofs3 Eval EvalSpec EvalProofs Semantics SemanticsSpec SemanticsProofs Factory FactorySpec FactoryProofs OutlineSpec.

Section Proofs.
  Variable V : Type.
  Variable O : ops V.
  Variable two : V.
  Notation outline := (outline V).
  Definition pick (k : string) (ds : list declaration) : list string := map fst (filter (fun d => String.eqb (snd d) k) ds).

  Lemma pick_sub k x ds : In x (pick k ds) -> In x (map fst ds).
  Proof. unfold pick; rewrite !in_map_iff; intros (d & E & H); apply filter_In in H as [H _]; eauto. Qed.
  Lemma pick_In k x ds : In x (pick k ds) <-> In (x, k) ds.
  Proof.
    unfold pick; rewrite in_map_iff; split.
    - intros ([y j] & <- & H); apply filter_In in H as [H E]; cbn [snd] in E; apply String.eqb_eq in E as ->; exact H.
    - intros H; exists (x, k); split; [reflexivity|]; apply filter_In; split; [exact H|apply String.eqb_refl].
  Qed.
  Lemma pick_NoDup k ds : NoDup (map fst ds) -> NoDup (pick k ds).
  Proof.
    induction ds as [|[x j] ds IH]; cbn; intros H; [constructor|]; inversion H; subst.
    cbn [pick filter snd]; unfold pick in *; cbn [filter snd]; destruct (String.eqb j k); [|auto].
    cbn [map fst]; constructor; [|auto]; intros X; exact (H2 (pick_sub _ _ _ X)).
  Qed.

  Lemma update_fresh {A} x (v : A) d : ~ In x (keys d) -> update x v d = d ++ [(x, v)].
  Proof.
    induction d as [|[y w] d IH]; intros H; cbn [update]; [reflexivity|].
    destruct (String.eqb_spec x y) as [->|N]; [elim H; left; reflexivity|]; cbn [app]; f_equal; apply IH; intros X; apply H; right; exact X.
  Qed.

  Lemma declare_fields ds : forall o o', foldM (declare V) o ds = Ok o' ->
    o_endo V o' = o_endo V o ++ pick "var" ds /\ o_stoch V o' = o_stoch V o ++ pick "varexo" ds /\
    o_det V o' = o_det V o ++ pick "varexo_det" ds /\ o_locals V o' = o_locals V o /\ o_exprs V o' = o_exprs V o /\
    (NoDup (keys (o_params V o) ++ pick "parameters" ds) -> o_params V o' = o_params V o ++ map (fun x => (x, None)) (pick "parameters" ds)) /\
    Forall (fun d => In (snd d) var_kinds) ds.
  Proof.
    induction ds as [|[x k] ds IH]; intros o o' H; cbn [foldM] in H.
    - injection H as <-; unfold pick; cbn; rewrite !app_nil_r; repeat split; constructor.
    - apply bind_ok in H as (o1 & H1 & H); destruct (IH _ _ H) as (I1 & I2 & I3 & I4 & I5 & I6 & I7); clear IH H.
      assert (P : forall j, pick j ((x, k) :: ds) = if String.eqb k j then x :: pick j ds else pick j ds)
        by (intros j; unfold pick; cbn [filter snd]; destruct (String.eqb k j); reflexivity).
      unfold declare in H1; rewrite I1, I2, I3, I4, I5, !P.
      destruct (String.eqb_spec k "parameters") as [->|].
      { injection H1 as <-; cbn [o_endo o_stoch o_det o_locals o_exprs o_params set_params String.eqb Ascii.eqb Bool.eqb] in *.
        repeat (split; [reflexivity|]); split.
        - intros N; assert (F : ~ In x (keys (o_params V o))).
          { intros X; apply NoDup_remove_2 in N; apply N; apply in_or_app; left; exact X. }
          rewrite I6; rewrite update_fresh by exact F; [rewrite <- app_assoc; reflexivity|].
          unfold keys; rewrite map_app; cbn [map fst app]; rewrite <- app_assoc; exact N.
        - constructor; [cbn; tauto|exact I7]. }
      destruct (String.eqb_spec k "varexo") as [->|].
      { injection H1 as <-; cbn [o_endo o_stoch o_det o_locals o_exprs o_params String.eqb Ascii.eqb Bool.eqb] in *.
        rewrite <- app_assoc; repeat (split; [reflexivity|]); split; [exact I6|]; constructor; [cbn; tauto|exact I7]. }
      destruct (String.eqb_spec k "varexo_det") as [->|].
      { injection H1 as <-; cbn [o_endo o_stoch o_det o_locals o_exprs o_params String.eqb Ascii.eqb Bool.eqb] in *.
        rewrite <- app_assoc; repeat (split; [reflexivity|]); split; [exact I6|]; constructor; [cbn; tauto|exact I7]. }
      destruct (String.eqb_spec k "var") as [->|]; [|discriminate].
      injection H1 as <-; cbn [o_endo o_stoch o_det o_locals o_exprs o_params String.eqb Ascii.eqb Bool.eqb] in *.
      rewrite <- app_assoc; repeat (split; [reflexivity|]); split; [exact I6|]; constructor; [cbn; tauto|exact I7].
  Qed.

  Lemma trees_keys l : forall ps, keys (param_trees V ps l) = keys ps.
  Proof.
    unfold param_trees; induction l as [|[x e] l IH]; intros ps; cbn [fold_left fst snd]; [reflexivity|].
    rewrite IH; destruct (mem x (keys ps)) eqn:E; [rewrite keys_update, E|]; reflexivity.
  Qed.
  Lemma trees_lookup l x : forall ps, In x (keys ps) ->
    lookup x (param_trees V ps l) = match assigned V x l with Some e => Some (Some e) | None => lookup x ps end.
  Proof.
    unfold param_trees; induction l as [|[y e] l IH]; intros ps H; cbn [fold_left fst snd assigned last_such]; [reflexivity|].
    fold (assigned V x l); rewrite IH.
    - destruct (assigned V x l); [reflexivity|]; destruct (mem y (keys ps)) eqn:E.
      + rewrite lookup_update; destruct (String.eqb x y); reflexivity.
      + destruct (String.eqb_spec x y) as [->|]; [|reflexivity]; apply mem_false in E; contradiction.
    - destruct (mem y (keys ps)) eqn:E; [rewrite keys_update, E|]; exact H.
  Qed.

  Definition eqs (l : list (statement V)) : list (ast V) :=
    flat_map (fun s => match s with SEq _ l r => [Bin BSub l r] | SLocal _ _ => [] end) l.
  Definition defs (l : list (statement V)) : list (assignment V) :=
    flat_map (fun s => match s with SLocal x e => [(x, e)] | SEq _ _ _ => [] end) l.

  Lemma stmts_fields mm l : forall ol ol', foldM (model_stmt V O mm) ol l = Ok ol' ->
    o_endo V (fst ol') = o_endo V (fst ol) /\ o_stoch V (fst ol') = o_stoch V (fst ol) /\ o_det V (fst ol') = o_det V (fst ol) /\
    o_params V (fst ol') = o_params V (fst ol) /\ o_exprs V (fst ol') = o_exprs V (fst ol) ++ eqs l.
  Proof.
    induction l as [|s l IH]; intros [o loc] ol' H; cbn [foldM] in H.
    - injection H as <-; cbn [eqs flat_map]; rewrite app_nil_r; auto.
    - apply bind_ok in H as ([o1 loc1] & H1 & H); destruct (IH _ _ H) as (I1 & I2 & I3 & I4 & I5).
      rewrite I1, I2, I3, I4, I5; cbn [fst]; unfold model_stmt in H1; destruct s as [x e|tag a b].
      + apply bind_ok in H1 as (v & _ & H1); injection H1 as <- <-; cbn; auto.
      + apply bind_ok in H1 as (ll & _ & H1); injection H1 as <- <-; cbn [o_endo o_stoch o_det o_params o_exprs eqs flat_map].
        rewrite <- app_assoc; auto.
  Qed.

  Hypothesis none_is_none : forall v, o_isnone O v = true -> v = o_none O.

  (** The local definitions, run over the parameters. *)
  Lemma locals_run mm l : forall o loc o' loc' rho,
    (forall x, mem_lookup V O x [loc; mm] = rho x) -> o_locals V o = loc ->
    (forall x, In x (map fst (defs l)) -> lookup x mm = None) ->
    NoDup (keys loc ++ map fst (defs l)) ->
    foldM (model_stmt V O mm) (o, loc) l = Ok (o', loc') ->
    o_locals V o' = loc' /\ keys loc' = keys loc ++ map fst (defs l) /\
    exists rho', exec V O rho (defs l) = Ok rho' /\
      (forall x, In x (map fst (defs l)) -> lookup x loc' = Some (rho' x)) /\
      (forall x, In x (keys loc) -> lookup x loc' = lookup x loc).
  Proof.
    induction l as [|s l IH]; intros o loc o' loc' rho Hr Ho Hm N H; cbn [foldM] in H.
    - injection H as <- <-; cbn [defs flat_map map exec]; rewrite app_nil_r; split; [exact Ho|]; split; [reflexivity|].
      exists rho; split; [reflexivity|]; split; [intros x []|reflexivity].
    - apply bind_ok in H as ([o1 loc1] & H1 & H); unfold model_stmt in H1; destruct s as [x e|tag a b].
      + apply bind_ok in H1 as (v & Hv & H1); injection H1 as <- <-.
        cbn [defs flat_map app map fst] in Hm, N |- *; fold (defs l) in *; cbn [exec].
        assert (Ev : eval_in V O rho e = Ok v).
        { rewrite <- Hv; unfold evaluate, eval_in; symmetry; apply eval_agree; [|reflexivity].
          intros y _; cbn [scope_get]; rewrite Hr; reflexivity. }
        rewrite Ev; cbn [bind].
        assert (F : ~ In x (keys loc)) by (intros X; apply NoDup_remove_2 in N; apply N; apply in_or_app; left; exact X).
        assert (K : keys (update x v loc) = keys loc ++ [x]) by (rewrite update_fresh by exact F; unfold keys; rewrite map_app; reflexivity).
        match type of H with foldM _ (?o0, _) _ = _ => destruct (IH o0 (update x v loc) o' loc' (set V rho x v)) as (I1 & I2 & rho' & I3 & I4 & I5) end.
        * intros y; cbn [mem_lookup]; unfold set; rewrite lookup_update; specialize (Hr y); cbn [mem_lookup] in Hr.
          destruct (String.eqb_spec y x) as [->|Ny]; [|exact Hr].
          destruct (o_isnone O v) eqn:En; [|reflexivity].
          rewrite (Hm x (or_introl eq_refl)); symmetry; apply none_is_none; exact En.
        * cbn [o_locals]; rewrite Ho; reflexivity.
        * intros y Hy; apply Hm; right; exact Hy.
        * rewrite K, <- app_assoc; exact N.
        * exact H.
        * split; [exact I1|]; split; [rewrite I2, K, <- app_assoc; reflexivity|].
          exists rho'; split; [exact I3|]; split.
          -- intros y [<-|Hy]; [|apply I4; exact Hy].
             rewrite I5 by (rewrite K; apply in_or_app; right; left; reflexivity).
             rewrite lookup_update_eq; f_equal.
             assert (Nx : ~ In x (map fst (defs l))) by (intros X; apply NoDup_remove_2 in N; apply N; apply in_or_app; right; exact X).
             clear - I3 Nx; revert I3; assert (E : set V rho x v x = v) by (unfold set; rewrite String.eqb_refl; reflexivity).
             rewrite <- E at 2; clear E; generalize (set V rho x v) as r0; induction (defs l) as [|[z ez] dl IHd]; intros r0 G; cbn [exec] in G.
             ++ injection G as <-; reflexivity.
             ++ apply bind_ok in G as (w & _ & G); rewrite <- (IHd (fun X => Nx (or_intror X)) _ G); unfold set.
                destruct (String.eqb_spec x z) as [->|]; [elim Nx; left; reflexivity|reflexivity].
          -- intros y Hy; rewrite I5 by (rewrite K; apply in_or_app; left; exact Hy).
             apply lookup_update_ne; intros ->; contradiction.
      + apply bind_ok in H1 as (ll & _ & H1); injection H1 as <- <-.
        match type of H with foldM _ (?o0, _) _ = _ => exact (IH o0 loc o' loc' rho Hr Ho Hm N H) end.
  Qed.

  (** The memory of the model block holds the parameters. *)
  Lemma create_apart f o : create_outline V O two f = Ok o ->
    exists rho m o1 ol, verify V f = Ok tt /\ exec V O (nothing V O) (m_params f) = Ok rho /\ holds V O m rho /\
      apart V (keys (o_params V o1)) m /\ foldM (declare V) (empty_outline V) (m_decls f) = Ok o1 /\
      foldM (model_stmt V O (model_mem V m)) (set_params V (param_trees V (o_params V o1) (m_params f)) o1, []) (m_stmts f) = Ok ol /\
      model_actions V O two m (m_actions f) (fst ol) = Ok o.
  Proof.
    intros H; unfold create_outline in H; apply bind_ok in H as ([] & Hv & H).
    apply bind_ok in H as (o1 & H1 & H); apply bind_ok in H as (om & H2 & H); apply bind_ok in H as (ol & H3 & H).
    assert (Hh : holds V O (Memory V [] []) (nothing V O)) by (intros x; reflexivity).
    assert (Ha : apart V (keys (o_params V o1)) (Memory V [] [])) by (split; intros x []).
    pose proof (assigns_run V O none_is_none (m_params f) o1 (Memory V [] []) (nothing V O) Hh Ha) as R.
    destruct (exec V O (nothing V O) (m_params f)) as [rho|er]; [|congruence].
    destruct R as (m & R & Hm & Hap); rewrite R in H2; injection H2 as <-; cbn [fst snd] in *.
    exists rho, m, o1, ol; auto 10.
  Qed.

  Lemma actions_fields m a o o' : model_actions V O two m a o = Ok o' ->
    o_endo V o' = o_endo V o /\ o_stoch V o' = o_stoch V o /\ o_det V o' = o_det V o /\ o_params V o' = o_params V o /\
    o_locals V o' = o_locals V o /\ o_exprs V o' = o_exprs V o.
  Proof.
    intros H; unfold model_actions, boundaries in H; apply bind_ok in H as (b & H & G); destruct (a_shocks a) as [[ar l]|]; [|discriminate].
    apply bind_ok in G as (d & _ & G); injection G as <-.
    apply bind_ok in H as (d1 & _ & H); apply bind_ok in H as (d2 & _ & H); apply bind_ok in H as (d3 & _ & H); injection H as <-; cbn; auto 10.
  Qed.

  Lemma defs_locals l : map fst (defs l) = locals V l.
  Proof. induction l as [|[x e|t a b] l IH]; cbn [defs locals flat_map app map fst] in *; [reflexivity|f_equal; exact IH|exact IH]. Qed.
  Lemma locals_NoDup f : model_ok V f -> NoDup (locals V (m_stmts f)).
  Proof.
    intros M; assert (G : forall post pre, m_stmts f = pre ++ post -> NoDup (locals V pre) -> NoDup (locals V (pre ++ post))).
    { induction post as [|s post IH]; intros pre E N; [rewrite app_nil_r; exact N|].
      assert (A : forall q, pre ++ s :: q = (pre ++ [s]) ++ q) by (intros q; rewrite <- app_assoc; reflexivity).
      rewrite A; apply IH; [rewrite <- A; exact E|].
      unfold locals; rewrite flat_map_app; cbn [flat_map]; rewrite app_nil_r.
      destruct s as [x e|t a b]; [|rewrite app_nil_r; exact N].
      destruct (M _ _ _ E) as [F _].
      assert (Nx : ~ In x (locals V pre)) by (intros X; apply F; right; exact X).
      fold (locals V pre); revert N Nx; clear; induction (locals V pre) as [|y l IHl]; intros N Nx; cbn [app].
      - constructor; [intros []|constructor].
      - inversion N; subst; constructor.
        + intros X; apply in_app_or in X as [X|[<-|[]]]; [contradiction|apply Nx; left; reflexivity].
        + apply IHl; [assumption|intros X; apply Nx; right; exact X]. }
    apply (G (m_stmts f) [] eq_refl); constructor.
  Qed.

  Theorem outline_is f o : create_outline V O two f = Ok o ->
    o_endo V o = named V "var" f /\ o_stoch V o = named V "varexo" f /\ o_det V o = named V "varexo_det" f /\
    keys (o_params V o) = named V "parameters" f /\
    (forall x, In x (named V "parameters" f) -> lookup x (o_params V o) = Some (assigned V x (m_params f))) /\
    o_exprs V o = equations V f /\
    keys (o_locals V o) = map fst (local_defs V f) /\
    exists rho rho', exec V O (nothing V O) (m_params f) = Ok rho /\
      exec V O (parameters_only V O f rho) (local_defs V f) = Ok rho' /\
      forall x, In x (map fst (local_defs V f)) -> lookup x (o_locals V o) = Some (rho' x).
  Proof.
    intros H; destruct (create_apart f o H) as (rho & m & o1 & [o2 loc2] & Hv & He & Hm & Ha & H1 & H2 & H3).
    destruct (declare_fields _ _ _ H1) as (D1 & D2 & D3 & D4 & D5 & D6 & D7).
    apply verify_iff in Hv as ((W1 & _) & _ & W3 & _); [|exact D7].
    specialize (D6 (pick_NoDup _ _ W1)); cbn [empty_outline o_endo o_stoch o_det o_params o_locals o_exprs app] in D1, D2, D3, D4, D5, D6.
    assert (K1 : keys (o_params V o1) = named V "parameters" f).
    { rewrite D6; unfold keys; rewrite map_map; cbn [fst]; apply map_id. }
    destruct (stmts_fields _ _ _ _ H2) as (S1 & S2 & S3 & S4 & S5); cbn [fst set_params o_endo o_stoch o_det o_params o_exprs] in S1, S2, S3, S4, S5.
    destruct (actions_fields _ _ _ _ H3) as (A1 & A2 & A3 & A4 & A5 & A6); cbn [fst] in A1, A2, A3, A4, A5, A6.
    rewrite A1, A2, A3, A4, A5, A6, S1, S2, S3, S4, S5, D1, D2, D3, D5.
    repeat (split; [reflexivity|]); split; [rewrite trees_keys; exact K1|]; split.
    { intros x Hx; rewrite trees_lookup by (rewrite K1; exact Hx); destruct (assigned V x (m_params f)); [reflexivity|].
      rewrite D6; fold (named V "parameters" f) in D6; change (pick "parameters" (m_decls f)) with (named V "parameters" f).
      clear - Hx; induction (named V "parameters" f) as [|y l IH]; [destruct Hx|]; cbn [map lookup].
      destruct (String.eqb_spec x y) as [->|N]; [reflexivity|]; apply IH; destruct Hx as [->|Hx]; [congruence|exact Hx]. }
    split; [reflexivity|].
    destruct (locals_run (model_mem V m) (m_stmts f) (set_params V (param_trees V (o_params V o1) (m_params f)) o1) [] o2 loc2 (parameters_only V O f rho))
      as (L1 & L2 & rho' & L3 & L4 & _).
    - intros x; cbn [mem_lookup lookup]; specialize (Hm x); cbn [mem_lookup] in Hm; unfold parameters_only.
      rewrite <- K1; destruct Ha as [B1 B2].
      destruct (mem x (keys (o_params V o1))) eqn:E.
      + apply mem_In in E; rewrite <- Hm; destruct (lookup x (file_mem V m)) as [w|] eqn:L; [|reflexivity].
        apply lookup_Some_In in L; elim (B1 x); [apply (in_map fst) in L; exact L|exact E].
      + apply mem_false in E; destruct (lookup x (model_mem V m)) as [w|] eqn:L; [|reflexivity].
        apply lookup_Some_In in L; elim E; apply B2; apply (in_map fst) in L; exact L.
    - cbn [set_params o_locals]; exact D4.
    - intros x Hx; apply lookup_None; intros X; apply (proj2 Ha) in X; rewrite K1 in X.
      rewrite defs_locals in Hx; unfold locals in Hx; apply in_flat_map in Hx as (s & Hs & Hx).
      apply in_split in Hs as (p & q & Es); destruct s as [y e|]; [|destruct Hx]; destruct Hx as [<-|[]].
      destruct (W3 _ _ _ Es) as [F _]; apply F; left; left; exists "parameters"%string; apply pick_In; exact X.
    - cbn [keys map app]; rewrite defs_locals; apply locals_NoDup; exact W3.
    - exact H2.
    - rewrite L1; split; [exact L2|]; exists rho, rho'; split; [exact He|]; split; [exact L3|exact L4].
  Qed.

  (** [ModelOutline.model_scope]: local names over parameters. *)
  Lemma scope_over l x : forall d : list (string * (option (ast V) + V)), NoDup (keys l) ->
    lookup x (fold_left (fun d p => update (fst p) (inr (snd p)) d) l d) =
    match lookup x l with Some v => Some (inr v) | None => lookup x d end.
  Proof.
    induction l as [|[y v] l IH]; intros d N; cbn [fold_left fst snd lookup]; [reflexivity|].
    inversion N; subst; rewrite IH by assumption; rewrite lookup_update.
    destruct (String.eqb_spec x y) as [->|]; [|reflexivity].
    assert (lookup y l = None) as -> by (apply lookup_None; assumption); reflexivity.
  Qed.
  Lemma scope_is o x : NoDup (keys (o_locals V o)) ->
    lookup x (outline_scope V o) = match lookup x (o_locals V o) with
                                   | Some v => Some (inr v)
                                   | None => option_map inl (lookup x (o_params V o))
                                   end.
  Proof.
    intros N; unfold outline_scope; rewrite scope_over by exact N; destruct (lookup x (o_locals V o)); [reflexivity|].
    induction (o_params V o) as [|[y t] l IH]; cbn [map lookup fst snd option_map]; [reflexivity|].
    destruct (String.eqb x y); [reflexivity|exact IH].
  Qed.
End Proofs.
