(** Proofs about the state of a model. *)
From Verif Require Import Base Syntax Lexer Parser Eval Semantics Factory Calib Indexing DynFunc Vars ExprList
  ModelState ModelStateSpec IndexingSpec IndexingProofs CalibProofs.

Section Proofs.
  Variable V : Type.
  Variable O : ops V.
  Variable zero one : V.
  Variable truthy isnum : V -> bool.
  Variable float_of : text -> option V.
  Variable trunc : V -> option Z.
  Variable parse_text : text -> res (ast V).
  Variable keeps : bool.
  Variable default_locals : store V.
  Variable space_t sol_t : Type.
  Variable space : list (option V) -> steady_repr V -> repr V -> res space_t.
  Variable solver : option (sol_t * matrix V) -> list (option V) -> steady_repr V -> repr V -> space_t -> res sol_t.

  Notation new_model := (ModelState.new_model V O zero one truthy float_of trunc parse_text space_t sol_t space).
  Notation update := (ModelState.update V O zero isnum space_t sol_t space).
  Notation ensure := (ModelState.ensure V O zero isnum space_t sol_t space).
  Notation read := (ModelState.read V O zero isnum space_t sol_t space).
  Notation solve := (ModelState.solve V O zero isnum space_t sol_t space solver).
  Notation solve_one := (ModelState.solve_one V O zero isnum space_t sol_t space solver).
  Notation solve_two := (ModelState.solve_two V O zero isnum space_t sol_t space solver).
  Notation finish := (ModelState.finish V space_t sol_t solver).
  Notation simulate := (ModelState.simulate V O zero isnum space_t sol_t space solver).
  Notation read_solution := (ModelState.read_solution V O zero isnum space_t sol_t space solver).
  Notation step := (ModelState.step V O zero one truthy isnum float_of trunc parse_text keeps space_t sol_t space solver).
  Notation run := (ModelState.run V O zero one truthy isnum float_of trunc parse_text keeps space_t sol_t space solver).
  Notation mstate := (ModelState.mstate V space_t sol_t).
  Notation definition := (ModelState.definition V space_t sol_t).
  Notation derived := (ModelState.derived V space_t sol_t).
  Notation altered := (ModelState.altered V space_t sol_t).
  Notation solution := (ModelState.solution V space_t sol_t).
  Notation effect := (ModelStateSpec.effect V one).
  Notation effects := (ModelStateSpec.effects V one).
  Notation new_evar := (Vars.new_evar V zero truthy).

  (** ** The derived structures as a function of the definitions *)

  Definition fresh (ns : list string) (is : list (option V)) (ss : list (svar V)) (es : list (ast V))
      (sc : list (string * V)) (x : indexes) (st : steady_repr V) (dy : repr V) (sp : space_t) : Prop :=
    exists lls, Indexing.set_lead_lags V ns es = Ok lls /\ index_manager lls (List.length ss) = Ok x /\
      new_steady V ns es sc = Ok st /\ new_dynamic V ns (map sv_name ss) es sc x = Ok dy /\ space is st dy = Ok sp.

  Definition fresh_of (d : defs V) := fresh (map ev_name (d_endog V d)) (map ev_init (d_endog V d)) (d_stoch V d)
    (trees (d_exprs V d)) (model_scope V d).

  Lemma fresh_fun ns is ss es sc x st dy sp x' st' dy' sp' :
    fresh ns is ss es sc x st dy sp -> fresh ns is ss es sc x' st' dy' sp' -> x' = x /\ st' = st /\ dy' = dy /\ sp' = sp.
  Proof.
    intros (l & A1 & A2 & A3 & A4 & A5) (l' & B1 & B2 & B3 & B4 & B5).
    assert (l' = l) by congruence; subst l'.
    assert (x' = x) by congruence; subst x'.
    assert (st' = st) by congruence; subst st'.
    assert (dy' = dy) by congruence; subst dy'.
    assert (sp' = sp) by congruence; subst sp'; auto.
  Qed.

  Lemma lls_names ns es lls : Indexing.set_lead_lags V ns es = Ok lls -> map fst lls = ns.
  Proof.
    unfold Indexing.set_lead_lags; intros H; apply bind_ok in H as (d & _ & H); apply mapM_ok in H.
    induction H as [|x p ns' lls' Hx _ IH]; [reflexivity|].
    cbn [map]; rewrite IH; destruct (lookup x d); [|discriminate].
    injection Hx as <-; reflexivity.
  Qed.

  Lemma with_ll_names e : forall lls, map fst lls = map ev_name e ->
    map ev_name (with_lead_lags V e lls) = map ev_name e /\
    map ev_init (with_lead_lags V e lls) = map ev_init e /\
    mapM (fun v => match ev_ll v with Some ps => Ok (ev_name v, ps) | None => Err TypeErr end) (with_lead_lags V e lls) = Ok lls.
  Proof.
    induction e as [|v e IH]; intros [|[x ps] lls] H; try discriminate H; [repeat apply conj; reflexivity|].
    cbn [map fst] in H; injection H as H1 H2.
    destruct (IH _ H2) as (E1 & E2 & E3).
    unfold with_lead_lags in *; cbn [combine map fst snd ev_name ev_init ev_ll mapM].
    rewrite E1, E2, E3; cbn [bind]; rewrite H1; auto.
  Qed.

  (** A successful update computes exactly the structures of the definitions. *)
  Definition consistent (m : mstate) : Prop :=
    let c := derived m in
    fresh_of (definition m) (c_index _ _ c) (c_steady _ _ c) (c_dynamic _ _ c) (c_space _ _ c) /\
    (forall sg, c_sigma _ _ c = Some sg -> define_sigma V zero O isnum (d_stoch V (definition m)) = Ok sg).

  (** Definitions that differ only in the recorded lead-lag sets. *)
  Definition same_but_ll (d d' : defs V) : Prop :=
    exists lls, map fst lls = map ev_name (d_endog V d) /\ d' = set_endog V (with_lead_lags V (d_endog V d) lls) d.
  Definition similar (d d' : defs V) : Prop :=
    d' = set_endog V (d_endog V d') d /\
    Forall2 (fun v v' => v' = Evar (ev_name v) (ev_init v) (ev_term v) (ev_hist v) (ev_ll v')) (d_endog V d) (d_endog V d').

  Lemma similar_refl d : similar d d.
  Proof.
    split; [destruct d; reflexivity|].
    induction (d_endog V d) as [|v l IH]; [constructor|]; constructor; [destruct v; reflexivity|exact IH].
  Qed.
  Lemma similar_trans a b c : similar a b -> similar b c -> similar a c.
  Proof.
    intros [H1 H2] [H3 H4]; split.
    - rewrite H3, H1; reflexivity.
    - clear H1 H3; revert H2 H4; generalize (d_endog V a) (d_endog V b) (d_endog V c).
      intros l1 l2 l3 H; revert l3; induction H as [|v v' l1 l2 Hv _ IH]; intros l3 H; inversion H; subst; constructor.
      + destruct v', y; cbn in *; congruence.
      + apply IH; assumption.
  Qed.
  Lemma similar_names d d' : similar d d' -> map ev_name (d_endog V d') = map ev_name (d_endog V d) /\
    map ev_init (d_endog V d') = map ev_init (d_endog V d).
  Proof.
    intros [_ H]; induction H as [|v v' l l' Hv _ [I1 I2]]; [split; reflexivity|].
    cbn [map]; rewrite I1, I2, Hv; split; reflexivity.
  Qed.
  Lemma similar_with d lls : map fst lls = map ev_name (d_endog V d) -> similar d (set_endog V (with_lead_lags V (d_endog V d) lls) d).
  Proof.
    intros H; split; [reflexivity|].
    unfold set_endog; cbn [d_endog]; revert lls H; induction (d_endog V d) as [|v l IH]; intros [|p lls] H; try discriminate H; [constructor|].
    cbn [map] in H; injection H as H1 H2; unfold with_lead_lags; cbn [combine map]; constructor; [reflexivity|apply IH; exact H2].
  Qed.
  Lemma fresh_similar d d' x st dy sp : similar d d' -> fresh_of d x st dy sp <-> fresh_of d' x st dy sp.
  Proof.
    intros H; destruct (similar_names d d' H) as [H1 H2]; unfold fresh_of; rewrite H1, H2.
    destruct H as [-> _]; reflexivity.
  Qed.
  Lemma similar_fields d d' : similar d d' -> d_en_ok V d' = d_en_ok V d /\ d_stoch V d' = d_stoch V d /\ d_st_ok V d' = d_st_ok V d /\
    d_determ V d' = d_determ V d /\ d_params V d' = d_params V d /\ d_locals V d' = d_locals V d /\ d_exprs V d' = d_exprs V d.
  Proof. intros [-> _]; repeat apply conj; reflexivity. Qed.

  Lemma update_spec m m' r : update m = (m', r) ->
    altered m' = false /\ solution m' = solution m /\
    ((d_en_ok V (definition m) = true /\ similar (definition m) (definition m')) \/
     (d_en_ok V (definition m) = false /\ (r <> Ok tt) /\ similar (definition m) (definition m'))) /\
    (r = Ok tt -> d_en_ok V (definition m) = true /\ d_st_ok V (definition m) = true /\ consistent m' /\
      (exists sg, c_sigma _ _ (derived m') = Some sg)).
  Proof.
    unfold ModelState.update.
    destruct (lead_lags V (definition m)) as [lls|e] eqn:Ell.
    2:{ intros H; injection H as <- <-; split; [reflexivity|]; split; [reflexivity|]; split.
        - destruct (d_en_ok V (definition m)); [left|right]; repeat apply conj; try reflexivity; try discriminate; apply similar_refl.
        - discriminate. }
    unfold lead_lags in Ell.
    destruct (d_en_ok V (definition m)) eqn:Een.
    2:{ (* no names *)
        apply bind_ok in Ell as (u & _ & Ell).
        destruct (d_endog V (definition m)) as [|v l] eqn:Eend; [|discriminate]; injection Ell as <-.
        assert (S0 : similar (definition m) (set_endog V (with_lead_lags V [] []) (definition m))).
        { rewrite <- Eend; apply similar_with; rewrite Eend; reflexivity. }
        assert (NN : endog_names V (set_endog V (with_lead_lags V [] []) (definition m)) = Err AttrErr)
          by (unfold endog_names, set_endog; cbn [d_en_ok]; rewrite Een; reflexivity).
        intros H.
        assert (G : altered m' = false /\ solution m' = solution m /\ definition m' = set_endog V (with_lead_lags V [] []) (definition m) /\ r <> Ok tt).
        { revert H.
          destruct (do _ <- stoch_names V (set_endog V (with_lead_lags V [] []) (definition m)); define_sigma V zero O isnum _) as [sg|e];
            [|intros H; injection H as <- <-; repeat apply conj; try reflexivity; discriminate].
          destruct (index_of V _ _) as [x|e];
            [|intros H; injection H as <- <-; repeat apply conj; try reflexivity; discriminate].
          rewrite NN; cbn [bind]; intros H; injection H as <- <-; repeat apply conj; try reflexivity; discriminate. }
        destruct G as (G1 & G2 & G3 & G4); repeat apply conj; auto.
        - right; rewrite G3; auto.
        - intros ->; contradiction. }
    pose proof (lls_names _ _ _ Ell) as Hn.
    destruct (with_ll_names _ _ Hn) as (W1 & W2 & W3).
    pose proof (similar_with _ _ Hn) as S0.
    set (d := set_endog V (with_lead_lags V (d_endog V (definition m)) lls) (definition m)) in *.
    assert (Hd : d_endog V d = with_lead_lags V (d_endog V (definition m)) lls) by reflexivity.
    assert (EN : endog_names V d = Ok (map ev_name (d_endog V (definition m)))).
    { unfold endog_names; change (d_en_ok V d) with (d_en_ok V (definition m)); rewrite Een, Hd, W1; reflexivity. }
    assert (IX : index_of V (d_endog V d) (List.length (d_stoch V d)) = index_manager lls (List.length (d_stoch V d))).
    { unfold index_of; rewrite Hd, W3; reflexivity. }
    rewrite EN, IX; cbn [bind].
    destruct (do _ <- stoch_names V d; define_sigma V zero O isnum (d_stoch V d)) as [sg|e] eqn:Esg;
      [|intros H; injection H as <- <-; repeat apply conj; try reflexivity; [left; auto|discriminate]].
    destruct (index_manager lls (List.length (d_stoch V d))) as [x|e] eqn:Ex;
      [|intros H; injection H as <- <-; repeat apply conj; try reflexivity; [left; auto|discriminate]].
    destruct (new_steady V _ (trees (d_exprs V d)) (model_scope V d)) as [st|e] eqn:Est;
      [|intros H; injection H as <- <-; repeat apply conj; try reflexivity; [left; auto|discriminate]].
    apply bind_ok in Esg as (ss & Ess & Esg); unfold stoch_names in Ess.
    destruct (d_st_ok V d) eqn:Eso; [|discriminate]; injection Ess as <-.
    unfold stoch_names; rewrite Eso; cbn [bind].
    destruct (new_dynamic V _ _ (trees (d_exprs V d)) (model_scope V d) x) as [dy|e] eqn:Edy;
      [|intros H; injection H as <- <-; repeat apply conj; try reflexivity; [left; auto|discriminate]].
    destruct (space _ st dy) as [sp|e] eqn:Esp;
      [|intros H; injection H as <- <-; repeat apply conj; try reflexivity; [left; auto|discriminate]].
    intros H; injection H as <- <-; repeat apply conj; try reflexivity; [left; auto|].
    intros _; split; [reflexivity|]; split; [exact Eso|]; split; [|exists sg; reflexivity].
    split; cbn [ModelState.definition ModelState.derived c_index c_steady c_dynamic c_space c_sigma].
    - apply (fresh_similar (definition m) d); [exact S0|].
      exists lls; repeat apply conj; auto; rewrite <- W2, <- Hd; exact Esp.
    - intros sg' E; injection E as <-; exact Esg.
  Qed.

  (** When the structures can be computed, the update succeeds. *)
  Lemma update_total m x st dy sp sg : d_en_ok V (definition m) = true -> d_st_ok V (definition m) = true ->
    fresh_of (definition m) x st dy sp -> define_sigma V zero O isnum (d_stoch V (definition m)) = Ok sg ->
    exists d', update m = (MState V space_t sol_t d' (Cache V space_t x st dy sp (Some sg)) false (solution m), Ok tt).
  Proof.
    intros Een Eso (lls & L1 & L2 & L3 & L4 & L5) Hsg.
    pose proof (lls_names _ _ _ L1) as Hn.
    destruct (with_ll_names _ _ Hn) as (W1 & W2 & W3).
    unfold ModelState.update, lead_lags; rewrite Een, L1.
    set (d := set_endog V (with_lead_lags V (d_endog V (definition m)) lls) (definition m)).
    assert (Hd : d_endog V d = with_lead_lags V (d_endog V (definition m)) lls) by reflexivity.
    assert (EN : endog_names V d = Ok (map ev_name (d_endog V (definition m)))).
    { unfold endog_names; change (d_en_ok V d) with (d_en_ok V (definition m)); rewrite Een, Hd, W1; reflexivity. }
    assert (SN : stoch_names V d = Ok (map sv_name (d_stoch V (definition m)))).
    { unfold stoch_names; change (d_st_ok V d) with (d_st_ok V (definition m)); rewrite Eso; reflexivity. }
    rewrite SN; cbn [bind].
    change (d_stoch V d) with (d_stoch V (definition m)); rewrite Hsg.
    unfold index_of; rewrite Hd, W3; cbn [bind]; rewrite L2, EN; cbn [bind].
    change (trees (d_exprs V d)) with (trees (d_exprs V (definition m))).
    change (model_scope V d) with (model_scope V (definition m)); rewrite L3, L4, W2, L5.
    exists d; reflexivity.
  Qed.

  (** ** Definitions tracked from the history *)

  Definition tracks (d : mdef V) (m : defs V) : Prop :=
    Forall2 (fun (p : string * bounds V) v => v = new_evar (fst p) (fst (fst (snd p))) (snd (fst (snd p))) (snd (snd p)) (ev_ll v))
      (m_endog V d) (d_endog V m) /\
    mapM (fun p => new_svar V (fst p) (snd p)) (m_stoch V d) = Ok (d_stoch V m) /\
    mapM (fun p => new_dvar V (fst p) (snd p)) (m_determ V d) = Ok (d_determ V m) /\
    (exists c, d_params V m = Cal (Plain (m_params V d)) c /\ solve_calibration V O float_of trunc (m_params V d) = Ok c) /\
    (exists c, d_locals V m = Cal (Plain (m_locals V d)) c /\ solve_calibration V O float_of trunc (m_locals V d) = Ok c) /\
    mapM (parse_given V parse_text) (m_exprs V d) = Ok (trees (d_exprs V m)).

  Lemma tracks_similar d m m' : similar m m' -> tracks d m -> tracks d m'.
  Proof.
    intros S (T1 & T2 & T3 & T4 & T5 & T6).
    destruct (similar_fields _ _ S) as (_ & E1 & _ & E2 & E3 & E4 & E5).
    unfold tracks; rewrite E1, E2, E3, E4, E5; repeat apply conj; auto.
    destruct S as [_ S]; clear - T1 S; revert S; generalize (d_endog V m'); induction T1 as [|p v l l' Hv _ IH]; intros l2 S;
      inversion S; subst; constructor; [|apply IH; assumption].
    rewrite Hv in H1; rewrite H1; unfold Vars.new_evar; cbn [ev_name ev_init ev_term ev_hist ev_ll]; reflexivity.
  Qed.

  Lemma mapM_app {A B} (f : A -> res B) l1 l2 r1 r2 : mapM f l1 = Ok r1 -> mapM f l2 = Ok r2 -> mapM f (l1 ++ l2) = Ok (r1 ++ r2).
  Proof. rewrite !mapM_ok; apply Forall2_app. Qed.

  Lemma set_params_spec ps : forall d c k u, solve_calibration V O float_of trunc d = Ok c ->
    set_params V O float_of trunc ps (Cal (Plain d) c) = (k, Ok u) ->
    let d' := fold_left (fun q p => Base.update (fst p) (snd p) q) ps d in
    exists c', k = Cal (Plain d') c' /\ solve_calibration V O float_of trunc d' = Ok c'.
  Proof.
    induction ps as [|[x p] ps IH]; intros d c k u Hc H; cbn [set_params set_param fold_left fst snd definitions] in *.
    - injection H as <- _; eauto.
    - destruct (solve_calibration V O float_of trunc (Base.update x p d)) as [c'|e] eqn:E; [|discriminate].
      apply (IH _ _ _ _ E H).
  Qed.

  Lemma insert_end {A} (a : A) l : insert_at (List.length l) a l = l ++ [a].
  Proof. induction l as [|b l IH]; [reflexivity|]; cbn [List.length insert_at app]; rewrite IH; reflexivity. Qed.
  Lemma extend_spec gs : forall x y u, extend V parse_text gs x = (y, Ok u) ->
    exists es, mapM (parse_given V parse_text) gs = Ok es /\ trees y = trees x ++ es.
  Proof.
    induction gs as [|g gs IH]; intros x y u H; cbn [extend] in H.
    - injection H as <- _; exists []; rewrite app_nil_r; auto.
    - unfold append, insert in H; destruct (parse_given V parse_text g) as [e|er] eqn:E; [|discriminate].
      apply IH in H as (es & H1 & H2); exists (e :: es); split.
      + cbn [mapM]; rewrite E, H1; reflexivity.
      + rewrite H2; cbn [trees].
        replace (insert_index (List.length (trees x)) (Z.of_nat (List.length (trees x)))) with (List.length (trees x)).
        * rewrite insert_end, <- app_assoc; reflexivity.
        * unfold insert_index; destruct (Z.ltb_spec (Z.of_nat (List.length (trees x))) 0); lia.
  Qed.

  (** One step. *)
  Definition known (d : mdef V) (m : mstate) : Prop := tracks d (definition m).
  Definition current (m : mstate) : Prop :=
    altered m = true \/
    (d_en_ok V (definition m) = true /\ d_st_ok V (definition m) = true /\ consistent m).

  Lemma current_update m m' : current m -> update m = (m', Ok tt) -> current m'.
  Proof.
    intros _ H; destruct (update_spec _ _ _ H) as (_ & _ & S & E).
    destruct (E eq_refl) as (E1 & E2 & E3 & _); right.
    destruct S as [[_ S]|[F _]]; [|congruence].
    destruct (similar_fields _ _ S) as (F1 & _ & F2 & _); rewrite F1, F2; auto.
  Qed.
  Lemma known_update d m m' r : known d m -> update m = (m', r) -> known d m'.
  Proof.
    intros K H; destruct (update_spec _ _ _ H) as (_ & _ & S & _).
    destruct S as [[_ S]|(_ & _ & S)]; apply (tracks_similar d _ _ S K).
  Qed.
  Lemma ensure_spec need m m' r : ensure need m = (m', r) ->
    solution m' = solution m /\ (forall d, known d m -> known d m') /\
    (r = Ok tt -> current m -> current m') /\ (need = true -> r = Ok tt -> altered m' = false /\ exists sg, c_sigma _ _ (derived m') = Some sg) /\
    (need = false -> m' = m /\ r = Ok tt).
  Proof.
    unfold ModelState.ensure; destruct need; intros H.
    - destruct (update_spec _ _ _ H) as (E1 & E2 & _ & E3); repeat apply conj.
      + exact E2.
      + intros d K; apply (known_update d _ _ _ K H).
      + intros ->; intros C; apply (current_update _ _ C H).
      + intros _ E; destruct (E3 E) as (_ & _ & _ & E4); auto.
      + discriminate.
    - injection H as <- <-; repeat apply conj; auto; discriminate.
  Qed.

  Lemma read_ok r m m' v : read r m = (m', v) -> (forall d, known d m -> known d m') /\
    (forall w, v = Ok w -> current m -> current m').
  Proof.
    unfold ModelState.read; destruct (ensure _ m) as [m1 [u|e]] eqn:E; intros H; injection H as <- <-.
    - destruct u; destruct (ensure_spec _ _ _ _ E) as (_ & K & C & _); auto.
    - destruct (ensure_spec _ _ _ _ E) as (_ & K & _); split; [exact K|discriminate].
  Qed.

  Lemma finish_ok lower m m' v : finish lower m = (m', v) -> definition m' = definition m /\ derived m' = derived m /\
    altered m' = altered m /\ (forall d, known d m -> known d m') /\ (current m -> current m') /\
    (forall s, v = Ok s -> solution m' = Some s).
  Proof.
    unfold ModelState.finish; destruct (solver _ _ _ _ _) as [s|e]; intros H; injection H as <- <-; repeat apply conj; auto.
    - intros s' E; injection E as <-; reflexivity.
    - discriminate.
  Qed.
  Lemma solve_one_ok m m' v : solve_one m = (m', v) -> (forall d, known d m -> known d m') /\
    (forall w, v = Ok w -> current m -> current m').
  Proof.
    unfold ModelState.solve_one.
    destruct (ensure (altered m) m) as [m1 [[]|e]] eqn:E1; destruct (ensure_spec _ _ _ _ E1) as (_ & K1 & C1 & _).
    - intros H; destruct (finish_ok _ _ _ _ H) as (_ & _ & _ & K & C & _); auto.
    - intros H; injection H as <- <-; split; [exact K1|discriminate].
  Qed.
  Lemma solve_two_ok m m' v : solve_two m = (m', v) -> (forall d, known d m -> known d m') /\
    (forall w, v = Ok w -> current m -> current m').
  Proof.
    unfold ModelState.solve_two.
    destruct (solve_one m) as [m1 [s1|e]] eqn:E1; destruct (solve_one_ok _ _ _ E1) as (K1 & C1);
      [|intros H; injection H as <- <-; split; [exact K1|discriminate]].
    destruct (ensure _ m1) as [m2 [[]|e]] eqn:E2; destruct (ensure_spec _ _ _ _ E2) as (_ & K2 & C2 & _).
    2:{ intros H; injection H as <- <-; split; [auto|discriminate]. }
    destruct (c_sigma _ _ (derived m2)) as [sg|]; [|intros H; injection H as <- <-; split; [auto|discriminate]].
    intros H; destruct (finish_ok _ _ _ _ H) as (_ & _ & _ & K & C & _); split; [auto|].
    intros w _ H0; apply C, C2; [reflexivity|]; apply (C1 s1 eq_refl H0).
  Qed.
  Lemma solve_ok o m m' v : solve o m = (m', v) -> (forall d, known d m -> known d m') /\
    (forall w, v = Ok w -> current m -> current m').
  Proof.
    unfold ModelState.solve; cbn zeta; destruct (_ =? 1); [apply solve_one_ok|].
    destruct (_ =? 2); [apply solve_two_ok|]; intros H; injection H as <- <-; split; [auto|discriminate].
  Qed.

  Lemma read_solution_ok m m' v : read_solution m = (m', v) -> (forall d, known d m -> known d m') /\
    (forall w, v = Ok w -> current m -> current m').
  Proof.
    unfold ModelState.read_solution; destruct (solution m); [|apply solve_ok].
    intros H; injection H as <- <-; auto.
  Qed.

  Lemma simulate_ok o m m' v : simulate o m = (m', v) -> (forall d, known d m -> known d m') /\
    (forall w, v = Ok w -> current m -> current m').
  Proof.
    unfold ModelState.simulate.
    destruct (if o =? 0 then _ else _) as [m1 [s|e]] eqn:E1.
    - assert (K1 : (forall d, known d m -> known d m1) /\ (current m -> current m1)).
      { destruct (o =? 0).
        - destruct (solution m); [injection E1 as <- _; auto|].
          destruct (solve_ok _ _ _ _ E1) as [K C]; split; [auto|apply (C s eq_refl)].
        - destruct (solve_ok _ _ _ _ E1) as [K C]; split; [auto|apply (C s eq_refl)]. }
      destruct K1 as [K1 C1].
      destruct (update m1) as [m2 [[]|e]] eqn:E2; intros H; injection H as <- <-; split.
      + intros d K; apply (known_update d _ _ _ (K1 d K) E2).
      + intros w _ C; apply (current_update _ _ (C1 C) E2).
      + intros d K; apply (known_update d _ _ _ (K1 d K) E2).
      + discriminate.
    - intros H; injection H as <- <-; split; [|discriminate].
      destruct (o =? 0); [destruct (solution m); [discriminate|]|]; exact (proj1 (solve_ok _ _ _ _ E1)).
  Qed.

  Lemma ok_with_eq {A} (f : A -> out V space_t sol_t) p m' v : ok_with V space_t sol_t f p = (m', v) ->
    fst p = m' /\ (forall w, v = Ok w -> exists a, snd p = Ok a /\ w = f a) /\ (forall e, v = Err e -> snd p = Err e).
  Proof.
    unfold ok_with; destruct p as [q [a|e]]; cbn [fst snd bind]; intros H; injection H as <- <-; repeat apply conj; auto.
    - intros w E; injection E as <-; eauto.
    - discriminate.
    - discriminate.
    - intros e' E; injection E as <-; reflexivity.
  Qed.

  Lemma create_stated (f : string -> shockdef V -> res (svar V)) ns sh dflt :
    mapM (fun x => f x (match lookup x sh with Some d => d | None => dflt end)) ns =
    mapM (fun p => f (fst p) (snd p)) (map (stated_or V sh dflt) ns).
  Proof. induction ns as [|x ns IH]; [reflexivity|]; cbn [mapM map stated_or fst snd]; rewrite IH; reflexivity. Qed.
  Lemma create_stated' (f : string -> shockdef V -> res (dvar V)) ns sh dflt :
    mapM (fun x => f x (match lookup x sh with Some d => d | None => dflt end)) ns =
    mapM (fun p => f (fst p) (snd p)) (map (stated_or V sh dflt) ns).
  Proof. induction ns as [|x ns IH]; [reflexivity|]; cbn [mapM map stated_or fst snd]; rewrite IH; reflexivity. Qed.

  Lemma step_ok o m m' v : step o m = (m', v) ->
    (forall d, known d m -> (addition V o -> exists w, v = Ok w) -> known (effect o d) m') /\
    (forall w, v = Ok w -> addition V o -> current m') /\
    (forall w, v = Ok w -> current m -> current m').
  Proof.
    destruct o as [ns i t h|ps|gs|ns sh|ns sh|r|o| |o]; unfold ModelState.step; intros H;
      destruct (ok_with_eq _ _ _ _ H) as (E & W & F); clear H.
    - cbn [add_endog fst] in E; subst m'; repeat apply conj; [|intros; left; reflexivity|intros; left; reflexivity].
      intros d (T1 & T2 & T3 & T4 & T5 & T6) _; unfold known, tracks, alter;
        cbn [ModelState.definition d_endog d_stoch d_determ d_params d_locals d_exprs ModelStateSpec.effect m_endog m_stoch m_determ m_params m_locals m_exprs].
      repeat apply conj; auto; apply Forall2_app; [exact T1|].
      clear; induction ns as [|x ns IH]; [constructor|]; cbn [map]; constructor; [reflexivity|exact IH].
    - unfold add_params in *; destruct (set_params V O float_of trunc ps (d_params V (definition m))) as [k q] eqn:Ek.
      cbn [fst snd] in *; repeat apply conj.
      + intros d (T1 & T2 & T3 & (c & P1 & P2) & T5 & T6) A.
        destruct q as [u|e]; [|destruct (A I) as (w & ->); destruct (W w eq_refl) as (a & W1 & _); discriminate].
        rewrite P1 in Ek; destruct (set_params_spec _ _ _ _ _ P2 Ek) as (c' & K1 & K2).
        subst m'; unfold known, tracks, alter;
          cbn [ModelState.definition d_endog d_stoch d_determ d_params d_locals d_exprs ModelStateSpec.effect m_endog m_stoch m_determ m_params m_locals m_exprs].
        repeat apply conj; auto; exists c'; split; [exact K1|exact K2].
      + intros w -> _; destruct (W w eq_refl) as (a & W1 & _); rewrite W1 in E; subst m'; left; reflexivity.
      + intros w -> _; destruct (W w eq_refl) as (a & W1 & _); rewrite W1 in E; subst m'; left; reflexivity.
    - unfold add_exprs in *; destruct (extend V parse_text gs (d_exprs V (definition m))) as [k q] eqn:Ek.
      cbn [fst snd] in *; repeat apply conj.
      + intros d (T1 & T2 & T3 & T4 & T5 & T6) A.
        destruct q as [u|e]; [|destruct (A I) as (w & ->); destruct (W w eq_refl) as (a & W1 & _); discriminate].
        destruct (extend_spec _ _ _ _ Ek) as (es & X1 & X2).
        subst m'; unfold known, tracks, alter;
          cbn [ModelState.definition d_endog d_stoch d_determ d_params d_locals d_exprs ModelStateSpec.effect m_endog m_stoch m_determ m_params m_locals m_exprs].
        repeat apply conj; auto; rewrite X2; apply mapM_app; assumption.
      + intros w -> _; destruct (W w eq_refl) as (a & W1 & _); rewrite W1 in E; subst m'; left; reflexivity.
      + intros w -> _; destruct (W w eq_refl) as (a & W1 & _); rewrite W1 in E; subst m'; left; reflexivity.
    - unfold add_stoch in *; destruct (create_stoch V one ns sh) as [new|e] eqn:En; cbn [fst snd] in *.
      + subst m'; repeat apply conj; [|intros; left; reflexivity|intros; left; reflexivity].
        intros d (T1 & T2 & T3 & T4 & T5 & T6) _; unfold known, tracks, alter;
          cbn [ModelState.definition d_endog d_stoch d_determ d_params d_locals d_exprs ModelStateSpec.effect m_endog m_stoch m_determ m_params m_locals m_exprs].
        repeat apply conj; auto; apply mapM_app; [exact T2|].
        unfold create_stoch in En; rewrite create_stated in En; exact En.
      + assert (N : forall w, v = Ok w -> False) by (intros w ->; destruct (W w eq_refl) as (a & W1 & _); discriminate).
        repeat apply conj.
        * intros d _ A; destruct (A I) as (w & Hw); destruct (N w Hw).
        * intros w Hw; destruct (N w Hw).
        * intros w Hw; destruct (N w Hw).
    - unfold add_determ in *; destruct (create_determ V one ns sh) as [new|e] eqn:En; cbn [fst snd] in *.
      + subst m'; repeat apply conj; [|intros; left; reflexivity|intros; left; reflexivity].
        intros d (T1 & T2 & T3 & T4 & T5 & T6) _; unfold known, tracks, alter;
          cbn [ModelState.definition d_endog d_stoch d_determ d_params d_locals d_exprs ModelStateSpec.effect m_endog m_stoch m_determ m_params m_locals m_exprs].
        repeat apply conj; auto; apply mapM_app; [exact T3|].
        unfold create_determ in En; rewrite create_stated' in En; exact En.
      + assert (N : forall w, v = Ok w -> False) by (intros w ->; destruct (W w eq_refl) as (a & W1 & _); discriminate).
        repeat apply conj.
        * intros d _ A; destruct (A I) as (w & Hw); destruct (N w Hw).
        * intros w Hw; destruct (N w Hw).
        * intros w Hw; destruct (N w Hw).
    - destruct (read r m) as [m1 q] eqn:Er; cbn [fst snd] in *; subst m1.
      destruct (read_ok _ _ _ _ Er) as [K C]; repeat apply conj; [intros d D _; apply K; exact D|intros w _ []|].
      intros w Hw; destruct (W w Hw) as (a & W1 & _); exact (C a W1).
    - destruct (solve o m) as [m1 q] eqn:Er; cbn [fst snd] in *; subst m1.
      destruct (solve_ok _ _ _ _ Er) as [K C]; repeat apply conj; [intros d D _; apply K; exact D|intros w _ []|].
      intros w Hw; destruct (W w Hw) as (a & W1 & _); exact (C a W1).
    - destruct (read_solution m) as [m1 q] eqn:Er; cbn [fst snd] in *; subst m1.
      destruct (read_solution_ok _ _ _ Er) as [K C]; repeat apply conj; [intros d D _; apply K; exact D|intros w _ []|].
      intros w Hw; destruct (W w Hw) as (a & W1 & _); exact (C a W1).
    - destruct (simulate o m) as [m1 q] eqn:Er; cbn [fst snd] in *; subst m1.
      destruct (simulate_ok _ _ _ _ Er) as [K C]; repeat apply conj; [intros d D _; apply K; exact D|intros w _ []|].
      intros w Hw; destruct (W w Hw) as (a & W1 & _); exact (C a W1).
  Qed.

  (** ** Histories *)

  Lemma addition_dec o : addition V o \/ ~ addition V o.
  Proof. destruct o; cbn [addition]; auto. Qed.

  Lemma run_known os : forall d m m' l, known d m -> run os m = (m', l) -> additions_made V space_t sol_t l -> known (effects os d) m'.
  Proof.
    induction os as [|o os IH]; intros d m m' l K H A; cbn [ModelState.run] in H.
    - injection H as <- <-; exact K.
    - destruct (step o m) as [m1 r] eqn:E1; destruct (run os m1) as [m2 l2] eqn:E2; injection H as <- <-.
      unfold ModelStateSpec.effects; cbn [fold_left]; apply (IH _ m1 m2 l2); [|exact E2|].
      + destruct (step_ok _ _ _ _ E1) as (S1 & _); apply S1; [exact K|].
        intros Ha; destruct r as [w|e]; [eauto|]; exfalso; apply (A o e); [left; reflexivity|exact Ha].
      + intros o' e Hin; apply (A o' e); right; exact Hin.
  Qed.

  Lemma run_current os : forall m m' l, run os m = (m', l) -> additions_made V space_t sol_t l ->
    (current m \/ exists o r, In (o, r) l /\ addition V o) -> repaired V space_t sol_t l -> current m'.
  Proof.
    induction os as [|o os IH]; intros m m' l H A C R; cbn [ModelState.run] in H.
    - injection H as <- <-; destruct C as [C|(o & r & [] & _)]; exact C.
    - destruct (step o m) as [m1 r] eqn:E1; destruct (run os m1) as [m2 l2] eqn:E2; injection H as <- <-.
      destruct (step_ok _ _ _ _ E1) as (_ & S2 & S3).
      apply (IH m1 m2 l2 E2).
      + intros o' e Hin; apply (A o' e); right; exact Hin.
      + destruct r as [w|e].
        * destruct (addition_dec o) as [Ha|Ha]; [left; apply (S2 w eq_refl Ha)|].
          destruct C as [C|(o' & r' & [E|Hin] & Ha')]; [left; apply (S3 w eq_refl C)|injection E as <- _; contradiction|right; eauto].
        * right; apply (R [] o e l2); reflexivity.
      + intros l1 o' e l3 ->; apply (R ((o, r) :: l1) o' e l3); reflexivity.
  Qed.

  (** ** Building from scratch *)

  Lemma nonzero_names ns : ~ In ""%string ns -> (if nonzero ns then ns else []) = ns.
  Proof.
    destruct ns as [|x ns]; [reflexivity|]; intros H; unfold nonzero; cbn [forallb].
    destruct (String.eqb_spec "" x) as [E|E]; [destruct H; left; auto|reflexivity].
  Qed.
  Lemma nonzero_res {A} (f : list string -> res (list A)) ns : ~ In ""%string ns -> f [] = Ok [] -> (if nonzero ns then f ns else Ok []) = f ns.
  Proof.
    destruct ns as [|x ns]; [cbn; auto|]; intros H _; unfold nonzero; cbn [forallb].
    destruct (String.eqb_spec "" x) as [E|E]; [destruct H; left; auto|reflexivity].
  Qed.

  Lemma create_stoch_described sh l : (forall x s, In (x, s) l -> described V sh (default_stoch V one) x s) ->
    create_stoch V one (map fst l) sh = mapM (fun p => new_svar V (fst p) (snd p)) l.
  Proof.
    unfold create_stoch; induction l as [|[x s] l IH]; intros H; [reflexivity|].
    cbn [map fst snd mapM]; rewrite IH by (intros y s' Hy; apply H; right; exact Hy).
    destruct (H x s (or_introl eq_refl)) as [->|[-> ->]]; reflexivity.
  Qed.
  Lemma create_determ_described sh l : (forall x s, In (x, s) l -> described V sh (default_determ V one) x s) ->
    create_determ V one (map fst l) sh = mapM (fun p => new_dvar V (fst p) (snd p)) l.
  Proof.
    unfold create_determ; induction l as [|[x s] l IH]; intros H; [reflexivity|].
    cbn [map fst snd mapM]; rewrite IH by (intros y s' Hy; apply H; right; exact Hy).
    destruct (H x s (or_introl eq_refl)) as [->|[-> ->]]; reflexivity.
  Qed.
  Lemma create_endog_described (l : list (string * bounds V)) ini ter his lls :
    (forall x i t h, In (x, (i, t, h)) l -> lookup x ini = i /\ lookup x ter = t /\ lookup x his = h) ->
    create_endog V zero truthy (map fst l) ini ter his lls =
    map (fun p => new_evar (fst p) (fst (fst (snd p))) (snd (fst (snd p))) (snd (snd p)) (lookup (fst p) lls)) l.
  Proof.
    unfold create_endog; induction l as [|[x [[i t] h]] l IH]; intros H; [reflexivity|].
    cbn [map fst snd]; rewrite IH by (intros y i' t' h' Hy; apply H; right; exact Hy).
    destruct (H x i t h (or_introl eq_refl)) as (-> & -> & ->); reflexivity.
  Qed.

  Lemma index_lookup (l : list (string * bounds V)) lls : map fst lls = map fst l -> NoDup (map fst l) ->
    mapM (fun v => match ev_ll v with Some ps => Ok (ev_name v, ps) | None => Err TypeErr end)
      (map (fun p => new_evar (fst p) (fst (fst (snd p))) (snd (fst (snd p))) (snd (snd p)) (lookup (fst p) lls)) l) = Ok lls.
  Proof.
    intros H N; apply mapM_ok; rewrite <- H in N.
    assert (G : forall pre l lls', map fst lls' = map fst l -> lls = pre ++ lls' ->
      Forall2 (fun a b => (match ev_ll a with Some ps => Ok (ev_name a, ps) | None => Err TypeErr end) = Ok b)
        (map (fun p : string * bounds V => new_evar (fst p) (fst (fst (snd p))) (snd (fst (snd p))) (snd (snd p)) (lookup (fst p) lls)) l) lls').
    { clear H l; intros pre l; revert pre; induction l as [|[x b] l IH]; intros pre [|[y ps] lls'] H E; try discriminate H; [constructor|].
      cbn [map fst] in H; injection H as H1 H2; subst y; cbn [map fst snd]; constructor.
      - cbn [Vars.new_evar ev_ll ev_name]; rewrite (lookup_In x ps lls); [reflexivity|exact N|].
        rewrite E; apply in_or_app; right; left; reflexivity.
      - apply (IH (pre ++ [(x, ps)])); [exact H2|rewrite E, <- app_assoc; reflexivity]. }
    apply (G [] l lls H eq_refl).
  Qed.

  Lemma new_evar_name x i t h ll : ev_name (new_evar x i t h ll) = x. Proof. reflexivity. Qed.
  Lemma new_evar_init x i t h ll ll' : ev_init (new_evar x i t h ll) = ev_init (new_evar x i t h ll'). Proof. reflexivity. Qed.

  Lemma tracks_names d m : tracks d m -> map ev_name (d_endog V m) = map fst (m_endog V d).
  Proof.
    intros (T & _); induction T as [|p v l l' Hv _ IH]; [reflexivity|]; cbn [map]; rewrite IH, Hv; reflexivity.
  Qed.
  Lemma tracks_inits d m : tracks d m -> map ev_init (d_endog V m) =
    map (fun p => ev_init (new_evar (fst p) (fst (fst (snd p))) (snd (fst (snd p))) (snd (snd p)) None)) (m_endog V d).
  Proof.
    intros (T & _); induction T as [|p v l l' Hv _ IH]; [reflexivity|]; cbn [map]; rewrite IH, Hv; reflexivity.
  Qed.

  (** The model built from a description. *)
  Lemma new_model_known d a m : describes V one d a -> distinct V d -> new_model a = Ok m ->
    known d m /\ altered m = false /\ solution m = None /\ d_en_ok V (definition m) = true /\ d_st_ok V (definition m) = true /\
    consistent m /\ c_sigma _ _ (derived m) = None.
  Proof.
    intros D (N1 & N2 & N3 & N4) H.
    assert (N5 : ~ In ""%string (map fst (m_stoch V d))) by (intros X; apply N4; apply in_or_app; auto).
    assert (N6 : ~ In ""%string (map fst (m_determ V d))) by (intros X; apply N4; apply in_or_app; auto).
    destruct (de_exprs V one d a D) as (b & Dx).
    unfold ModelState.new_model in H; cbn zeta in H.
    rewrite (de_endog V one d a D), (de_stoch V one d a D), (de_determ V one d a D), (de_params V one d a D), (de_locals V one d a D), Dx in H.
    rewrite (nonzero_names _ N3) in H.
    rewrite (nonzero_res (fun ns => create_stoch V one ns (g_shocks V a)) _ N5 eq_refl) in H.
    rewrite (nonzero_res (fun ns => create_determ V one ns (g_shocks V a)) _ N6 eq_refl) in H.
    rewrite (create_stoch_described _ _ (de_shocks V one d a D)), (create_determ_described _ _ (de_dshocks V one d a D)) in H.
    apply bind_ok in H as (lc & Hlc & H); apply bind_ok in Hlc as (cl & Hcl & E); injection E as <-.
    apply bind_ok in H as (pc & Hpc & H); apply bind_ok in Hpc as (cp & Hcp & E); injection E as <-.
    apply bind_ok in H as (ex & Hex & H); cbn [make_exprs] in Hex.
    apply bind_ok in Hex as (ts & Hts & E); injection E as <-; cbn [trees] in H.
    apply bind_ok in H as (lls & Hll & H); apply bind_ok in H as (st & Hst & H).
    apply bind_ok in H as (stoch & Hstoch & H); apply bind_ok in H as (determ & Hdeterm & H).
    apply bind_ok in H as (x & Hx & H); apply bind_ok in H as (dy & Hdy & H); apply bind_ok in H as (sp & Hsp & H).
    rewrite (create_endog_described _ _ _ _ lls (de_bounds V one d a D)) in *.
    pose proof (lls_names _ _ _ Hll) as Hn.
    unfold index_of in Hx; rewrite (index_lookup _ _ Hn N1) in Hx; cbn [bind] in Hx.
    injection H as <-; cbn [ModelState.altered ModelState.solution ModelState.definition ModelState.derived d_en_ok d_st_ok c_sigma].
    set (en := map (fun p => new_evar (fst p) (fst (fst (snd p))) (snd (fst (snd p))) (snd (snd p)) (lookup (fst p) lls)) (m_endog V d)) in *.
    assert (T : known d (MState V space_t sol_t (Defs V en true stoch true determ (Cal (Plain (m_params V d)) cp) (Cal (Plain (m_locals V d)) cl)
                  (MExprs ts (if b then [] else map (text_of V) (m_exprs V d)))) (Cache V space_t x st dy sp None) false None)).
    { unfold known, tracks; cbn [ModelState.definition d_endog d_stoch d_determ d_params d_locals d_exprs trees].
      repeat apply conj; eauto.
      subst en; clear; induction (m_endog V d) as [|p l IH]; [constructor|]; cbn [map]; constructor; [reflexivity|exact IH]. }
    split; [exact T|]; repeat apply conj; try reflexivity; [|discriminate].
    cbn [ModelState.definition ModelState.derived c_index c_steady c_dynamic c_space c_sigma].
    unfold fresh_of; cbn [d_endog d_stoch d_exprs trees].
    exists lls; rewrite (tracks_names d _ T : map ev_name en = _); repeat apply conj; auto.
  Qed.

  Lemma new_model_total d a m x st dy sp : describes V one d a -> distinct V d -> tracks d m ->
    fresh_of m x st dy sp ->
    exists m1, new_model a = Ok m1 /\ derived m1 = Cache V space_t x st dy sp None.
  Proof.
    intros D (N1 & N2 & N3 & N4) T (lls & F1 & F2 & F3 & F4 & F5).
    assert (N5 : ~ In ""%string (map fst (m_stoch V d))) by (intros X; apply N4; apply in_or_app; auto).
    assert (N6 : ~ In ""%string (map fst (m_determ V d))) by (intros X; apply N4; apply in_or_app; auto).
    destruct (de_exprs V one d a D) as (b & Dx).
    pose proof (tracks_names _ _ T) as HN; pose proof (tracks_inits _ _ T) as HI.
    destruct T as (_ & T2 & T3 & (cp & P1 & P2) & (cl & L1 & L2) & T6).
    unfold model_scope in F3, F4; rewrite P1, L1 in F3, F4; cbn [solved] in F3, F4.
    unfold ModelState.new_model; cbn zeta.
    rewrite (de_endog V one d a D), (de_stoch V one d a D), (de_determ V one d a D), (de_params V one d a D), (de_locals V one d a D), Dx.
    rewrite (nonzero_names _ N3).
    rewrite (nonzero_res (fun ns => create_stoch V one ns (g_shocks V a)) _ N5 eq_refl).
    rewrite (nonzero_res (fun ns => create_determ V one ns (g_shocks V a)) _ N6 eq_refl).
    rewrite (create_stoch_described _ _ (de_shocks V one d a D)), (create_determ_described _ _ (de_dshocks V one d a D)).
    unfold new_calibration; cbn [definitions]; rewrite L2, P2; cbn [bind make_exprs].
    unfold new_exprs; rewrite T6; cbn [bind trees solved].
    rewrite HN in F1, F3, F4; rewrite F1; cbn [bind]; rewrite F3; cbn [bind]; rewrite T2; cbn [bind]; rewrite T3; cbn [bind].
    rewrite (create_endog_described _ _ _ _ lls (de_bounds V one d a D)).
    pose proof (lls_names _ _ _ F1) as Hn.
    unfold index_of; rewrite (index_lookup _ _ Hn N1); cbn [bind]; rewrite F2; cbn [bind]; rewrite F4; cbn [bind].
    assert (F6 : space (map ev_init (map (fun p : string * bounds V => new_evar (fst p) (fst (fst (snd p))) (snd (fst (snd p))) (snd (snd p))
              (lookup (fst p) lls)) (m_endog V d))) st dy = Ok sp) by (rewrite HI in F5; rewrite map_map; exact F5).
    unfold bounds in *; rewrite F6.
    cbn [bind]; eexists; split; reflexivity.
  Qed.
End Proofs.
