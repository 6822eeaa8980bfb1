(** Properties C30, C31, C33, C52 and C60: what a model shows after any history. *)
From Verif Require Import Base Syntax Lexer Parser Eval Semantics Factory Calib CalibSpec Indexing DynFunc Vars ExprList
  IndexingSpec IndexingProofs CalibProofs PropParser PropFile
  ModelState ModelStateSpec ModelStateProofs ModelStateProofs2 ModelStateProofs3.

Section Properties.
  (** Everything numerical is arbitrary. *)
  Variable V : Type.
  Variable O : ops V.
  Variable zero one : V.
  Variable truthy isnum : V -> bool.
  Variable float_of : text -> option V.
  Variable trunc : V -> option Z.
  Variable parse_text : text -> res (ast V).
  Variable keeps : bool.
  Variable default_locals : store V.
  Variable space_t sol_t : Type.
  Variable space : list (option V) -> steady_repr V -> repr V -> res space_t.
  Variable solver : option (sol_t * matrix V) -> list (option V) -> steady_repr V -> repr V -> space_t -> res sol_t.

  Notation new_model := (ModelState.new_model V O zero one truthy float_of trunc parse_text space_t sol_t space).
  Notation step := (ModelState.step V O zero one truthy isnum float_of trunc parse_text keeps space_t sol_t space solver).
  Notation run := (ModelState.run V O zero one truthy isnum float_of trunc parse_text keeps space_t sol_t space solver).
  Notation effects := (ModelStateSpec.effects V one).
  Notation describes := (ModelStateSpec.describes V one).
  Notation copy := (ModelState.copy V O zero one truthy float_of trunc parse_text default_locals space_t sol_t space).
  Notation definition := (ModelState.definition V space_t sol_t).

  Lemma start d a m : describes d a -> distinct V d -> new_model a = Ok m ->
    known V O zero truthy float_of trunc parse_text space_t sol_t d m /\ current V O zero isnum space_t sol_t space m /\
    intact V space_t sol_t m /\ solution V space_t sol_t m = None.
  Proof.
    intros D N H.
    destruct (new_model_known V O zero one truthy isnum float_of trunc parse_text space_t sol_t space d a m D N H) as (K & _ & S & E1 & E2 & C & _).
    split; [exact K|]; split; [right; auto|]; split; [split; assumption|exact S].
  Qed.

  Lemma NoDup_front {A} (l1 l2 : list A) : NoDup (l1 ++ l2) -> NoDup l1.
  Proof.
    induction l1 as [|a l1 IH]; intros H; [constructor|]; inversion H as [|? ? H1 H2]; subst; constructor; auto.
    intros X; apply H1; apply in_or_app; auto.
  Qed.
  Lemma distinct_effect o d : distinct V (effect V one o d) -> distinct V d.
  Proof.
    destruct o as [ns i t h|ps|gs|ns sh|ns sh|r|o| |o]; cbn [effect]; auto;
      unfold distinct; cbn [m_endog m_stoch m_determ]; rewrite ?map_app; intros (A & B & C & E); repeat apply conj; auto.
    - apply NoDup_front in A; exact A.
    - intros X; apply C; apply in_or_app; auto.
    - rewrite <- app_assoc in B; clear - B.
      induction (map fst (m_stoch V d)) as [|a l IH]; cbn [app] in *.
      + apply (NoDup_rev) in B; rewrite rev_app_distr in B; apply NoDup_front in B; apply NoDup_rev in B; rewrite rev_involutive in B; exact B.
      + inversion B as [|? ? B1 B2]; subst; constructor; [|apply IH; exact B2].
        intros X; apply B1; apply in_app_or in X as [X|X]; apply in_or_app; [auto|right; apply in_or_app; auto].
    - intros X; apply E; apply in_app_or in X as [X|X]; apply in_or_app; [left; apply in_or_app; auto|auto].
    - rewrite app_assoc in B; apply NoDup_front in B; exact B.
    - intros X; apply E; apply in_app_or in X as [X|X]; apply in_or_app; [auto|right; apply in_or_app; auto].
  Qed.
  Lemma distinct_effects os : forall d, distinct V (effects os d) -> distinct V d.
  Proof.
    induction os as [|o os IH]; intros d H; [exact H|]; unfold ModelStateSpec.effects in *; cbn [fold_left] in H.
    apply (distinct_effect o), IH, H.
  Qed.

  (** C30. A model is built and then added to, read, solved and simulated in any way;
      no addition raised, and whatever raised was followed by an addition.  Then a
      reading that succeeds gives what a model built from scratch with the current
      definitions gives.  Missing: see the refutations. *)
  Theorem C30_additions_count_partial :
    forall d a m0 os m l r m' v,
      describes d a -> new_model a = Ok m0 -> run os m0 = (m, l) ->
      additions_made V space_t sol_t l -> repaired V space_t sol_t l ->
      distinct V (effects os d) ->
      step (Read r) m = (m', Ok v) ->
      forall a', describes (effects os d) a' ->
      exists m1 m2, new_model a' = Ok m1 /\ step (Read r) m1 = (m2, Ok v).
  Proof.
    intros d a m0 os m l r m' v D H R A P N S a' D'.
    destruct (start d a m0 D (distinct_effects os d N) H) as (K & C & _ & _).
    pose proof (run_known V O zero one truthy isnum float_of trunc parse_text keeps space_t sol_t space solver os d m0 m l K R A) as K'.
    pose proof (run_current V O zero one truthy isnum float_of trunc parse_text keeps space_t sol_t space solver os m0 m l R A (or_introl C) P) as C'.
    unfold ModelState.step, ok_with in *.
    destruct (read V O zero isnum space_t sol_t space r m) as [m3 [w|e]] eqn:E; cbn [fst snd bind] in S; [|discriminate].
    injection S as <- <-.
    destruct (read_scratch V O zero one truthy isnum float_of trunc parse_text space_t sol_t space r _ a' m m3 w D' N K' C' E) as (m1 & m2 & E1 & E2).
    exists m1, m2; split; [exact E1|]; rewrite E2; reflexivity.
  Qed.

  (** If numpy kept the class of the arrays, the converse would hold too: when a model
      built from scratch has its structures and covariance matrix, the reading
      succeeds. *)
  Theorem C30_additions_read :
    keeps = true ->
    forall d a m0 os m l r a' m1 m2 sg,
      describes d a -> new_model a = Ok m0 -> run os m0 = (m, l) ->
      additions_made V space_t sol_t l -> repaired V space_t sol_t l ->
      distinct V (effects os d) ->
      describes (effects os d) a' -> new_model a' = Ok m1 -> step (Read RSigma) m1 = (m2, Ok (OValue (VSigma sg))) ->
      exists m' v m1', step (Read r) m = (m', Ok v) /\ step (Read r) m1 = (m1', Ok v).
  Proof.
    intros Hk d a m0 os m l r a' m1 m2 sg D H R A P N D' H1 S.
    destruct (start d a m0 D (distinct_effects os d N) H) as (K & C & I & _).
    pose proof (run_known V O zero one truthy isnum float_of trunc parse_text keeps space_t sol_t space solver os d m0 m l K R A) as K'.
    pose proof (run_current V O zero one truthy isnum float_of trunc parse_text keeps space_t sol_t space solver os m0 m l R A (or_introl C) P) as C'.
    pose proof (intact_run V O zero one truthy isnum float_of trunc parse_text keeps space_t sol_t space solver os Hk m0 m l R I) as I'.
    unfold ModelState.step, ok_with in *.
    destruct (read V O zero isnum space_t sol_t space RSigma m1) as [m3 [w|e]] eqn:E; cbn [fst snd bind] in S; [|discriminate].
    injection S as <- ->.
    destruct (scratch_to_read V O zero one truthy isnum float_of trunc parse_text space_t sol_t space r _ a' m m1 m3 sg D' N K' C' I' H1 E)
      as (m' & v & m1' & E1 & E2).
    exists m', (OValue v), m1'; rewrite E1, E2; split; reflexivity.
  Qed.

  (** What the structures are made of: the variables and shocks by name, the equations as
      they are parsed, in order of definition. *)
  Theorem C30_structures :
    forall d a m0 os m l,
      describes d a -> new_model a = Ok m0 -> run os m0 = (m, l) ->
      additions_made V space_t sol_t l -> repaired V space_t sol_t l -> distinct V (effects os d) ->
      let D := effects os d in
      (forall m' st, step (Read RSteady) m = (m', Ok (OValue (VSteady st))) ->
         s_endog V st = map fst (m_endog V D) /\ mapM (parse_given V parse_text) (m_exprs V D) = Ok (s_exprs V st)) /\
      (forall m' dy, step (Read RDynamic) m = (m', Ok (OValue (VDynamic dy))) ->
         r_endog V dy = map fst (m_endog V D) /\ r_stoch V dy = map fst (m_stoch V D) /\
         mapM (parse_given V parse_text) (m_exprs V D) = Ok (r_exprs V dy) /\
         exists m2 st, step (Read RSteady) m = (m2, Ok (OValue (VSteady st))) /\ r_params V dy = s_params V st) /\
      (forall m' dy, step (Read RDynamic) m = (m', Ok (OValue (VDynamic dy))) ->
         snd (step (Read RIndexes) m) = Ok (OValue (VIndexes (r_index V dy)))).
  Proof.
    intros d a m0 os m l D0 H R A P N D.
    destruct (start d a m0 D0 (distinct_effects os d N) H) as (K & C & _ & _).
    pose proof (run_known V O zero one truthy isnum float_of trunc parse_text keeps space_t sol_t space solver os d m0 m l K R A) as K'.
    pose proof (run_current V O zero one truthy isnum float_of trunc parse_text keeps space_t sol_t space solver os m0 m l R A (or_introl C) P) as C'.
    assert (G : forall r m' v, step (Read r) m = (m', Ok v) -> r <> RSigma ->
      exists x st dy sp, read V O zero isnum space_t sol_t space RIndexes m = (m', Ok (VIndexes x)) /\
        read V O zero isnum space_t sol_t space RSteady m = (m', Ok (VSteady st)) /\ read V O zero isnum space_t sol_t space RDynamic m = (m', Ok (VDynamic dy)) /\
        (r = RIndexes -> v = OValue (VIndexes x)) /\ (r = RSteady -> v = OValue (VSteady st)) /\ (r = RDynamic -> v = OValue (VDynamic dy)) /\
        tracks V O zero truthy float_of trunc parse_text D (definition m') /\ fresh_of V space_t space (definition m') x st dy sp).
    { intros r m' v S Hr; unfold ModelState.step, ok_with in S.
      destruct (read V O zero isnum space_t sol_t space r m) as [m3 [w|e]] eqn:E; cbn [fst snd bind] in S; [|discriminate].
      injection S as <- <-.
      pose proof (proj1 (read_ok V O zero truthy isnum float_of trunc parse_text space_t sol_t space _ _ _ _ E) _ K') as K3.
      destruct (read_current V O zero truthy isnum float_of trunc parse_text space_t sol_t space _ _ _ _ C' E) as (x & st & dy & sp & F & E').
      assert (Q : forall r', r' <> RSigma -> exists w', read V O zero isnum space_t sol_t space r' m = (m3, Ok w')).
      { intros r' Hr'; unfold ModelState.read in E |- *.
        destruct r, r'; try contradiction; destruct (ModelState.ensure V O zero isnum space_t sol_t space _ m) as [m4 [u|e]]; try discriminate;
          injection E as <- _; eexists; reflexivity. }
      assert (Q' : forall r', r' <> RSigma -> exists w', read V O zero isnum space_t sol_t space r' m = (m3, Ok w') /\
                   reading_of V O zero isnum space_t r' (d_stoch V (definition m3)) x st dy sp w').
      { intros r' Hr'; destruct (Q r' Hr') as (w' & E2); exists w'; split; [exact E2|].
        destruct (read_current V O zero truthy isnum float_of trunc parse_text space_t sol_t space _ _ _ _ C' E2) as (x2 & st2 & dy2 & sp2 & F2 & E2').
        destruct (fresh_fun V space_t space _ _ _ _ _ _ _ _ _ _ _ _ _ F F2) as (-> & -> & -> & ->); exact E2'. }
      destruct (Q' RIndexes ltac:(discriminate)) as (w1 & A1 & A1'); destruct (Q' RSteady ltac:(discriminate)) as (w2 & A2 & A2');
        destruct (Q' RDynamic ltac:(discriminate)) as (w3 & A3 & A3'); cbn [reading_of] in A1', A2', A3'; subst w1 w2 w3.
      exists x, st, dy, sp; split; [exact A1|]; split; [exact A2|]; split; [exact A3|]; split; [intros ->; congruence|]; split; [intros ->; congruence|]; split; [intros ->; congruence|]; split; [exact K3|exact F]. }
    assert (T : forall m' x st dy sp, tracks V O zero truthy float_of trunc parse_text D (definition m') -> fresh_of V space_t space (definition m') x st dy sp ->
      s_endog V st = map fst (m_endog V D) /\ mapM (parse_given V parse_text) (m_exprs V D) = Ok (s_exprs V st) /\
      r_endog V dy = map fst (m_endog V D) /\ r_stoch V dy = map fst (m_stoch V D) /\
      mapM (parse_given V parse_text) (m_exprs V D) = Ok (r_exprs V dy) /\ r_params V dy = s_params V st /\ r_index V dy = x).
    { intros m' x st dy sp T (lls & _ & _ & F1 & F2 & _).
      pose proof (tracks_names V O zero truthy float_of trunc parse_text _ _ T) as HN; pose proof (tracks_stoch_names V O zero truthy float_of trunc parse_text _ _ T) as HS.
      destruct T as (_ & _ & _ & _ & _ & T6).
      unfold new_steady in F1; apply bind_ok in F1 as (u & _ & F1); injection F1 as <-.
      unfold new_dynamic in F2; apply bind_ok in F2 as (u2 & _ & F2); injection F2 as <-.
      cbn [s_endog s_exprs s_params r_endog r_stoch r_exprs r_params r_index]; repeat apply conj; auto. }
    split; [|split].
    - intros m' st S; destruct (G RSteady m' _ S ltac:(discriminate)) as (x & st' & dy & sp & _ & _ & _ & _ & E & _ & T' & F).
      specialize (E eq_refl); injection E as <-; destruct (T _ _ _ _ _ T' F) as (? & ? & _); auto.
    - intros m' dy S; destruct (G RDynamic m' _ S ltac:(discriminate)) as (x & st & dy' & sp & _ & Rs & _ & _ & _ & E & T' & F).
      specialize (E eq_refl); injection E as <-; destruct (T _ _ _ _ _ T' F) as (_ & _ & ? & ? & ? & ? & _); repeat apply conj; auto.
      exists m', st; split; [unfold ModelState.step, ok_with; rewrite Rs; reflexivity|assumption].
    - intros m' dy S; destruct (G RDynamic m' _ S ltac:(discriminate)) as (x & st & dy' & sp & Ri & _ & _ & _ & _ & E & T' & F).
      specialize (E eq_refl); injection E as <-; destruct (T _ _ _ _ _ T' F) as (_ & _ & _ & _ & _ & _ & ->).
      unfold ModelState.step, ok_with; rewrite Ri; reflexivity.
  Qed.

  (** An addition that raises is not shown: the structures remain those of before. *)
  Theorem C30_failed_additions :
    forall o m m1 e r, addition V o -> step o m = (m1, Err e) -> altered V space_t sol_t m = false -> r <> RSigma ->
      snd (step (Read r) m1) = snd (step (Read r) m) /\
      (solution V space_t sol_t m <> None -> snd (step ReadSolution m1) = snd (step ReadSolution m)).
  Proof.
    intros o m m1 e r Ho S Al Hr.
    assert (E : derived V space_t sol_t m1 = derived V space_t sol_t m /\ altered V space_t sol_t m1 = altered V space_t sol_t m /\ solution V space_t sol_t m1 = solution V space_t sol_t m).
    { destruct o as [ns i t h|ps|gs|ns sh|ns sh| | | | ]; try contradiction; unfold ModelState.step, ok_with in S.
      - discriminate.
      - unfold add_params in S; destruct (set_params V O float_of trunc ps (d_params V (definition m))) as [k [u|e']]; [discriminate|].
        cbn [fst snd bind] in S; injection S as <- _; auto.
      - unfold add_exprs in S; destruct (extend V parse_text gs (d_exprs V (definition m))) as [k [u|e']]; [discriminate|].
        cbn [fst snd bind] in S; injection S as <- _; auto.
      - unfold add_stoch in S; destruct (create_stoch V one ns sh); cbn [fst snd bind] in S; [discriminate|]; injection S as <- _; auto.
      - unfold add_determ in S; destruct (create_determ V one ns sh); cbn [fst snd bind] in S; [discriminate|]; injection S as <- _; auto. }
    destruct E as (E1 & E2 & E3).
    assert (Q : snd (step (Read r) m1) = snd (step (Read r) m)).
    { unfold ModelState.step, ok_with, ModelState.read; destruct r; try contradiction; rewrite E2, Al; cbn [ModelState.ensure fst snd]; rewrite E1; reflexivity. }
    split; [exact Q|]; intros Hs; destruct (solution V space_t sol_t m) as [s|] eqn:Es; [|contradiction].
    unfold ModelState.step, ok_with, ModelState.read_solution; rewrite E3, Es; reflexivity.
  Qed.

  (** With numpy as it is, a variable or shock added to a model that has variables breaks
      it: the first reading raises, and the next ones show the model as it was. *)
  Theorem C30_arrays_refuted :
    keeps = false ->
    forall m ns i t h r r', d_endog V (definition m) <> [] -> r' <> RSigma ->
      let m1 := fst (step (AddEndog ns i t h) m) in
      let (m2, first) := step (Read r) m1 in
      (exists e, first = Err e) /\
      snd (step (Read r') m2) = do v <- cached V space_t r' (derived V space_t sol_t m); Ok (OValue v).
  Proof.
    intros Hk m ns i t h r r' Hne Hr m1.
    assert (U : exists e d2, ModelState.update V O zero isnum space_t sol_t space m1 = (MState V space_t sol_t d2 (derived V space_t sol_t m) false (solution V space_t sol_t m), Err e)).
    { unfold ModelState.update, lead_lags; cbn [m1 ModelState.step ok_with fst add_endog alter ModelState.definition d_en_ok ModelState.derived ModelState.solution].
      rewrite Hk; cbn [d_endog d_exprs].
      destruct (read_lead_lags V [] _) as [x|e]; cbn [bind]; [|eauto].
      destruct (d_endog V (definition m)) as [|v l]; [congruence|]; cbn [app]; eauto. }
    destruct U as (e & d2 & U).
    assert (E : step (Read r) m1 = (MState V space_t sol_t d2 (derived V space_t sol_t m) false (solution V space_t sol_t m), Err e)).
    { unfold ModelState.step, ModelState.read.
      assert (N : (match r with RSigma => altered V space_t sol_t m1 || no_sigma V space_t sol_t m1 | _ => altered V space_t sol_t m1 end) = true) by (destruct r; reflexivity).
      rewrite N; unfold ModelState.ensure; rewrite U; reflexivity. }
    rewrite E; split; [eauto|].
    destruct r'; try contradiction; reflexivity.
  Qed.

  (** C31. Solving always uses the current definitions. *)
  Theorem C31_solve_is_current_partial :
    forall d a m0 os m l o m' s,
      describes d a -> new_model a = Ok m0 -> run os m0 = (m, l) ->
      additions_made V space_t sol_t l -> repaired V space_t sol_t l ->
      distinct V (effects os d) ->
      step (Solve o) m = (m', Ok (OSolution s)) ->
      forall a', describes (effects os d) a' ->
      exists m1 m2, new_model a' = Ok m1 /\ step (Solve o) m1 = (m2, Ok (OSolution s)).
  Proof.
    intros d a m0 os m l o m' s D H R A P N S a' D'.
    destruct (start d a m0 D (distinct_effects os d N) H) as (K & C & _ & _).
    pose proof (run_known V O zero one truthy isnum float_of trunc parse_text keeps space_t sol_t space solver os d m0 m l K R A) as K'.
    pose proof (run_current V O zero one truthy isnum float_of trunc parse_text keeps space_t sol_t space solver os m0 m l R A (or_introl C) P) as C'.
    unfold ModelState.step, ok_with in *.
    destruct (solve V O zero isnum space_t sol_t space solver o m) as [m3 [w|e]] eqn:E; cbn [fst snd bind] in S; [|discriminate].
    injection S as <- ->.
    destruct (solve_scratch V O zero one truthy isnum float_of trunc parse_text space_t sol_t space solver o _ a' m m3 s D' N K' C' E) as (m1 & m2 & E1 & E2).
    exists m1, m2; split; [exact E1|]; rewrite E2; reflexivity.
  Qed.

  (** What is read as the solution is that of the last solve, whatever has been added
      since (operations that do not solve: everything but Solve and Simulate with an
      order). *)
  Theorem C31_solution_is_kept :
    forall m o m1 s os m2 l,
      step (Solve o) m = (m1, Ok (OSolution s)) ->
      (forall o', In o' os -> ~ solves V o') -> run os m1 = (m2, l) ->
      step ReadSolution m2 = (m2, Ok (OSolution s)) /\
      forall m3 s' sp, step (Simulate 0) m2 = (m3, Ok (OSimulation s' sp)) -> s' = s.
  Proof.
    intros m o m1 s os m2 l S Hn R.
    assert (E : solution V space_t sol_t m1 = Some s).
    { unfold ModelState.step, ok_with in S.
      destruct (solve V O zero isnum space_t sol_t space solver o m) as [m3 [w|e]] eqn:E; cbn [fst snd bind] in S; [|discriminate].
      injection S as <- ->; apply (solve_stores V O zero truthy isnum float_of trunc parse_text space_t sol_t space solver o m m3 s E). }
    pose proof (run_solution V O zero one truthy isnum float_of trunc parse_text keeps space_t sol_t space solver os m1 m2 l s Hn E R) as E2.
    split.
    - unfold ModelState.step, ModelState.read_solution; rewrite E2; reflexivity.
    - intros m3 s' sp H.
      destruct (step_solution V O zero one truthy isnum float_of trunc parse_text keeps space_t sol_t space solver (Simulate 0) m2 m3 _ s (fun F => F) E2 H)
        as (_ & _ & G); apply (G s' sp eq_refl).
  Qed.

  (** So the solution read is current if nothing has been added since the last solve. *)
  Theorem C31_solution_partial :
    forall d a m0 os m l o m' s os2 m2 l2,
      describes d a -> new_model a = Ok m0 -> run os m0 = (m, l) ->
      additions_made V space_t sol_t l -> repaired V space_t sol_t l -> distinct V (effects os d) ->
      step (Solve o) m = (m', Ok (OSolution s)) ->
      (forall o', In o' os2 -> ~ solves V o' /\ ~ addition V o') -> run os2 m' = (m2, l2) ->
      forall a', describes (effects (os ++ Solve o :: os2) d) a' ->
      step ReadSolution m2 = (m2, Ok (OSolution s)) /\
      exists m3 m4, new_model a' = Ok m3 /\ step (Solve o) m3 = (m4, Ok (OSolution s)).
  Proof.
    intros d a m0 os m l o m' s os2 m2 l2 D H R A P N S Hn R2 a' D'; split.
    - eapply C31_solution_is_kept; [exact S| |exact R2]; intros o' Ho; apply Hn; exact Ho.
    - eapply C31_solve_is_current_partial; [exact D|exact H|exact R|exact A|exact P|exact N|exact S|].
      assert (E : effects (os ++ Solve o :: os2) d = effects os d); [|rewrite <- E; exact D'].
      unfold ModelStateSpec.effects; rewrite fold_left_app; cbn [fold_left effect].
      clear - Hn; generalize (fold_left (fun d o => effect V one o d) os d); induction os2 as [|o2 os2 IH]; intros d0; [reflexivity|].
      cbn [fold_left]; rewrite IH by (intros o' Ho; apply Hn; right; exact Ho).
      destruct (Hn o2 (or_introl eq_refl)) as [_ X]; destruct o2; cbn [addition effect] in *; tauto.
  Qed.

  (** C60. Quantities defined as parameters follow the parameters: the values shown after
      any additions are those of the definitions as they are then. *)
  Theorem C60_parameters_partial :
    forall d a m0 os m l m' st,
      describes d a -> new_model a = Ok m0 -> run os m0 = (m, l) ->
      additions_made V space_t sol_t l -> repaired V space_t sol_t l -> distinct V (effects os d) ->
      NoDup (keys (m_params V (effects os d))) ->
      step (Read RSteady) m = (m', Ok (OValue (VSteady st))) ->
      exists c cl, satisfies V O float_of trunc c (m_params V (effects os d)) /\
        solve_calibration V O float_of trunc (m_locals V d) = Ok cl /\
        forall x v, ~ In x (keys (m_locals V d)) -> lookup x c = Some v -> lookup x (s_params V st) = Some v.
  Proof.
    intros d a m0 os m l m' st D H R A P N NP S.
    destruct (start d a m0 D (distinct_effects os d N) H) as (K & C & _ & _).
    pose proof (run_known V O zero one truthy isnum float_of trunc parse_text keeps space_t sol_t space solver os d m0 m l K R A) as K'.
    pose proof (run_current V O zero one truthy isnum float_of trunc parse_text keeps space_t sol_t space solver os m0 m l R A (or_introl C) P) as C'.
    unfold ModelState.step, ok_with in S.
    destruct (read V O zero isnum space_t sol_t space RSteady m) as [m3 [w|e]] eqn:E; cbn [fst snd bind] in S; [|discriminate].
    injection S as <- ->.
    pose proof (proj1 (read_ok V O zero truthy isnum float_of trunc parse_text space_t sol_t space _ _ _ _ E) _ K') as K3.
    destruct (read_current V O zero truthy isnum float_of trunc parse_text space_t sol_t space _ _ _ _ C' E) as (x & st' & dy & sp & F & E'); cbn [reading_of] in E'; injection E' as <-.
    destruct F as (lls & _ & _ & F & _).
    unfold new_steady in F; apply bind_ok in F as (u & _ & F); injection F as <-; cbn [s_params].
    destruct K3 as (_ & _ & _ & (c & P1 & P2) & (cl & L1 & L2) & _).
    unfold model_scope; rewrite P1, L1; cbn [solved].
    assert (EL : m_locals V (effects os d) = m_locals V d).
    { clear; revert d; induction os as [|o os IH]; intros d; [reflexivity|]; unfold ModelStateSpec.effects in *; cbn [fold_left]; rewrite IH.
      destruct o; reflexivity. }
    rewrite EL in L2; exists c, cl; split; [apply solve_satisfies; assumption|]; split; [exact L2|].
    intros y v Hy Hv; unfold merge.
    assert (KL : keys cl = keys (m_locals V d)).
    { unfold solve_calibration in L2.
      apply bind_ok in L2 as (c0 & A1 & L2); apply bind_ok in L2 as (rv & A2 & L2); apply bind_ok in L2 as (order & A3 & L2).
      apply bind_ok in L2 as (c' & A4 & L2).
      rewrite (proj1 (numbers_spec V c' cl L2)).
      assert (G : forall os c c', foldM (solve_param V O) c os = Ok c' -> keys c' = keys c).
      { clear; induction os as [|o os IH]; intros c c' H; cbn [foldM] in H; [injection H as <-; reflexivity|].
        apply bind_ok in H as (c1 & H1 & H2); rewrite (IH _ _ H2).
        unfold solve_param in H1; destruct (lookup o c) as [[v|e]|] eqn:El; [injection H1 as <-| |discriminate].
        - apply (update_keys _ _ _ _ El).
        - apply bind_ok in H1 as (v & _ & H1); injection H1 as <-; apply (update_keys _ _ _ _ El). }
      rewrite (G _ _ _ A4); apply (normalize_spec V float_of trunc _ _ A1). }
    rewrite <- KL in Hy; clear - Hy Hv; revert c Hv; induction cl as [|[z w] cl IH]; intros c Hv; [exact Hv|].
    cbn [fold_left fst snd]; apply IH; [intros X; apply Hy; right; exact X|].
    rewrite lookup_update; destruct (String.eqb_spec y z) as [E|E]; [exfalso; apply Hy; left; auto|exact Hv].
  Qed.

  (** The local definitions do not: no history changes what they are. *)
  Theorem C60_locals_constant :
    forall d a m0 os m l,
      describes d a -> new_model a = Ok m0 -> run os m0 = (m, l) -> distinct V d ->
      additions_made V space_t sol_t l -> d_locals V (definition m) = d_locals V (definition m0).
  Proof.
    intros d a m0 os m l D H R N A.
    destruct (start d a m0 D N H) as (K & C & _ & _).
    pose proof (run_known V O zero one truthy isnum float_of trunc parse_text keeps space_t sol_t space solver os d m0 m l K R A) as K'.
    assert (EL : m_locals V (effects os d) = m_locals V d).
    { clear; revert d; induction os as [|o os IH]; intros d; [reflexivity|]; unfold ModelStateSpec.effects in *; cbn [fold_left]; rewrite IH.
      destruct o; reflexivity. }
    destruct K as (_ & _ & _ & _ & (c & L1 & L2) & _), K' as (_ & _ & _ & _ & (c' & L1' & L2') & _).
    rewrite EL in *; congruence.
  Qed.

  (** C33. The copy of a model has its variables with their values, its shocks, its
      parameters and its equations.  Missing: the local definitions are not copied. *)
  Definition variables (dd : defs V) : list (string * option V * option V * option V) :=
    map (fun v => (ev_name v, ev_init v, ev_term v, ev_hist v)) (d_endog V dd).
  Theorem C33_copy_partial :
    forall d a m0 os m l mc,
      describes d a -> new_model a = Ok m0 -> run os m0 = (m, l) -> additions_made V space_t sol_t l ->
      distinct V (effects os d) -> NoDup (keys (m_params V (effects os d))) ->
      copy m = Ok mc ->
      variables (definition mc) = variables (definition m) /\
      d_stoch V (definition mc) = d_stoch V (definition m) /\ d_determ V (definition mc) = d_determ V (definition m) /\
      solved V (d_params V (definition mc)) = solved V (d_params V (definition m)) /\
      d_exprs V (definition mc) = d_exprs V (definition m).
  Proof.
    intros d a m0 os m l mc D H R A N NP Hc.
    destruct (start d a m0 D (distinct_effects os d N) H) as (K & _).
    pose proof (run_known V O zero one truthy isnum float_of trunc parse_text keeps space_t sol_t space solver os d m0 m l K R A) as K'.
    rewrite (copy_eq V O zero one truthy float_of trunc parse_text default_locals space_t sol_t space _ m N NP K') in Hc.
    apply bind_ok in Hc as (lc & _ & Hc); cbn zeta in Hc.
    apply bind_ok in Hc as (lls & Hl & Hc).
    do 4 (apply bind_ok in Hc as (? & _ & Hc)).
    injection Hc as <-; cbn [ModelState.definition d_stoch d_determ d_params solved d_exprs].
    repeat apply conj; try reflexivity.
    pose proof (lls_names V _ _ _ Hl) as Hn; unfold variables; cbn [d_endog]; clear - Hn; revert lls Hn.
    induction (d_endog V (definition m)) as [|v e IH]; intros [|p lls] Hn; try discriminate Hn; [reflexivity|].
    cbn [map] in Hn; injection Hn as _ Hn; unfold with_lead_lags; cbn [combine map fst]; f_equal; apply IH; exact Hn.
  Qed.

  (** A model without local definitions can be copied whenever its state space can be
      read, and the copy shows the same. *)
  Theorem C33_copy_without_locals :
    default_locals = Plain [] ->
    forall d a m0 os m l m1 sp,
      describes d a -> new_model a = Ok m0 -> run os m0 = (m, l) -> additions_made V space_t sol_t l ->
      repaired V space_t sol_t l -> distinct V (effects os d) -> NoDup (keys (m_params V (effects os d))) ->
      m_locals V d = [] ->
      step (Read RSpace) m = (m1, Ok (OValue (VSpace sp))) ->
      exists mc, copy m = Ok mc /\
        forall r m2 v, r <> RSigma -> step (Read r) m = (m2, Ok v) -> exists mc', step (Read r) mc = (mc', Ok v).
  Proof.
    intros Hdef d a m0 os m l m1 sp D H R A P N NP Hloc S.
    destruct (start d a m0 D (distinct_effects os d N) H) as (K & C & _ & _).
    pose proof (run_known V O zero one truthy isnum float_of trunc parse_text keeps space_t sol_t space solver os d m0 m l K R A) as K'.
    pose proof (run_current V O zero one truthy isnum float_of trunc parse_text keeps space_t sol_t space solver os m0 m l R A (or_introl C) P) as C'.
    assert (EL : m_locals V (effects os d) = []).
    { rewrite <- Hloc; clear; revert d; induction os as [|o os IH]; intros d; [reflexivity|]; unfold ModelStateSpec.effects in *; cbn [fold_left]; rewrite IH.
      destruct o; reflexivity. }
    assert (G : forall r m2 v, step (Read r) m = (m2, Ok (OValue v)) ->
      exists x st dy sp, fresh_of V space_t space (definition m) x st dy sp /\ reading_of V O zero isnum space_t r (d_stoch V (definition m)) x st dy sp v).
    { intros r m2 v Hs; unfold ModelState.step, ok_with in Hs.
      destruct (read V O zero isnum space_t sol_t space r m) as [m3 [w|e]] eqn:E; cbn [fst snd bind] in Hs; [|discriminate].
      injection Hs as <- ->.
      pose proof (proj1 (read_ok V O zero truthy isnum float_of trunc parse_text space_t sol_t space _ _ _ _ E) _ K') as K3.
      destruct (read_current V O zero truthy isnum float_of trunc parse_text space_t sol_t space _ _ _ _ C' E) as (x & st & dy & sp' & F & Hv).
      exists x, st, dy, sp'; split; [apply (tracks_fresh V O zero truthy float_of trunc parse_text space_t space _ _ _ _ _ _ _ K3 K' F)|].
      rewrite (tracks_stoch V O zero truthy float_of trunc parse_text _ _ _ K3 K'); exact Hv. }
    destruct (G _ _ _ S) as (x & st & dy & sp' & F & Hv); cbn [reading_of] in Hv; injection Hv as <-.
    rewrite (copy_eq V O zero one truthy float_of trunc parse_text default_locals space_t sol_t space _ m N NP K').
    destruct F as (lls & F1 & F2 & F3 & F4 & F5).
    rewrite Hdef; unfold new_calibration; cbn [definitions].
    change (solve_calibration V O float_of trunc []) with (@Ok (list (string * V)) []); cbn [bind]; cbn zeta.
    assert (ES : merge V (solved V (d_params V (definition m))) (solved V (Cal (Plain []) [])) = model_scope V (definition m)).
    { unfold model_scope; destruct K' as (_ & _ & _ & _ & (cl & L1 & L2) & _); rewrite EL in L2.
      rewrite L1; change (solve_calibration V O float_of trunc []) with (@Ok (list (string * V)) []) in L2; injection L2 as <-; reflexivity. }
    rewrite ES, F1; cbn [bind]; rewrite F3; cbn [bind]; rewrite F2; cbn [bind]; rewrite F4; cbn [bind]; rewrite F5; cbn [bind].
    eexists; split; [reflexivity|].
    intros r m2 v Hr Hs.
    assert (HV : exists w, v = OValue w).
    { unfold ModelState.step, ok_with in Hs; destruct (read V O zero isnum space_t sol_t space r m) as [m3 [w|e]]; cbn [fst snd bind] in Hs; [|discriminate].
      injection Hs as _ <-; eauto. }
    destruct HV as (w & ->).
    destruct (G _ _ _ Hs) as (x' & st' & dy' & sp2 & F' & Hv).
    assert (F : fresh_of V space_t space (definition m) x st dy sp) by (exists lls; auto).
    destruct (fresh_fun V space_t space _ _ _ _ _ _ _ _ _ _ _ _ _ F F') as (-> & -> & -> & ->).
    unfold ModelState.step, ModelState.read; cbn [ModelState.altered].
    destruct r; try contradiction; cbn [reading_of] in Hv; subst w; eexists; reflexivity.
  Qed.

  (** C52. A list of replacements gives a regime model whose length is its number of
      regimes; each alternative is a copy of the base with the equations replaced that
      the dictionary names, and no others. *)
  Notation new_regimes := (ModelState.new_regimes V O zero one truthy float_of trunc parse_text default_locals space_t sol_t space).
  Definition differs_in (kvs : list (Z * given V)) (mc m : ModelState.mstate V space_t sol_t) : Prop :=
    let old := trees (d_exprs V (definition m)) in
    let new := trees (d_exprs V (definition mc)) in
    List.length new = List.length old /\
    (forall k g, In (k, g) kvs -> exists e, parse_given V parse_text g = Ok e /\ nth_error new (Z.to_nat k) = Some e) /\
    (forall i, ~ In (Z.of_nat i) (map fst kvs) -> nth_error new i = nth_error old i) /\
    d_stoch V (definition mc) = d_stoch V (definition m) /\ d_determ V (definition mc) = d_determ V (definition m) /\
    variables (definition mc) = variables (definition m) /\
    solved V (d_params V (definition mc)) = solved V (d_params V (definition m)).

  Lemma alternative_spec d a m0 os m l kvs mc :
      describes d a -> new_model a = Ok m0 -> run os m0 = (m, l) -> additions_made V space_t sol_t l ->
      distinct V (effects os d) -> NoDup (keys (m_params V (effects os d))) ->
      NoDup (map fst kvs) -> (forall k g, In (k, g) kvs -> (0 <= k)%Z) ->
      alternative V O zero one truthy float_of trunc parse_text default_locals space_t sol_t space kvs m = Ok mc -> differs_in kvs mc m.
  Proof.
    intros D H R A N NP Nk Pk Hc; unfold alternative in Hc.
    apply bind_ok in Hc as (m1 & Hm1 & Hc); cbn zeta in Hc; apply bind_ok in Hc as (x & Hx & Hc); injection Hc as <-.
    destruct (C33_copy_partial d a m0 os m l m1 D H R A N NP Hm1) as (E1 & E2 & E3 & E4 & E5).
    destruct (replace_spec V parse_text kvs _ _ Hx Nk Pk) as (L & R1 & R2).
    unfold differs_in, alter, variables in *; cbn [ModelState.definition d_endog d_stoch d_determ d_params d_exprs]; rewrite E5 in *.
    repeat apply conj; auto.
  Qed.

  Lemma forall2_len {A B} (P : A -> B -> Prop) l l' : Forall2 P l l' -> List.length l = List.length l'.
  Proof. induction 1; cbn [List.length]; auto. Qed.

  Theorem C52_regimes_partial :
    forall d a m0 os m l ds R,
      describes d a -> new_model a = Ok m0 -> run os m0 = (m, l) -> additions_made V space_t sol_t l ->
      distinct V (effects os d) -> NoDup (keys (m_params V (effects os d))) ->
      (forall kvs, In kvs ds -> NoDup (map fst kvs) /\ forall k g, In (k, g) kvs -> (0 <= k)%Z) ->
      new_regimes false (Regimes ds) m = Ok R ->
      r_count V space_t sol_t R = List.length (r_models V space_t sol_t R) /\ List.length ds <> 0 /\
      exists first alts, r_models V space_t sol_t R = first :: alts /\ copy m = Ok first /\
        Forall2 (fun kvs mc => differs_in kvs mc m) ds alts.
  Proof.
    intros d a m0 os m l ds R D H Hr A N NP Hd Hn.
    unfold ModelState.new_regimes in Hn; destruct ds as [|kv ds]; [discriminate|].
    apply bind_ok in Hn as (first & Hf & Hn); apply bind_ok in Hn as (alts & Ha & Hn); injection Hn as <-.
    apply mapM_ok in Ha; cbn [r_count r_models].
    split; [|split].
    - cbn [List.length]; apply forall2_len in Ha; cbn [List.length] in Ha; lia.
    - discriminate.
    - exists first, alts; split; [reflexivity|]; split; [exact Hf|].
      revert Ha Hd; generalize (kv :: ds) as l0; intros l0 Ha Hd.
      induction Ha as [|kvs mc l0 alts Hkv _ IH]; constructor.
      + destruct (Hd kvs (or_introl eq_refl)); eapply alternative_spec; eauto.
      + apply IH; intros k' Hk'; apply Hd; right; exact Hk'.
  Qed.

  (** A dictionary of replacements gives two regimes, the first being the model itself;
      the length reported is the number of replaced equations plus one, which is two
      exactly when one equation is replaced. *)
  Theorem C52_dictionary :
    forall d a m0 os m l kvs R,
      describes d a -> new_model a = Ok m0 -> run os m0 = (m, l) -> additions_made V space_t sol_t l ->
      distinct V (effects os d) -> NoDup (keys (m_params V (effects os d))) ->
      NoDup (map fst kvs) -> (forall k g, In (k, g) kvs -> (0 <= k)%Z) ->
      new_regimes false (OneRegime kvs) m = Ok R ->
      (exists mc, r_models V space_t sol_t R = [m; mc] /\ differs_in kvs mc m) /\
      r_count V space_t sol_t R = List.length kvs + 1 /\
      (r_count V space_t sol_t R = List.length (r_models V space_t sol_t R) <-> List.length kvs = 1).
  Proof.
    intros d a m0 os m l kvs R D H Hr A N NP Nk Pk Hn.
    unfold ModelState.new_regimes in Hn; destruct kvs as [|kv kvs]; [discriminate|].
    apply bind_ok in Hn as (mc & Hc & Hn); injection Hn as <-; cbn [r_count r_models].
    split; [exists mc; split; [reflexivity|]; eapply alternative_spec; eauto|].
    split; [reflexivity|]; cbn [List.length]; lia.
  Qed.

  (** Nothing to replace is an error, and so is a second covariance matrix. *)
  Theorem C52_errors :
    forall m r, new_regimes true r m = Err NotImplErr /\
      new_regimes false (OneRegime []) m = Err ValueErr /\ new_regimes false (Regimes []) m = Err ValueErr.
  Proof. intros m r; repeat apply conj; reflexivity. Qed.
  (** C31. A second-order solve that raises after its first-order part leaves the
      first-order solution behind, and that is what is read as the model's solution. *)
  Theorem C31_interrupted_solve :
    forall m o m1 s1 m2 e,
      o = 0 \/ o = 2 ->
      step (Solve 1) m = (m1, Ok (OSolution s1)) -> step (Solve o) m = (m2, Err e) ->
      step ReadSolution m2 = (m2, Ok (OSolution s1)).
  Proof.
    intros m o m1 s1 m2 e Ho H1 H2; unfold ModelState.step, ok_with in H1, H2.
    assert (S2 : solve V O zero isnum space_t sol_t space solver o m = solve_two V O zero isnum space_t sol_t space solver m)
      by (destruct Ho as [-> | ->]; reflexivity).
    rewrite S2 in H2; clear S2 Ho; unfold solve_two in H2.
    change (solve V O zero isnum space_t sol_t space solver 1 m) with (solve_one V O zero isnum space_t sol_t space solver m) in H1.
    assert (ST : forall m' s, solve_one V O zero isnum space_t sol_t space solver m = (m', Ok s) -> solution V space_t sol_t m' = Some s).
    { intros m' s; exact (solve_stores V O zero truthy isnum float_of trunc parse_text space_t sol_t space solver 1 m m' s). }
    destruct (solve_one V O zero isnum space_t sol_t space solver m) as [m3 [s|e']] eqn:E; cbn [fst snd bind] in H1; [|discriminate].
    injection H1 as -> ->; specialize (ST m1 s1 eq_refl).
    assert (G : solution V space_t sol_t m2 = Some s1).
    { destruct (ensure V O zero isnum space_t sol_t space _ m1) as [m3 [[]|e']] eqn:E3;
        pose proof (proj1 (ensure_spec V O zero truthy isnum float_of trunc parse_text space_t sol_t space _ _ _ _ E3)) as Q.
      - destruct (c_sigma V space_t (derived V space_t sol_t m3)); cbn [fst snd] in H2.
        + unfold finish in H2; destruct (solver _ _ _ _ _); cbn [fst snd bind] in H2; [discriminate|]; injection H2 as <- _; congruence.
        + injection H2 as <- _; congruence.
      - cbn [fst snd bind] in H2; injection H2 as <- _; congruence. }
    unfold ModelState.step, ModelState.read_solution; rewrite G; reflexivity.
  Qed.

  (** C63. After any additions, the variables are those defined, in order, and each has
      the values it was given; one that was given no terminal and no historical value and
      no initial value, or an initial value that Python takes for false, starts at zero. *)
  Definition starts_as (i t h : option V) (v : evar V) : Prop :=
    ev_term v = t /\ ev_hist v = h /\
    ((t <> None \/ h <> None) -> ev_init v = i) /\
    (t = None -> h = None ->
      (i = None -> ev_init v = Some zero) /\
      forall a, i = Some a -> (truthy a = true -> ev_init v = Some a) /\ (truthy a = false -> ev_init v = Some zero)).
  Theorem C63_values :
    forall d a m0 os m l,
      describes d a -> new_model a = Ok m0 -> run os m0 = (m, l) -> additions_made V space_t sol_t l ->
      distinct V (effects os d) ->
      Forall2 (fun p v => ev_name v = fst p /\ let '(i, t, h) := snd p in starts_as i t h v)
        (m_endog V (effects os d)) (d_endog V (definition m)).
  Proof.
    intros d a m0 os m l D H R A N.
    destruct (start d a m0 D (distinct_effects os d N) H) as (K & _).
    destruct (run_known V O zero one truthy isnum float_of trunc parse_text keeps space_t sol_t space solver os d m0 m l K R A) as (T & _).
    clear - T; induction T as [|[x [[i t] h]] v l l' Hv _ IH]; constructor; [|exact IH].
    cbn [fst snd] in *; rewrite Hv; unfold new_evar, starts_as; cbn [ev_name ev_term ev_hist ev_init].
    repeat apply conj; auto.
    - destruct t, h; auto; intros [E|E]; elim E; reflexivity.
    - intros -> ->; split; [intros ->; reflexivity|intros b ->; destruct (truthy b); split; congruence].
  Qed.

  (** C52. What is read from an alternative, when it can be read, is what a model built
      from scratch with the replaced equations shows. *)
  Definition with_equations (es : list (ast V)) (d : mdef V) : mdef V :=
    MDef V (m_endog V d) (m_stoch V d) (m_determ V d) (m_params V d) [] (map GTree es).
  Lemma parse_trees (es : list (ast V)) : mapM (parse_given V parse_text) (map GTree es) = Ok es.
  Proof. induction es as [|e es IH]; [reflexivity|]; cbn [map mapM parse_given bind]; rewrite IH; reflexivity. Qed.
  Lemma alternative_reads d a m0 os m l kvs mc r mc' v :
      default_locals = Plain [] ->
      describes d a -> new_model a = Ok m0 -> run os m0 = (m, l) -> additions_made V space_t sol_t l ->
      distinct V (effects os d) -> NoDup (keys (m_params V (effects os d))) ->
      alternative V O zero one truthy float_of trunc parse_text default_locals space_t sol_t space kvs m = Ok mc ->
      step (Read r) mc = (mc', Ok v) ->
      forall a', describes (with_equations (trees (d_exprs V (definition mc))) (effects os d)) a' ->
      exists m1 m2, new_model a' = Ok m1 /\ step (Read r) m1 = (m2, Ok v).
  Proof.
    intros Hdef D H R A N NP Hc S a' D'.
    destruct (start d a m0 D (distinct_effects os d N) H) as (K & _).
    pose proof (run_known V O zero one truthy isnum float_of trunc parse_text keeps space_t sol_t space solver os d m0 m l K R A) as K'.
    set (d' := with_equations _ _) in *.
    assert (N' : distinct V d') by exact N.
    unfold alternative in Hc; apply bind_ok in Hc as (m1 & Hm1 & Hc); cbn zeta in Hc; apply bind_ok in Hc as (x & Hx & Hc); injection Hc as <-.
    rewrite (copy_eq V O zero one truthy float_of trunc parse_text default_locals space_t sol_t space _ m N NP K') in Hm1.
    rewrite Hdef in Hm1; apply bind_ok in Hm1 as (lc & Hlc & Hm1); cbn zeta in Hm1.
    change (new_calibration V O float_of trunc (Plain [])) with (Ok (Cal (Plain (@nil (string * pdef V))) (@nil (string * V)))) in Hlc.
    injection Hlc as <-.
    apply bind_ok in Hm1 as (lls & Hl & Hm1).
    do 4 (apply bind_ok in Hm1 as (? & _ & Hm1)).
    injection Hm1 as <-.
    pose proof (lls_names V _ _ _ Hl) as Hn.
    set (mc := alter V space_t sol_t _ _) in *.
    unfold ModelState.step, ok_with in S.
    destruct (read V O zero isnum space_t sol_t space r mc) as [m3 [w|e]] eqn:E; cbn [fst snd bind] in S; [|discriminate].
    injection S as <- <-.
    assert (C : current V O zero isnum space_t sol_t space mc) by (left; reflexivity).
    destruct (read_current V O zero truthy isnum float_of trunc parse_text space_t sol_t space r mc m3 w C E) as (x5 & st & dy & sp & F & Rd).
    (* a model that tracks d' and has the same structures *)
    assert (SM : similar V (definition mc) (definition m3)).
    { unfold read in E; destruct (ensure V O zero isnum space_t sol_t space _ mc) as [m4 [u|e]] eqn:Ee; [|discriminate]; injection E as <- _.
      unfold ensure in Ee; destruct (match r with RSigma => _ | _ => _ end); [|injection Ee as <- _; apply similar_refl].
      destruct (update_spec V O zero isnum space_t sol_t space _ _ _ Ee) as (_ & _ & [[_ X]|(_ & _ & X)] & _); exact X. }
    apply (fresh_similar V space_t space _ _ _ _ _ _ SM) in F.
    destruct (similar_fields V _ _ SM) as (_ & Q & _); rewrite Q in Rd; clear Q SM.
    destruct K' as (T1 & T2 & T3 & (cp & P1 & P2) & T5 & T6).
    pose (dm := Defs V (d_endog V (definition mc)) true (d_stoch V (definition m)) true (d_determ V (definition m))
      (Cal (Plain (m_params V (effects os d))) cp) (Cal (Plain []) []) x).
    assert (T : tracks V O zero truthy float_of trunc parse_text d' dm).
    { unfold tracks, d', dm, with_equations; cbn [m_endog m_stoch m_determ m_params m_locals m_exprs d_endog d_stoch d_determ d_params d_locals d_exprs].
      repeat apply conj; auto.
      - cbn [mc alter ModelState.definition d_endog]; clear - T1 Hn; revert lls Hn.
        induction T1 as [|p v es' vs Hv _ IH]; intros [|q lls] Hn; try discriminate Hn; [constructor|].
        cbn [map] in Hn; injection Hn as _ Hn; unfold with_lead_lags; cbn [combine map]; constructor; [|apply IH; exact Hn].
        cbn [fst snd]; rewrite Hv; reflexivity.
      - exists cp; auto.
      - exists []; auto.
      - apply parse_trees. }
    assert (F' : fresh_of V space_t space dm x5 st dy sp).
    { revert F; unfold fresh_of, model_scope, dm; cbn [mc alter ModelState.definition d_endog d_stoch d_exprs d_params d_locals solved].
      rewrite P1; cbn [solved]; auto. }
    destruct (new_model_total V O zero one truthy float_of trunc parse_text space_t sol_t space d' a' _ _ _ _ _ D' N' T F') as (m5 & Hm & _).
    destruct (new_model_known V O zero one truthy isnum float_of trunc parse_text space_t sol_t space d' a' m5 D' N' Hm) as (K1 & _).
    pose proof (tracks_fresh V O zero truthy float_of trunc parse_text space_t space _ _ _ _ _ _ _ T K1 F') as F1.
    change (d_stoch V (definition mc)) with (d_stoch V dm) in Rd.
    rewrite <- (tracks_stoch V O zero truthy float_of trunc parse_text _ _ _ T K1) in Rd.
    destruct (scratch_read V O zero one truthy isnum float_of trunc parse_text space_t sol_t space _ _ _ _ _ _ _ _ _ D' N' Hm F1 Rd) as (m6 & E6).
    exists m5, m6; split; [exact Hm|]; unfold ModelState.step, ok_with; rewrite E6; reflexivity.
  Qed.
  Theorem C52_alternatives_read :
    default_locals = Plain [] ->
    forall d a m0 os m l rs R mc r mc' v,
      describes d a -> new_model a = Ok m0 -> run os m0 = (m, l) -> additions_made V space_t sol_t l ->
      distinct V (effects os d) -> NoDup (keys (m_params V (effects os d))) ->
      new_regimes false rs m = Ok R -> In mc (tl (r_models V space_t sol_t R)) ->
      step (Read r) mc = (mc', Ok v) ->
      forall a', describes (with_equations (trees (d_exprs V (definition mc))) (effects os d)) a' ->
      exists m1 m2, new_model a' = Ok m1 /\ step (Read r) m1 = (m2, Ok v).
  Proof.
    intros Hdef d a m0 os m l rs R mc r mc' v D H Hr A N NP Hn Hi S.
    assert (X : exists kvs, alternative V O zero one truthy float_of trunc parse_text default_locals space_t sol_t space kvs m = Ok mc).
    { unfold ModelState.new_regimes in Hn; destruct rs as [[|kv kvs]|[|kv ds]]; try discriminate.
      - apply bind_ok in Hn as (m1 & H1 & Hn); injection Hn as <-; cbn [r_models tl] in Hi; destruct Hi as [->|[]]; eauto.
      - apply bind_ok in Hn as (first & Hf & Hn); apply bind_ok in Hn as (alts & Ha & Hn); injection Hn as <-; cbn [r_models tl] in Hi.
        apply mapM_ok in Ha; clear - Ha Hi; induction Ha as [|kvs mc1 l0 alts Hkv _ IH]; [destruct Hi|].
        destruct Hi as [->|Hi]; eauto. }
    destruct X as (kvs & X); eapply alternative_reads; eauto.
  Qed.
End Properties.
Print Assumptions C31_interrupted_solve.
Print Assumptions C63_values.
Print Assumptions C52_alternatives_read.
Print Assumptions C30_additions_count_partial.
Print Assumptions C30_additions_read.
Print Assumptions C30_arrays_refuted.
Print Assumptions C31_solve_is_current_partial.
Print Assumptions C30_structures.
Print Assumptions C30_failed_additions.
Print Assumptions C31_solution_is_kept.
Print Assumptions C31_solution_partial.
Print Assumptions C60_parameters_partial.
Print Assumptions C60_locals_constant.
Print Assumptions C33_copy_partial.
Print Assumptions C33_copy_without_locals.
Print Assumptions C52_regimes_partial.
Print Assumptions C52_dictionary.
Print Assumptions C52_errors.

(** ** Concrete models *)

(** The state space and the solution are the values of the parameters. *)
Definition oparse := parse_equation (option Z) odec (fun v => v) (Some 0%Z).
Definition oscope : Type := list (string * option Z).
Definition ospace (i : list (option (option Z))) (st : steady_repr (option Z)) (dy : repr (option Z)) : res oscope := Ok (s_params _ st).
Definition osolver (lower : option (oscope * matrix (option Z))) (i : list (option (option Z))) (st : steady_repr (option Z))
  (dy : repr (option Z)) (sp : oscope) : res oscope := Ok (s_params _ st).
Definition otrue (v : option Z) : bool := match v with Some 0%Z => false | _ => true end.
Definition oisnum (v : option Z) : bool := match v with Some _ => true | None => false end.
Definition onew := new_model (option Z) OZ (Some 0%Z) (Some 1%Z) otrue odec (fun v => v) oparse oscope oscope ospace.
Definition orun (keeps : bool) := run (option Z) OZ (Some 0%Z) (Some 1%Z) otrue oisnum odec (fun v => v) oparse keeps oscope oscope ospace osolver.
Definition ocopy := copy (option Z) OZ (Some 0%Z) (Some 1%Z) otrue odec (fun v => v) oparse (Plain []) oscope oscope ospace.
Definition oregimes := new_regimes (option Z) OZ (Some 0%Z) (Some 1%Z) otrue odec (fun v => v) oparse (Plain []) oscope oscope ospace.
Definition ofile_model (s : string) := do o <- oread s; onew (outline_args _ o).

(** C30 is false as it stands: a reading that raises is not made up for by the next
    one, which shows the model as it was before the variable was added. *)
Theorem C30_refuted :
  exists m0 m l x, ofile_model "var x; varexo e; parameters a; a = 2; model; x = a*x(-1) + e; end; shocks; var e = 1; end;" = Ok m0 /\
    orun true [AddEndog ["y"%string] (fun _ => None) (fun _ => None) (fun _ => None); Read RIndexes; Read RIndexes] m0 = (m, l) /\
    map snd l = [Ok ODone; Err EndogIndexErr; Ok (OValue (VIndexes x))] /\
    Indexing.n_endog x = 1 /\ List.length (d_endog _ (definition _ _ _ m)) = 2.
Proof.
  do 4 eexists; split; [vm_compute; reflexivity|]; split; [vm_compute; reflexivity|].
  split; [vm_compute; reflexivity|]; split; vm_compute; reflexivity.
Qed.
Print Assumptions C30_refuted.

(** C31 is false as it stands: the solution read after a parameter has been changed is
    the old one, and a simulation combines it with the new model. *)
Definition changed_a : list (op (option Z)) := [Solve 1; AddParams [("a"%string, DNum (Some 5%Z))]; ReadSolution; Simulate 0; Solve 1].
Theorem C31_refuted :
  exists m0 m l, ofile_model "var x; varexo e; parameters a; a = 2; model; x = a*x(-1) + e; end; shocks; var e = 1; end;" = Ok m0 /\
    orun false changed_a m0 = (m, l) /\
    let old := [("a"%string, Some 2%Z)] in let new := [("a"%string, Some 5%Z)] in
    map snd l = [Ok (OSolution old); Ok ODone; Ok (OSolution old); Ok (OSimulation old new); Ok (OSolution new)].
Proof.
  do 3 eexists; split; [vm_compute; reflexivity|]; split; vm_compute; reflexivity.
Qed.
Print Assumptions C31_refuted.

(** C60 is false as it stands: a local definition keeps its first value. *)
Definition with_local : string := "var x; varexo e; parameters b; b = 3; model; # q = b*2; x = q*x(-1) + e; end; shocks; var e = 1; end;".
Theorem C60_refuted :
  exists m0 m l st, ofile_model with_local = Ok m0 /\
    orun false [AddParams [("b"%string, DNum (Some 5%Z))]; Read RSteady] m0 = (m, l) /\
    map snd l = [Ok ODone; Ok (OValue (VSteady st))] /\
    lookup "b" (s_params _ st) = Some (Some 5%Z) /\ lookup "q" (s_params _ st) = Some (Some 6%Z).
Proof.
  do 4 eexists; split; [vm_compute; reflexivity|]; split; [vm_compute; reflexivity|].
  split; [vm_compute; reflexivity|]; split; vm_compute; reflexivity.
Qed.
Print Assumptions C60_refuted.

(** C33 is false as it stands: the copy has lost the local definition. *)
Theorem C33_refuted :
  exists m mc, ofile_model with_local = Ok m /\ ocopy m = Ok mc /\
    lookup "q" (solved _ (d_locals _ (definition _ _ _ m))) = Some (Some 6%Z) /\
    solved _ (d_locals _ (definition _ _ _ mc)) = [] /\
    lookup "q" (s_params _ (c_steady _ _ (derived _ _ _ mc))) = None.
Proof.
  do 2 eexists; split; [vm_compute; reflexivity|]; split; [vm_compute; reflexivity|].
  split; [vm_compute; reflexivity|]; split; vm_compute; reflexivity.
Qed.
Print Assumptions C33_refuted.

(** C52 is false as it stands: replacing two equations gives a length of three for two
    regimes; the first regime of a list is a copy without the local definitions. *)
Definition two_equations : string := "var x z; varexo e; parameters b; b = 3; model; # q = b*2; x = q*x(-1) + e; z = x; end; shocks; var e = 1; end;".
Theorem C52_refuted :
  exists m, ofile_model two_equations = Ok m /\
    (exists R, oregimes false (OneRegime [(0%Z, GText (chars "x = b*x(-1) + e;")); (1%Z, GText (chars "z = b*x;"))]) m = Ok R /\
       r_count _ _ _ R = 3 /\ List.length (r_models _ _ _ R) = 2) /\
    (exists R first, oregimes false (Regimes [[(0%Z, GText (chars "x = b*x(-1) + e;"))]]) m = Ok R /\
       nth_error (r_models _ _ _ R) 0 = Some first /\ solved _ (d_locals _ (definition _ _ _ first)) = [] /\
       solved _ (d_locals _ (definition _ _ _ m)) = [("q"%string, Some 6%Z)]).
Proof.
  eexists; split; [vm_compute; reflexivity|]; split.
  - eexists; split; [vm_compute; reflexivity|]; split; vm_compute; reflexivity.
  - do 2 eexists; split; [vm_compute; reflexivity|]; split; [vm_compute; reflexivity|]; split; vm_compute; reflexivity.
Qed.
Print Assumptions C52_refuted.

(** The theorems apply to every model read from a file. *)
Theorem C30_files_are_described :
  forall (V : Type) (one : V) (o : outline V), exists d, describes V one d (outline_args V o) /\
    map fst (m_endog V d) = o_endo V o /\ map fst (m_stoch V d) = o_stoch V o /\ map fst (m_determ V d) = o_det V o /\
    m_params V d = outline_defs o /\ m_locals V d = map (fun kv => (fst kv, DNum (snd kv))) (o_locals V o) /\
    m_exprs V d = map GTree (o_exprs V o).
Proof.
  intros V one o.
  exists (MDef V (map (fun x => (x, (lookup x (o_init V o), lookup x (o_term V o), lookup x (o_hist V o)))) (o_endo V o))
            (map (stated_or V (outline_shocks o) (default_stoch V one)) (o_stoch V o))
            (map (stated_or V (outline_shocks o) (default_determ V one)) (o_det V o))
            (outline_defs o) (map (fun kv => (fst kv, DNum (snd kv))) (o_locals V o)) (map GTree (o_exprs V o))).
  assert (I : forall (A : Type) (f : string -> string * A) l, (forall x, fst (f x) = x) -> map fst (map f l) = l).
  { intros A f l H; rewrite map_map; rewrite (map_ext _ (fun x => x) H); apply map_id. }
  assert (S : forall dflt l x s, In (x, s) (map (stated_or V (outline_shocks o) dflt) l) -> described V (outline_shocks o) dflt x s).
  { intros dflt l x s H; apply in_map_iff in H as (y & E & _); injection E as <- <-; unfold described.
    destruct (lookup y (outline_shocks o)); auto. }
  split; [constructor; cbn [m_endog m_stoch m_determ m_params m_locals m_exprs outline_args g_endog g_stoch g_determ g_params g_locals g_shocks g_exprs g_init g_term g_hist]
         |cbn [m_endog m_stoch m_determ m_params m_locals m_exprs]; repeat apply conj; try reflexivity; apply I; reflexivity].
  - symmetry; apply I; reflexivity.
  - intros x i t h H; apply in_map_iff in H as (y & E & _); injection E as <- <- <- <-; auto.
  - symmetry; apply I; reflexivity.
  - apply S.
  - symmetry; apply I; reflexivity.
  - apply S.
  - reflexivity.
  - reflexivity.
  - exists false; reflexivity.
Qed.
Print Assumptions C30_files_are_described.

(** A model as in the theorems above, with a history. *)
Definition eg_def : mdef (option Z) :=
  MDef _ [("x"%string, (Some (Some 4%Z), None, None))] [("e"%string, DStoch None (Some (Some 9%Z)) None None)] []
    [("a"%string, DNum (Some 2%Z)); ("b"%string, DText (chars "a + 1"))] [("q"%string, DNum (Some 6%Z))]
    [GText (chars "x = b*x(-1) + e;")].
Definition eg_args : args (option Z) :=
  Args _ ["x"%string] ["e"%string] [] (Plain [("a"%string, DNum (Some 2%Z)); ("b"%string, DText (chars "a + 1"))])
    (Plain [("q"%string, DNum (Some 6%Z))]) [("e"%string, DStoch None (Some (Some 9%Z)) None None)]
    (FromList false [GText (chars "x = b*x(-1) + e;")]) [("x"%string, Some 4%Z)] [] [].
Definition eg_ops : list (op (option Z)) :=
  [AddParams [("a"%string, DNum (Some 5%Z))]; Read RIndexes; AddExprs [GText (chars "x = a*x(+1);")]; Solve 1].

Example C30_nonvacuous :
  describes _ (Some 1%Z) eg_def eg_args /\ distinct _ (effects _ (Some 1%Z) eg_ops eg_def) /\
  NoDup (keys (m_params _ (effects _ (Some 1%Z) eg_ops eg_def))) /\
  exists m0 m l, onew eg_args = Ok m0 /\ orun false eg_ops m0 = (m, l) /\
    additions_made _ _ _ l /\ repaired _ _ _ l /\
    lookup "b" (s_params _ (c_steady _ _ (derived _ _ _ m))) = Some (Some 6%Z) /\
    List.length (s_exprs _ (c_steady _ _ (derived _ _ _ m))) = 2 /\
    exists mc, ocopy m = Ok mc.
Proof.
  split; [|split; [|split]].
  - constructor; try reflexivity.
    + intros x i t h [E|[]]; injection E as <- <- <- <-; repeat apply conj; reflexivity.
    + intros x s [E|[]]; injection E as <- <-; left; reflexivity.
    + intros x s [].
    + exists false; reflexivity.
  - split; [|split; [|split]]; cbn.
    + constructor; [intros []|constructor].
    + constructor; [intros []|constructor].
    + intros [E|[]]; discriminate E.
    + intros [E|[]]; discriminate E.
  - cbn; repeat constructor; cbn; intuition discriminate.
  - do 3 eexists; split; [vm_compute; reflexivity|]; split; [vm_compute; reflexivity|].
    split; [|split; [|split; [vm_compute; reflexivity|split; [vm_compute; reflexivity|eexists; vm_compute; reflexivity]]]].
    + intros o e [E|[E|[E|[E|[]]]]]; discriminate E.
    + intros l1 o e l2 E.
      destruct l1 as [|? [|? [|? [|? [|? l1]]]]]; discriminate E.
Qed.

(** The alternative of a regime model of [eg_def] after [eg_ops] can be read, and shows the
    replaced equation. *)
Example C52_nonvacuous :
  exists m0 m l R mc m1 st, onew eg_args = Ok m0 /\ orun false eg_ops m0 = (m, l) /\
    oregimes false (OneRegime [(0%Z, GText (chars "x = a;"))]) m = Ok R /\ r_models _ _ _ R = [m; mc] /\
    differs_in (option Z) oparse oscope oscope [(0%Z, GText (chars "x = a;"))] mc m /\
    orun false [Read RSteady] mc = (m1, [(Read RSteady, Ok (OValue (VSteady st)))]) /\
    Some (s_exprs _ st) = match mapM (parse_given (option Z) oparse) [GText (chars "x = a;"); GText (chars "x = a*x(+1);")] with Ok l => Some l | Err _ => None end.
Proof.
  do 7 eexists; split; [vm_compute; reflexivity|]; split; [vm_compute; reflexivity|].
  split; [vm_compute; reflexivity|]; split; [reflexivity|]; split; [|split; vm_compute; reflexivity].
  unfold differs_in; split; [vm_compute; reflexivity|]; split; [|split; [|repeat apply conj; vm_compute; reflexivity]].
  - intros k g [E|[]]; injection E as <- <-; eexists; split; vm_compute; reflexivity.
  - intros [|[|[|i]]] H; [elim H; left; reflexivity|vm_compute; reflexivity..].
Qed.

(** A solver that always fails at second order. *)
Definition osolver1 (lower : option (oscope * matrix (option Z))) (i : list (option (option Z))) (st : steady_repr (option Z))
  (dy : repr (option Z)) (sp : oscope) : res oscope := match lower with None => Ok (s_params _ st) | Some _ => Err ValueErr end.
Example C31_interrupted_nonvacuous :
  exists m0 m l s, onew eg_args = Ok m0 /\
    run (option Z) OZ (Some 0%Z) (Some 1%Z) otrue oisnum odec (fun v => v) oparse false oscope oscope ospace osolver1
      [Solve 2; ReadSolution] m0 = (m, l) /\ map snd l = [Err ValueErr; Ok (OSolution s)].
Proof. do 4 eexists; split; [vm_compute; reflexivity|]; split; vm_compute; reflexivity. Qed.

Example C63_nonvacuous :
  exists m0 m l, onew eg_args = Ok m0 /\
    orun true [AddEndog ["y"%string; "z"%string] (fun x => if String.eqb x "z" then Some (Some 7%Z) else None) (fun _ => None) (fun _ => None)] m0 = (m, l) /\
    map ev_init (d_endog _ (definition _ _ _ m)) = [Some (Some 4%Z); Some (Some 0%Z); Some (Some 7%Z)].
Proof. do 3 eexists; split; [vm_compute; reflexivity|]; split; vm_compute; reflexivity. Qed.
