(** Property C90: models with observed variables. *)
From Verif Require Import Base Syntax Lexer Parser Eval EvalSpec Semantics Factory FactorySpec Calib CalibSpec CalibProofs Indexing DynFunc Vars ExprList
  IndexingSpec IndexingProofs ModelState ModelStateSpec ModelStateProofs ModelStateProofs2 ModelStateProofs3 PropParser PropFile PropModel Views ViewsSpec
  Observe ObserveSpec.

Section Properties.
  Variable V : Type.
  Variable O : ops V.
  Variable zero one : V.
  Variable truthy isnum : V -> bool.
  Variable float_of : text -> option V.
  Variable trunc : V -> option Z.
  Variable parse_text : text -> res (ast V).
  Variable nan : V.
  Variable keeps : bool.
  Variable space_t sol_t : Type.
  Variable space : list (option V) -> steady_repr V -> repr V -> res space_t.
  Variable solver : option (sol_t * matrix V) -> list (option V) -> steady_repr V -> repr V -> space_t -> res sol_t.

  Notation new_model := (ModelState.new_model V O zero one truthy float_of trunc parse_text space_t sol_t space).
  Notation step := (ModelState.step V O zero one truthy isnum float_of trunc parse_text keeps space_t sol_t space solver).
  Notation run := (ModelState.run V O zero one truthy isnum float_of trunc parse_text keeps space_t sol_t space solver).
  Notation read := (ModelState.read V O zero isnum space_t sol_t space).
  Notation update := (ModelState.update V O zero isnum space_t sol_t space).
  Notation ensure := (ModelState.ensure V O zero isnum space_t sol_t space).
  Notation effects := (ModelStateSpec.effects V one).
  Notation describes := (ModelStateSpec.describes V one).
  Notation definition := (ModelState.definition V space_t sol_t).
  Notation derived := (ModelState.derived V space_t sol_t).
  Notation altered := (ModelState.altered V space_t sol_t).
  Notation solution := (ModelState.solution V space_t sol_t).
  Notation mstate := (ModelState.mstate V space_t sol_t).
  Notation observe := (Observe.observe V O zero truthy float_of trunc parse_text nan space_t sol_t space).
  Notation tracks := (ModelStateProofs.tracks V O zero truthy float_of trunc parse_text).
  Notation new_evar := (Vars.new_evar V zero truthy).

  (** ** The observed model *)

  (** What a model with structures just made shows. *)
  Lemma made_read m x st dy sp r : derived m = Cache V space_t x st dy sp None -> altered m = false ->
    d_en_ok V (definition m) = true -> d_st_ok V (definition m) = true -> fresh_of V space_t space (definition m) x st dy sp ->
    snd (read r m) = match r with
                     | RIndexes => Ok (VIndexes x) | RSteady => Ok (VSteady st) | RDynamic => Ok (VDynamic dy) | RSpace => Ok (VSpace sp)
                     | RSigma => do sg <- define_sigma V zero O isnum (d_stoch V (definition m)); Ok (VSigma sg)
                     end.
  Proof.
    intros Hd Ha H1 H2 F; unfold ModelState.read; rewrite Ha.
    destruct r; cbn [orb ModelState.ensure fst snd]; try (rewrite Hd; reflexivity).
    unfold no_sigma; rewrite Hd; cbn [c_sigma ModelState.ensure].
    destruct (define_sigma V zero O isnum (d_stoch V (definition m))) as [sg|e] eqn:Es.
    - destruct (update_total V O zero isnum space_t sol_t space m x st dy sp sg H1 H2 F Es) as (d' & ->); reflexivity.
    - destruct F as (lls & F1 & _); unfold ModelState.update, lead_lags; rewrite H1, F1.
      unfold stoch_names, set_endog; cbn [d_st_ok d_stoch]; rewrite H2; cbn [bind]; rewrite Es; reflexivity.
  Qed.

  Lemma by_name_spec f l v : NoDup (map ev_name l) -> In v l -> lookup (ev_name v) (by_name V nan f l) = Some (as_float V nan (f v)).
  Proof. intros N Hv; exact (proj1 (dict_lookup ev_name (fun v => as_float V nan (f v)) l [] N) v Hv). Qed.
  Lemma by_name_out f l x : NoDup (map ev_name l) -> ~ In x (map ev_name l) -> lookup x (by_name V nan f l) = None.
  Proof. intros N Hx; exact (proj2 (dict_lookup ev_name (fun v => as_float V nan (f v)) l [] N) x Hx). Qed.

  (** The state space is computed from the array of starting values, in which None is nan. *)
  Definition reads_floats : Prop := forall is is' st dy, map (as_float V nan) is = map (as_float V nan) is' -> space is st dy = space is' st dy.

  Lemma extend_total gs : forall x es, mapM (parse_given V parse_text) gs = Ok es -> exists y, extend V parse_text gs x = (y, Ok tt).
  Proof.
    induction gs as [|g gs IH]; intros x es H; cbn [extend mapM] in *; [eauto|].
    apply bind_ok in H as (e & He & H); apply bind_ok in H as (es' & Hes & _).
    unfold append, insert; rewrite He; eauto.
  Qed.

  (** The values of the new variables. *)
  Lemma observed_inits d m eqs lls : tracks d (definition m) -> distinct V (observed_def V eqs d) ->
    let e := d_endog V (definition m) in
    let names := map ev_name e ++ map fst eqs in
    let e' := create_endog V zero truthy names (by_name V nan ev_init e) (by_name V nan ev_term e) (by_name V nan ev_hist e) lls in
    map ev_name e' = names /\ map (as_float V nan) (map ev_init e') = map (as_float V nan) (map ev_init e ++ map (fun _ => Some zero) eqs).
  Proof.
    intros T N e names e'.
    assert (HN : map ev_name e = map fst (m_endog V d)) by exact (tracks_names V O zero truthy float_of trunc parse_text _ _ T).
    assert (N1 : NoDup (map ev_name e ++ map fst eqs)).
    { destruct N as (N & _); unfold observed_def in N; cbn [m_endog] in N; rewrite map_app, map_map in N; rewrite HN; exact N. }
    assert (N2 : NoDup (map ev_name e)) by (apply NoDup_front in N1; exact N1).
    assert (N3 : forall x, In x (map fst eqs) -> ~ In x (map ev_name e)).
    { intros x Hx Hy; clear - N1 Hx Hy; induction (map ev_name e) as [|a l IH]; [destruct Hy|].
      cbn [app] in N1; inversion N1 as [|? ? A B]; subst; destruct Hy as [->|Hy]; [apply A, in_or_app; auto|exact (IH B Hy)]. }
    split; subst e' names; unfold create_endog; rewrite !map_map; [apply map_id|].
    rewrite !map_app, !map_map; f_equal.
    - apply map_ext_in; intros v Hv; unfold Vars.new_evar; cbn [ev_init].
      rewrite !by_name_spec by assumption; reflexivity.
    - apply map_ext_in; intros p Hp; unfold Vars.new_evar; cbn [ev_init].
      rewrite !by_name_out; [reflexivity|..]; auto; apply N3, in_map; exact Hp.
  Qed.

  (** When the observed model can be made, and what it is. *)
  Lemma observe_spec d m eqs a' : eqs <> [] -> tracks d (definition m) -> distinct V (observed_def V eqs d) -> NoDup (keys (m_params V d)) ->
    m_locals V d = [] -> d_en_ok V (definition m) = true -> reads_floats ->
    describes (observed_def V eqs d) a' ->
    match snd (observe eqs m), new_model a' with
    | Ok ob, Ok m1 => forall r, snd (read r ob) = snd (read r m1)
    | Err _, Err _ => True
    | _, _ => False
    end.
  Proof.
    intros Hne T N NP HL Hen HS Da.
    set (D := definition m) in *.
    (* a model that is described by the extended definitions *)
    assert (P : exists cp, d_params V D = Cal (Plain (m_params V d)) cp /\ solve_calibration V O float_of trunc (m_params V d) = Ok cp /\ NoDup (keys cp)).
    { destruct T as (_ & _ & _ & (cp & P1 & P2) & _); exists cp; repeat split; auto.
      apply solve_iff in P2; [|exact NP]; destruct P2 as (_ & _ & K & _); rewrite K; exact NP. }
    destruct P as (cp & P1 & P2 & P3).
    assert (L0 : solve_calibration V O float_of trunc [] = Ok []) by exact (solve_numbers V O float_of trunc [] (NoDup_nil _)).
    pose (en := map (fun p : string * bounds V => new_evar (fst p) (fst (fst (snd p))) (snd (fst (snd p))) (snd (snd p)) None) (m_endog V (observed_def V eqs d))).
    pose (sur := fun ex => Defs V en true (d_stoch V D) true (d_determ V D) (d_params V D) (Cal (Plain []) []) ex).
    assert (TS : forall ex es, mapM (parse_given V parse_text) (map (observation V) eqs) = Ok es -> trees ex = trees (d_exprs V D) ++ es ->
      tracks (observed_def V eqs d) (sur ex)).
    { intros ex es H1 H2; destruct T as (T1 & T2 & T3 & T4 & T5 & T6); unfold sur, ModelStateProofs.tracks, observed_def;
        cbn [m_endog m_stoch m_determ m_params m_locals m_exprs d_endog d_stoch d_determ d_params d_locals d_exprs]; repeat apply conj; auto.
      - subst en; unfold observed_def; cbn [m_endog]; generalize (m_endog V d ++ map (fun p : string * text => (fst p, (@None V, @None V, @None V))) eqs); clear.
        intros l; induction l as [|p l IH]; [constructor|]; cbn [map]; constructor; [reflexivity|exact IH].
      - rewrite HL; eauto.
      - rewrite H2; apply mapM_app; assumption. }
    assert (EN : map ev_name en = map ev_name (d_endog V D) ++ map fst eqs).
    { subst en; rewrite map_map; unfold observed_def; cbn [m_endog]; rewrite map_app, map_map.
      rewrite (tracks_names V O zero truthy float_of trunc parse_text _ _ T); f_equal. }
    assert (EI : map ev_init en = map ev_init (d_endog V D) ++ map (fun _ => Some zero) eqs).
    { subst en; rewrite map_map; unfold observed_def; cbn [m_endog]; rewrite map_app, map_map.
      rewrite (tracks_inits V O zero truthy float_of trunc parse_text _ _ T); f_equal. }
    assert (SC : forall ex, model_scope V (sur ex) = cp).
    { intros ex; unfold model_scope, sur; cbn [d_params d_locals]; rewrite P1; reflexivity. }
    assert (NC : new_calibration V O float_of trunc (Nested (d_params V D)) = Ok (Cal (Nested (d_params V D)) cp)).
    { unfold new_calibration; cbn [definitions]; rewrite P1; cbn [solved]; rewrite (solve_numbers V O float_of trunc cp P3); reflexivity. }
    assert (Hobs : forall ex es, mapM (parse_given V parse_text) (map (observation V) eqs) = Ok es ->
       extend V parse_text (map (observation V) eqs) (d_exprs V D) = (ex, Ok tt) -> trees ex = trees (d_exprs V D) ++ es ->
       match snd (observe eqs m) with
       | Ok ob => exists x st dy sp, derived ob = Cache V space_t x st dy sp None /\ altered ob = false /\ d_en_ok V (definition ob) = true /\
                    d_st_ok V (definition ob) = true /\ fresh_of V space_t space (definition ob) x st dy sp /\ d_stoch V (definition ob) = d_stoch V D /\
                    fresh_of V space_t space (sur ex) x st dy sp
       | Err _ => forall x st dy sp, ~ fresh_of V space_t space (sur ex) x st dy sp
       end).
    { intros ex es H1 H2 H3; unfold Observe.observe; destruct eqs as [|q eqs']; [contradiction|]; set (eqs := q :: eqs') in *.
      fold D; rewrite H2, Hen; cbn [negb]; rewrite NC.
      assert (FR : forall x st dy sp, fresh_of V space_t space (sur ex) x st dy sp <->
        exists lls, Indexing.set_lead_lags V (map ev_name (d_endog V D) ++ map fst eqs) (trees ex) = Ok lls /\ index_manager lls (List.length (d_stoch V D)) = Ok x /\
          new_steady V (map ev_name (d_endog V D) ++ map fst eqs) (trees ex) cp = Ok st /\
          new_dynamic V (map ev_name (d_endog V D) ++ map fst eqs) (map sv_name (d_stoch V D)) (trees ex) cp x = Ok dy /\
          space (map ev_init (d_endog V D) ++ map (fun _ => Some zero) eqs) st dy = Ok sp).
      { intros x st dy sp; unfold fresh_of, fresh; rewrite SC; unfold sur; cbn [d_endog d_stoch d_exprs]; rewrite EN, EI; reflexivity. }
      destruct (Indexing.set_lead_lags V (map ev_name (d_endog V D) ++ map fst eqs) (trees ex)) as [lls|e] eqn:Ell; cbn [snd solved].
      2:{ intros x st dy sp F; apply FR in F as (lls & F & _); discriminate. }
      destruct (observed_inits d m eqs lls T N) as (I1 & I2); fold D in I1, I2.
      set (e' := create_endog _ _ _ _ _ _ _ _) in *.
      assert (IX : index_of V e' (List.length (d_stoch V D)) = index_manager lls (List.length (d_stoch V D))).
      { pose proof (lls_names V _ _ _ Ell) as Hn.
        assert (NN : NoDup (map fst (m_endog V (observed_def V eqs d)))) by exact (proj1 N).
        assert (Hn2 : map fst lls = map fst (m_endog V (observed_def V eqs d))).
        { rewrite Hn, <- EN; subst en; rewrite map_map; reflexivity. }
        pose proof (index_lookup V zero truthy (m_endog V (observed_def V eqs d)) lls Hn2 NN) as X.
        assert (E : mapM (fun v => match ev_ll v with Some ps => Ok (ev_name v, ps) | None => Err TypeErr end) e' = Ok lls).
        { assert (G1 : forall ns i t h, mapM (fun v : evar V => match ev_ll v with Some ps => Ok (ev_name v, ps) | None => Err TypeErr end) (create_endog V zero truthy ns i t h lls) =
            mapM (fun y => match lookup y lls with Some ps => Ok (y, ps) | None => Err TypeErr end) ns).
          { clear; intros ns i t h; induction ns as [|y ns IH]; [reflexivity|]; unfold create_endog in *; cbn [map mapM]; cbn [Vars.new_evar ev_ll ev_name].
            rewrite IH; reflexivity. }
          assert (G2 : forall l : list (string * bounds V), mapM (fun v : evar V => match ev_ll v with Some ps => Ok (ev_name v, ps) | None => Err TypeErr end)
              (map (fun p : string * bounds V => new_evar (fst p) (fst (fst (snd p))) (snd (fst (snd p))) (snd (snd p)) (lookup (fst p) lls)) l) =
            mapM (fun y => match lookup y lls with Some ps => Ok (y, ps) | None => Err TypeErr end) (map fst l)).
          { clear; intros l; induction l as [|y l IH]; [reflexivity|]; cbn [map mapM]; cbn [Vars.new_evar ev_ll ev_name].
            rewrite IH; reflexivity. }
          rewrite <- X, G2; subst e'; rewrite G1, <- EN; subst en; rewrite map_map; reflexivity. }
        unfold index_of; rewrite E; reflexivity. }
      destruct (new_steady V (map ev_name (d_endog V D) ++ map fst eqs) (trees ex) cp) as [st|e] eqn:Est; cbn [bind].
      2:{ intros x st dy sp F; apply FR in F as (lls' & F1 & F2 & F3 & _); congruence. }
      rewrite IX; destruct (index_manager lls (List.length (d_stoch V D))) as [x|e] eqn:Ex; cbn [bind].
      2:{ intros x st' dy sp F; apply FR in F as (lls' & F1 & F2 & F3 & _); injection F1 as <-; congruence. }
      destruct (new_dynamic V (map ev_name (d_endog V D) ++ map fst eqs) (map sv_name (d_stoch V D)) (trees ex) cp x) as [dy|e] eqn:Edy; cbn [bind].
      2:{ intros x' st' dy sp F; apply FR in F as (lls' & F1 & F2 & F3 & F4 & _); injection F1 as <-; rewrite Ex in F2; injection F2 as <-; congruence. }
      rewrite (HS _ _ st dy I2); destruct (space (map ev_init (d_endog V D) ++ map (fun _ => Some zero) eqs) st dy) as [sp|e] eqn:Esp; cbn [bind].
      2:{ intros x' st' dy' sp F; apply FR in F as (lls' & F1 & F2 & F3 & F4 & F5); injection F1 as <-; rewrite Ex in F2; injection F2 as <-; congruence. }
      exists x, st, dy, sp; cbn [ModelState.derived ModelState.altered ModelState.definition d_en_ok d_st_ok d_stoch].
      split; [reflexivity|]; split; [reflexivity|]; split; [reflexivity|]; split; [reflexivity|].
      assert (F : fresh_of V space_t space (sur ex) x st dy sp) by (apply FR; exists lls; repeat apply conj; auto).
      split; [|split; [reflexivity|exact F]].
      unfold fresh_of, fresh in *; rewrite SC in F; unfold sur in F; cbn [d_endog d_stoch d_exprs] in *; rewrite I1; rewrite EN, EI in F.
      destruct F as (lls' & F1 & F2 & F3 & F4 & F5); exists lls'; repeat apply conj; auto; rewrite (HS _ _ st dy I2); exact F5. }
    destruct (new_model a') as [m1|e] eqn:Em.
    - destruct (new_model_known V O zero one truthy isnum float_of trunc parse_text space_t sol_t space _ a' m1 Da N Em) as (K1 & A1 & _ & E1 & E2 & (C1 & _) & Sg).
      assert (PE : exists es, mapM (parse_given V parse_text) (map (observation V) eqs) = Ok es).
      { destruct K1 as (_ & _ & _ & _ & _ & K6); unfold observed_def in K6; cbn [m_exprs] in K6; clear - K6.
        apply mapM_ok in K6; apply Forall2_app_inv_l in K6 as (u & w & _ & K6 & _); exists w; apply mapM_ok; exact K6. }
      destruct PE as (es & Ees).
      destruct (extend_total _ (d_exprs V D) _ Ees) as (ex & Eex).
      destruct (extend_spec V parse_text _ _ _ _ Eex) as (es' & Ees' & Etr); assert (es' = es) by congruence; subst es'.
      pose proof (TS ex es Ees Etr) as TX.
      pose proof (tracks_fresh V O zero truthy float_of trunc parse_text space_t space _ _ _ _ _ _ _ K1 TX C1) as F1.
      specialize (Hobs ex es Ees Eex Etr).
      destruct (snd (observe eqs m)) as [ob|e]; [|exact (Hobs _ _ _ _ F1)].
      destruct Hobs as (x & st & dy & sp & O1 & O2 & O3 & O4 & O5 & O6 & O7).
      destruct (fresh_fun V space_t space _ _ _ _ _ _ _ _ _ _ _ _ _ O7 F1) as (X1 & X2 & X3 & X4).
      intros r; rewrite (made_read ob x st dy sp r O1 O2 O3 O4 O5).
      assert (Dm : derived m1 = Cache V space_t x st dy sp None).
      { destruct (derived m1); cbn in *; congruence. }
      rewrite Dm in C1; cbn in C1.
      rewrite (made_read m1 x st dy sp r Dm A1 E1 E2 C1).
      assert (SS : d_stoch V (definition m1) = d_stoch V D) by (symmetry; exact (tracks_stoch V O zero truthy float_of trunc parse_text _ _ _ K1 TX)).
      rewrite O6, SS; reflexivity.
    - destruct (snd (observe eqs m)) as [ob|e'] eqn:Eo; [|exact I].
      assert (PE : exists ex, extend V parse_text (map (observation V) eqs) (d_exprs V D) = (ex, Ok tt)).
      { clear - Eo; unfold Observe.observe in Eo; destruct eqs as [|q eqs']; [discriminate|]; fold D in Eo.
        destruct (extend V parse_text (map (observation V) (q :: eqs')) (d_exprs V D)) as [ex [[]|er]]; [eauto|discriminate]. }
      destruct PE as (ex & Eex); destruct (extend_spec V parse_text _ _ _ _ Eex) as (es & Ees & Etr).
      destruct (Hobs ex es Ees Eex Etr) as (x & st & dy & sp & _ & _ & _ & _ & _ & _ & F).
      destruct (new_model_total V O zero one truthy float_of trunc parse_text space_t sol_t space _ a' _ _ _ _ _ Da N (TS ex es Ees Etr) F) as (m1 & Hm & _); congruence.
  Qed.

  Notation similar := (ModelStateProofs.similar V).
  Notation finish := (ModelState.finish V space_t sol_t solver).
  Notation solve_one := (ModelState.solve_one V O zero isnum space_t sol_t space solver).
  Notation solve_two := (ModelState.solve_two V O zero isnum space_t sol_t space solver).
  Notation solve := (ModelState.solve V O zero isnum space_t sol_t space solver).
  Notation read_solution := (ModelState.read_solution V O zero isnum space_t sol_t space solver).
  Notation simulate := (ModelState.simulate V O zero isnum space_t sol_t space solver).

  (** Reading and solving change no more than the recorded lead-lag sets. *)
  Lemma update_similar m m' r : update m = (m', r) -> similar (definition m) (definition m').
  Proof. intros H; destruct (update_spec V O zero isnum space_t sol_t space _ _ _ H) as (_ & _ & [[_ S]|(_ & _ & S)] & _); exact S. Qed.
  Lemma ensure_similar b m m' r : ensure b m = (m', r) -> similar (definition m) (definition m').
  Proof. unfold ModelState.ensure; destruct b; [apply update_similar|]; intros H; injection H as <- _; apply similar_refl. Qed.
  Lemma read_similar r m m' v : read r m = (m', v) -> similar (definition m) (definition m').
  Proof.
    unfold ModelState.read; destruct (ensure _ m) as [m1 [u|e]] eqn:E; intros H; injection H as <- _; apply (ensure_similar _ _ _ _ E).
  Qed.
  Lemma finish_same lower m m' v : finish lower m = (m', v) -> definition m' = definition m.
  Proof. unfold ModelState.finish; destruct (solver _ _ _ _ _); intros H; injection H as <- _; reflexivity. Qed.
  Lemma one_similar m m' v : solve_one m = (m', v) -> similar (definition m) (definition m').
  Proof.
    unfold ModelState.solve_one; destruct (ensure _ m) as [m1 [u|e]] eqn:E; intros H.
    - rewrite (finish_same _ _ _ _ H); apply (ensure_similar _ _ _ _ E).
    - injection H as <- _; apply (ensure_similar _ _ _ _ E).
  Qed.
  Lemma solve_similar o m m' v : solve o m = (m', v) -> similar (definition m) (definition m').
  Proof.
    unfold ModelState.solve; cbn zeta; destruct (_ =? 1); [apply one_similar|].
    destruct (_ =? 2); [|intros H; injection H as <- _; apply similar_refl].
    unfold ModelState.solve_two; destruct (solve_one m) as [m1 [s|e]] eqn:E1; intros H; pose proof (one_similar _ _ _ E1) as S1; [|injection H as <- _; exact S1].
    destruct (ensure _ m1) as [m2 [u2|e]] eqn:E2; pose proof (similar_trans V _ _ _ S1 (ensure_similar _ _ _ _ E2)) as S2; [|injection H as <- _; exact S2].
    destruct (c_sigma _ _ _); [|injection H as <- _; exact S2]; rewrite (finish_same _ _ _ _ H); exact S2.
  Qed.
  Lemma simulate_similar o m m' v : simulate o m = (m', v) -> similar (definition m) (definition m').
  Proof.
    unfold ModelState.simulate; destruct (if o =? 0 then _ else _) as [m1 s] eqn:E1; intros H.
    assert (S1 : similar (definition m) (definition m1)).
    { destruct (o =? 0); [destruct (solution m); [injection E1 as <- _; apply similar_refl|]|]; apply (solve_similar _ _ _ _ E1). }
    destruct s as [s|e]; [|injection H as <- _; exact S1].
    destruct (update m1) as [m2 [u|e]] eqn:E2; injection H as <- _; exact (similar_trans V _ _ _ S1 (update_similar _ _ _ E2)).
  Qed.

  Lemma intact_names os : (keeps = true \/ forall o, In o os -> ~ adds_variables V o) ->
    forall m m' l, run os m = (m', l) -> d_en_ok V (definition m) = true -> d_en_ok V (definition m') = true.
  Proof.
    intros Hk; induction os as [|o os IH]; intros m m' l R E; cbn [ModelState.run] in R; [injection R as <- _; exact E|].
    destruct (step o m) as [m1 r] eqn:S; destruct (run os m1) as [m2 l'] eqn:R'; injection R as <- _.
    assert (Hk' : keeps = true \/ forall o, In o os -> ~ adds_variables V o) by (destruct Hk as [H|H]; [auto|right; intros; apply H; right; assumption]).
    apply (IH Hk' m1 m2 l' R'); clear IH R' Hk'.
    destruct o as [ns i t h|ps|gs|ns sh|ns sh|r0|o| |o]; unfold ModelState.step, ok_with in S.
    - destruct Hk as [Hk|Hk]; [|exfalso; exact (Hk _ (or_introl eq_refl) I)].
      unfold add_endog in S; cbn [fst snd bind] in S; injection S as <- _; exact Hk.
    - unfold add_params in S; destruct (set_params V O float_of trunc ps (d_params V (definition m))) as [k [u|e']]; cbn [fst snd bind] in S; injection S as <- _; exact E.
    - unfold add_exprs in S; destruct (extend V parse_text gs (d_exprs V (definition m))) as [k [u|e']]; cbn [fst snd bind] in S; injection S as <- _; exact E.
    - unfold add_stoch in S; destruct (create_stoch V one ns sh); cbn [fst snd bind] in S; injection S as <- _; exact E.
    - unfold add_determ in S; destruct (create_determ V one ns sh); cbn [fst snd bind] in S; injection S as <- _; exact E.
    - apply (f_equal fst) in S; cbn [fst] in S; destruct (read r0 m) as [m3 w] eqn:Er; cbn [fst] in S; subst m3; destruct (read_similar _ _ _ _ Er) as [-> _]; exact E.
    - apply (f_equal fst) in S; cbn [fst] in S; destruct (solve o m) as [m3 w] eqn:Er; cbn [fst] in S; subst m3; destruct (solve_similar _ _ _ _ Er) as [-> _]; exact E.
    - apply (f_equal fst) in S; cbn [fst] in S; unfold ModelState.read_solution in S; destruct (solution m); [cbn [fst] in S; subst m1; exact E|].
      destruct (solve 2 m) as [m3 w] eqn:Er; cbn [fst] in S; subst m3; destruct (solve_similar _ _ _ _ Er) as [-> _]; exact E.
    - apply (f_equal fst) in S; cbn [fst] in S; destruct (simulate o m) as [m3 w] eqn:Er; cbn [fst] in S; subst m3; destruct (simulate_similar _ _ _ _ Er) as [-> _]; exact E.
  Qed.

  (** C90. Full statement: the observed model of a model, whatever its history, is the model
      with one more variable and one more equation for each observation.  Proved for models
      without local parameters; missing: see the refutations.  One of them can be made if the other can, and they show the same. *)
  Theorem C90_observed_partial :
    forall d a m0 os m l eqs a',
      describes d a -> new_model a = Ok m0 -> run os m0 = (m, l) -> additions_made V space_t sol_t l ->
      (keeps = true \/ forall o, In o os -> ~ adds_variables V o) ->
      let D := effects os d in
      eqs <> [] -> distinct V (observed_def V eqs D) -> NoDup (keys (m_params V D)) -> m_locals V D = [] ->
      reads_floats ->
      describes (observed_def V eqs D) a' ->
      match snd (observe eqs m), new_model a' with
      | Ok ob, Ok m1 => forall r, snd (step (Read r) ob) = snd (step (Read r) m1)
      | Err _, Err _ => True
      | _, _ => False
      end.
  Proof.
    intros d a m0 os m l eqs a' Dd Hm R A Hk D Hne N NP HL HS Da.
    assert (ND : distinct V D).
    { destruct N as (N1 & N2 & N3 & N4); unfold observed_def in *; cbn [m_endog m_stoch m_determ] in *; rewrite map_app in N1, N3.
      split; [apply NoDup_front in N1; exact N1|]; split; [exact N2|]; split; [intros X; apply N3, in_or_app; auto|exact N4]. }
    destruct (start V O zero one truthy isnum float_of trunc parse_text space_t sol_t space d a m0 Dd (distinct_effects V one os d ND) Hm) as (K & _ & (I1 & _) & _).
    pose proof (run_known V O zero one truthy isnum float_of trunc parse_text keeps space_t sol_t space solver os d m0 m l K R A) as K'.
    pose proof (intact_names os Hk m0 m l R I1) as E.
    pose proof (observe_spec D m eqs a' Hne K' N NP HL E HS Da) as H.
    destruct (snd (observe eqs m)) as [ob|e]; destruct (new_model a') as [m1|e']; auto.
    intros r; specialize (H r); unfold ModelState.step, ok_with; cbn [snd]; rewrite H; reflexivity.
  Qed.

  (** ** The original model *)

  Definition alike (m m' : mstate) : Prop :=
    similar (definition m) (definition m') /\ derived m' = derived m /\ altered m' = altered m /\ solution m' = solution m.
  Definition alike2 {A} (p p' : mstate * A) : Prop := alike (fst p) (fst p') /\ snd p' = snd p.

  Lemma alike_refl m : alike m m.
  Proof. split; [apply similar_refl|auto]. Qed.

  Lemma similar_with_eq d d' lls : similar d d' -> map fst lls = map ev_name (d_endog V d) \/ d_endog V d = [] ->
    set_endog V (with_lead_lags V (d_endog V d') lls) d' = set_endog V (with_lead_lags V (d_endog V d) lls) d.
  Proof.
    intros [H1 H2] Hl; rewrite H1; unfold set_endog; cbn [d_en_ok d_stoch d_st_ok d_determ d_params d_locals d_exprs d_endog]; f_equal.
    clear H1; revert lls Hl; induction H2 as [|v v' l l' Hv _ IH]; intros lls Hl; [reflexivity|].
    destruct lls as [|p lls]; [reflexivity|]; unfold with_lead_lags in *; cbn [combine map fst snd]; f_equal.
    - rewrite Hv; reflexivity.
    - apply IH; destruct Hl as [Hl|Hl]; [left; cbn [map] in Hl; congruence|discriminate].
  Qed.

  Lemma update_alike m m' : alike m m' -> alike2 (update m) (update m').
  Proof.
    intros (S & E1 & E2 & E3).
    destruct (similar_names V _ _ S) as [N1 N2]; destruct (similar_fields V _ _ S) as (F1 & F2 & F3 & F4 & F5 & F6 & F7).
    assert (EL : lead_lags V (definition m') = lead_lags V (definition m)).
    { unfold lead_lags; rewrite F1, F7, N1; destruct (d_en_ok V (definition m)); [reflexivity|].
      destruct S as [_ S]; inversion S; reflexivity. }
    unfold ModelState.update; rewrite EL, E1, E3.
    destruct (lead_lags V (definition m)) as [lls|e] eqn:Ell; [|split; [split; [exact S|cbn; auto]|reflexivity]].
    assert (W : set_endog V (with_lead_lags V (d_endog V (definition m')) lls) (definition m') = set_endog V (with_lead_lags V (d_endog V (definition m)) lls) (definition m)).
    { apply similar_with_eq; [exact S|]; unfold lead_lags in Ell; destruct (d_en_ok V (definition m)); [left; apply (lls_names V _ _ _ Ell)|].
      apply bind_ok in Ell as (u & _ & Ell); destruct (d_endog V (definition m)); [auto|discriminate]. }
    rewrite W; split; [apply alike_refl|reflexivity].
  Qed.
  Lemma ensure_alike b m m' : alike m m' -> alike2 (ensure b m) (ensure b m').
  Proof. destruct b; [apply update_alike|]; intros H; split; [exact H|reflexivity]. Qed.
  Lemma read_alike r m m' : alike m m' -> alike2 (read r m) (read r m').
  Proof.
    intros H; pose proof H as (_ & E1 & E2 & _); unfold ModelState.read, no_sigma; rewrite E1, E2.
    set (b := match r with RSigma => _ | _ => _ end); destruct (ensure_alike b m m' H) as [A B].
    destruct (ensure b m) as [m1 o], (ensure b m') as [m1' o']; cbn [fst snd] in A, B; subst o'; destruct o as [u|e]; split; auto.
    destruct A as (_ & A & _); cbn [snd]; rewrite A; reflexivity.
  Qed.
  Lemma finish_alike lower m m' : alike m m' -> alike2 (finish lower m) (finish lower m').
  Proof.
    intros H; pose proof H as (S & E1 & E2 & E3); unfold ModelState.finish; rewrite E1, (proj2 (similar_names V _ _ S)).
    destruct (solver _ _ _ _ _); split; auto; cbn [fst]; split; [exact S|]; rewrite E2; cbn; auto.
  Qed.
  Lemma one_alike m m' : alike m m' -> alike2 (solve_one m) (solve_one m').
  Proof.
    intros H; pose proof H as (_ & _ & E2 & _); unfold ModelState.solve_one; rewrite E2; destruct (ensure_alike (altered m) m m' H) as [A B].
    destruct (ensure (altered m) m) as [m1 o], (ensure (altered m) m') as [m1' o']; cbn [fst snd] in A, B; subst o'; destruct o as [u|e].
    - apply finish_alike, A.
    - split; auto.
  Qed.
  Lemma solve_alike o m m' : alike m m' -> alike2 (solve o m) (solve o m').
  Proof.
    intros H; unfold ModelState.solve; cbn zeta; destruct (_ =? 1); [apply one_alike, H|]; destruct (_ =? 2); [|split; auto].
    unfold ModelState.solve_two; destruct (one_alike m m' H) as [A B].
    destruct (solve_one m) as [m1 q], (solve_one m') as [m1' q']; cbn [fst snd] in A, B; subst q'; destruct q as [s|e]; [|split; auto].
    pose proof A as (_ & A1 & A2 & _); unfold no_sigma; rewrite A1, A2; set (b := orb _ _); destruct (ensure_alike b m1 m1' A) as [C D].
    destruct (ensure b m1) as [m2 q], (ensure b m1') as [m2' q']; cbn [fst snd] in C, D; subst q'; destruct q as [u|e]; [|split; auto].
    pose proof C as (_ & C1 & _); rewrite C1; destruct (c_sigma V space_t (derived m2)); [apply finish_alike, C|split; auto].
  Qed.
  Lemma simulate_alike o m m' : alike m m' -> alike2 (simulate o m) (simulate o m').
  Proof.
    intros H; unfold ModelState.simulate.
    assert (G : alike2 (if o =? 0 then match solution m with Some s => (m, Ok s) | None => solve 0 m end else solve o m)
                  (if o =? 0 then match solution m' with Some s => (m', Ok s) | None => solve 0 m' end else solve o m')).
    { pose proof H as (_ & _ & _ & E3); rewrite E3; destruct (o =? 0); [destruct (solution m); [split; auto|]|]; apply solve_alike, H. }
    destruct (if o =? 0 then match solution m with Some s => (m, Ok s) | None => solve 0 m end else solve o m) as [m1 q],
      (if o =? 0 then match solution m' with Some s => (m', Ok s) | None => solve 0 m' end else solve o m') as [m1' q'].
    destruct G as [A B]; cbn [fst snd] in A, B; subst q'; destruct q as [s|e]; [|split; auto].
    destruct (update_alike m1 m1' A) as [C D]; destruct (update m1) as [m2 q], (update m1') as [m2' q']; cbn [fst snd] in C, D; subst q'.
    destruct q; split; auto; cbn [snd]; destruct C as (_ & C & _); rewrite C; reflexivity.
  Qed.
  Lemma ok_alike {A} (f : A -> out V space_t sol_t) p p' : alike2 p p' -> alike2 (ok_with V space_t sol_t f p) (ok_with V space_t sol_t f p').
  Proof. intros [A1 A2]; split; [exact A1|]; unfold ok_with; cbn [snd]; rewrite A2; reflexivity. Qed.
  Lemma step_alike o m m' : alike m m' -> alike2 (step o m) (step o m').
  Proof.
    intros H; pose proof H as (S & E1 & E2 & E3).
    destruct (similar_fields V _ _ S) as (F1 & F2 & F3 & F4 & F5 & F6 & F7).
    assert (SE : forall e st sok dt k lc ex eo, similar (Defs V (d_endog V (definition m) ++ e) eo st sok dt k lc ex) (Defs V (d_endog V (definition m') ++ e) eo st sok dt k lc ex)).
    { intros; split; [reflexivity|]; cbn [d_endog]; apply Forall2_app; [exact (proj2 S)|]; clear; induction e as [|v l IH]; constructor; [destruct v; reflexivity|exact IH]. }
    assert (SE0 : forall st sok dt k lc ex eo, similar (Defs V (d_endog V (definition m)) eo st sok dt k lc ex) (Defs V (d_endog V (definition m')) eo st sok dt k lc ex)).
    { intros; split; [reflexivity|]; exact (proj2 S). }
    destruct o as [ns i t h|ps|gs|ns sh|ns sh|r|o| |o]; unfold ModelState.step; apply ok_alike.
    - unfold add_endog; split; [|reflexivity]; cbn [fst]; unfold alter, alike; cbn [ModelState.definition ModelState.derived ModelState.altered ModelState.solution].
      rewrite F2, F3, F4, F5, F6, F7, E1, E3; repeat split; auto; apply (proj2 (SE _ _ _ _ _ _ _ _)).
    - unfold add_params; rewrite F1, F2, F3, F4, F5, F6, F7; destruct (set_params _ _ _ _ _ _) as [k [u|e]]; split; try reflexivity; cbn [fst]; unfold alter, change, alike;
        cbn [ModelState.definition ModelState.derived ModelState.altered ModelState.solution]; rewrite ?E1, ?E2, ?E3; split; auto; apply SE0.
    - unfold add_exprs; rewrite F1, F2, F3, F4, F5, F6, F7; destruct (extend _ _ _ _) as [k [u|e]]; split; try reflexivity; cbn [fst]; unfold alter, change, alike;
        cbn [ModelState.definition ModelState.derived ModelState.altered ModelState.solution]; rewrite ?E1, ?E2, ?E3; split; auto; apply SE0.
    - unfold add_stoch; rewrite F1, F2, F4, F5, F6, F7; destruct (create_stoch _ _ _ _); split; try reflexivity; cbn [fst]; [|exact H]; unfold alter, alike;
        cbn [ModelState.definition ModelState.derived ModelState.altered ModelState.solution]; rewrite ?E1, ?E2, ?E3; split; auto; apply SE0.
    - unfold add_determ; rewrite F1, F2, F3, F4, F5, F6, F7; destruct (create_determ _ _ _ _); split; try reflexivity; cbn [fst]; [|exact H]; unfold alter, alike;
        cbn [ModelState.definition ModelState.derived ModelState.altered ModelState.solution]; rewrite ?E1, ?E2, ?E3; split; auto; apply SE0.
    - apply read_alike, H.
    - apply solve_alike, H.
    - unfold ModelState.read_solution; rewrite E3; destruct (solution m); [split; auto|apply solve_alike, H].
    - apply simulate_alike, H.
  Qed.
  Lemma run_alike os : forall m m', alike m m' -> alike2 (run os m) (run os m').
  Proof.
    induction os as [|o os IH]; intros m m' H; cbn [ModelState.run]; [split; auto|].
    destruct (step_alike o m m' H) as [A B]; destruct (step o m) as [m1 r], (step o m') as [m1' r']; cbn [fst snd] in A, B; subst r'.
    destruct (IH m1 m1' A) as [C D]; destruct (run os m1) as [m2 l], (run os m1') as [m2' l']; cbn [fst snd] in C, D; subst l'; split; auto.
  Qed.

  (** Making an observed model, successfully or not, changes nothing that the model shows,
      then or after any history. *)
  Theorem C90_original :
    forall eqs m os, snd (run os (fst (observe eqs m))) = snd (run os m).
  Proof.
    intros eqs m os.
    assert (A : alike m (fst (observe eqs m))).
    { unfold Observe.observe; destruct eqs as [|q eqs]; [apply alike_refl|].
      destruct (extend _ _ _ _) as [ex [[]|e]]; [|apply alike_refl].
      destruct (d_en_ok V (definition m)); cbn [negb]; [|apply alike_refl].
      destruct (new_calibration _ _ _ _ _) as [pc|e]; [|apply alike_refl].
      destruct (Indexing.set_lead_lags _ _ _) as [lls|e] eqn:Ell; [|apply alike_refl].
      cbn [fst]; unfold change, alike; cbn [ModelState.definition ModelState.derived ModelState.altered ModelState.solution]; split; [|auto].
      pose proof (lls_names V _ _ _ Ell) as Hn; split; [reflexivity|]; unfold set_endog; cbn [d_endog].
      clear Ell; revert lls Hn; induction (d_endog V (definition m)) as [|v l IH]; intros lls Hn; [constructor|].
      destruct lls as [|p lls]; [discriminate|]; cbn [map app] in Hn; injection Hn as _ Hn.
      unfold with_lead_lags; cbn [combine map]; constructor; [reflexivity|exact (IH _ Hn)]. }
    exact (proj2 (run_alike os _ _ A)).
  Qed.

  (** The variables and values that the observed model shows: those of the model, and the
      observed ones, which start at zero and have no other values; and all its shocks. *)
  Theorem C90_values :
    forall m eqs m' ob, observe eqs m = (m', Ok ob) -> NoDup (map ev_name (d_endog V (definition m)) ++ map fst eqs) ->
      let float l := map (as_float V nan) l in
      map ev_name (d_endog V (definition ob)) = map ev_name (d_endog V (definition m)) ++ map fst eqs /\
      float (initial V space_t sol_t ob) = float (initial V space_t sol_t m) ++ map (fun _ => zero) eqs /\
      float (terminal V space_t sol_t ob) = float (terminal V space_t sol_t m) ++ map (fun _ => nan) eqs /\
      float (historical V space_t sol_t ob) = float (historical V space_t sol_t m) ++ map (fun _ => nan) eqs /\
      exog V space_t sol_t ob = exog V space_t sol_t m.
  Proof.
    intros m eqs m' ob H N float; unfold Observe.observe in H; destruct eqs as [|q eqs']; [discriminate|]; set (eqs := q :: eqs') in *.
    destruct (extend _ _ _ _) as [ex [[]|e]]; [|discriminate]; destruct (negb _); [discriminate|].
    destruct (new_calibration _ _ _ _ _) as [pc|e]; [|discriminate]; destruct (Indexing.set_lead_lags _ _ _) as [lls|e]; [|discriminate].
    injection H as _ H; apply bind_ok in H as (st & _ & H); apply bind_ok in H as (x & _ & H); apply bind_ok in H as (dy & _ & H); apply bind_ok in H as (sp & _ & H); injection H as <-.
    set (e := d_endog V (definition m)) in *.
    assert (N2 : NoDup (map ev_name e)) by (apply NoDup_front in N; exact N).
    assert (N3 : forall x, In x (map fst eqs) -> ~ In x (map ev_name e)).
    { intros y Hx Hy; clear - N Hx Hy; induction (map ev_name e) as [|a l IH]; [destruct Hy|].
      cbn [app] in N; inversion N as [|? ? A B]; subst; destruct Hy as [->|Hy]; [apply A, in_or_app; auto|exact (IH B Hy)]. }
    assert (G : forall (f : evar V -> option V) (z : V),
      (forall v, In v e -> as_float V nan (f (new_evar (ev_name v) (Some (as_float V nan (ev_init v))) (Some (as_float V nan (ev_term v)))
         (Some (as_float V nan (ev_hist v))) (lookup (ev_name v) lls))) = as_float V nan (f v)) ->
      (forall y, as_float V nan (f (new_evar y None None None (lookup y lls))) = z) ->
      map (as_float V nan) (map f (create_endog V zero truthy (map ev_name e ++ map fst eqs) (by_name V nan ev_init e) (by_name V nan ev_term e) (by_name V nan ev_hist e) lls)) =
      map (as_float V nan) (map f e) ++ map (fun _ => z) eqs).
    { intros f z H1 H2; unfold create_endog; rewrite !map_map, map_app, !map_map; f_equal.
      - apply map_ext_in; intros v Hv; rewrite !by_name_spec by assumption; apply H1, Hv.
      - apply map_ext_in; intros p Hp; rewrite !by_name_out; [apply H2|..]; auto; apply N3, in_map; exact Hp. }
    unfold float, initial, terminal, historical; cbn [ModelState.definition d_endog]; fold e.
    split; [unfold create_endog; rewrite map_map; apply map_id|].
    split; [apply G; reflexivity|]; split; [apply G; reflexivity|]; split; [apply G; reflexivity|]; reflexivity.
  Qed.

  (** Without observations there is no observed model, nor after a variable was added to a
      model (with numpy as it is). *)
  Theorem C90_errors :
    forall m, observe [] m = (m, Err ValueErr) /\
      (keeps = false -> forall ns i t h eqs, exists e, snd (observe eqs (fst (step (AddEndog ns i t h) m))) = Err e).
  Proof.
    intros m; split; [reflexivity|]; intros Hk ns i t h eqs; unfold ModelState.step, ok_with, add_endog; cbn [fst]; rewrite Hk.
    unfold Observe.observe; destruct eqs as [|q eqs]; [cbn [snd]; eauto|].
    cbn [alter ModelState.definition d_exprs d_en_ok negb]; destruct (extend _ _ _ _) as [ex [[]|e]]; cbn [snd]; eauto.
  Qed.

  (** The parameters are shared: what is assigned to the observed model is assigned to the
      model, which is not told. *)
  Theorem C90_parameters :
    forall m k c ob ps m' ob',
      d_params V (definition ob) = Cal (Nested k) c -> d_params V (definition m) = k -> ps <> [] ->
      observed_params V O float_of trunc space_t sol_t ps m ob = (m', ob', Ok tt) ->
      set_params V O float_of trunc ps k = (d_params V (definition m'), Ok tt) /\ altered m' = altered m /\ derived m' = derived m.
  Proof.
    intros m k c ob ps m' ob' Ho Hm _ H; unfold observed_params, add_params in H; rewrite Ho in H.
    assert (G : forall ps k c kk, set_params V O float_of trunc ps (Cal (Nested k) c) = (kk, Ok tt) ->
      exists k' c', kk = Cal (Nested k') c' /\ set_params V O float_of trunc ps k = (k', Ok tt)).
    { clear; induction ps as [|[x p] ps IH]; intros k c kk H; cbn [set_params] in *; [injection H as <-; eauto|].
      cbn [set_param] in H; destruct (set_param V O float_of trunc x p k) as [k1 [e|]]; [discriminate|].
      destruct (solve_calibration _ _ _ _ _); [|discriminate]; apply (IH _ _ _ H). }
    destruct (set_params V O float_of trunc ps (Cal (Nested k) c)) as [kk [[]|e]] eqn:E; [|discriminate].
    destruct (G _ _ _ _ E) as (k' & c' & -> & E'); cbn [alter ModelState.definition d_params] in H; injection H as <- <-.
    cbn [change with_params ModelState.definition ModelState.altered ModelState.derived d_params]; auto.
  Qed.
End Properties.
Print Assumptions C90_observed_partial.
Print Assumptions C90_original.
Print Assumptions C90_values.
Print Assumptions C90_errors.
Print Assumptions C90_parameters.

(** ** Concrete models *)

Definition oobserve := observe (option Z) OZ (Some 0%Z) otrue odec (fun v => v) oparse None oscope oscope ospace.
Definition ox (m : mstate (option Z) oscope oscope) : list (string * option (list Z)) :=
  map (fun v => (ev_name v, ev_ll v)) (d_endog _ (definition _ _ _ m)).
Definition ashow (m : mstate (option Z) oscope oscope) := get_param _ "a" (d_params _ (definition _ _ _ m)).
Definition one_variable : string := "var x; varexo e; parameters a; a = 2; model; x = a*x(-1) + e; end; shocks; var e = 1; end;".
Definition level : list (string * text) := [("y"%string, chars "a*x(+1);")].

(** The observed model of a model from a file, after a parameter was changed. *)
Example C90_nonvacuous :
  reads_floats (option Z) None oscope ospace /\
  exists m0 m l m' ob m1, ofile_model one_variable = Ok m0 /\ orun false [AddParams [("a"%string, DNum (Some 5%Z))]] m0 = (m, l) /\
    oobserve level m = (m', Ok ob) /\
    ofile_model "var x y; varexo e; parameters a; a = 5; model; x = a*x(-1) + e; y = a*x(+1); end; shocks; var e = 1; end;" = Ok m1 /\
    (let show m := map snd (snd (orun false [Read RIndexes; Read RSteady; Read RDynamic; Read RSpace; Read RSigma] m)) in show ob = show m1) /\
    (exists dy, snd (orun false [Read RDynamic] ob) = [(Read RDynamic, Ok (OValue (VDynamic dy)))] /\
       r_endog _ dy = ["x"; "y"]%string /\ r_params _ dy = [("a"%string, Some 5%Z)]).
Proof.
  split; [intros is is' st dy _; reflexivity|].
  do 6 eexists; split; [vm_compute; reflexivity|]; split; [vm_compute; reflexivity|]; split; [vm_compute; reflexivity|].
  split; [vm_compute; reflexivity|]; split; [vm_compute; reflexivity|].
  eexists; split; [vm_compute; reflexivity|]; split; reflexivity.
Qed.

(** The values, with a deterministic shock added to the model. *)
Example C90_values_example :
  exists m0 m l m' ob, ofile_model "var x; varexo e; parameters a; a = 2; model; x = a*x(-1) + e; end; initval; x = 4; end; shocks; var e = 1; end;" = Ok m0 /\
    orun false [AddDeterm ["h"%string] [("h"%string, DDet (Some [1%Z]) (Some [Some 3%Z]))]] m0 = (m, l) /\
    oobserve level m = (m', Ok ob) /\ exog _ _ _ ob = ["e"; "h"]%string /\
    initial _ _ _ ob = [Some (Some 4%Z); Some (Some 0%Z)] /\ terminal _ _ _ ob = [Some None; None].
Proof. do 5 eexists; split; [vm_compute; reflexivity|]; split; [vm_compute; reflexivity|]; split; [vm_compute; reflexivity|]; repeat split; vm_compute; reflexivity. Qed.

(** The observed model has lost the local parameters: its steady-state function takes them
    as zero, and its dynamic one cannot be evaluated. *)
Theorem C90_locals_refuted :
  exists m m' ob, ofile_model with_local = Ok m /\ oobserve [("y"%string, chars "b*x;")] m = (m', Ok ob) /\
    let dyn m := c_dynamic _ _ (derived _ _ _ m) in
    steady_call _ OZ (Some 0%Z) (dyn m) [Some 2%Z] = Ok [Some (-10)%Z] /\
    steady_call _ OZ (Some 0%Z) (dyn ob) [Some 2%Z; Some 6%Z] = Ok [Some 2%Z; Some 0%Z] /\
    dynamic_call _ OZ (Some 0%Z) (dyn m) [Some 2%Z; Some 2%Z] = Ok [Some (-10)%Z] /\
    exists e, dynamic_call _ OZ (Some 0%Z) (dyn ob) [Some 2%Z; Some 2%Z; Some 6%Z] = Err e.
Proof.
  do 3 eexists; split; [vm_compute; reflexivity|]; split; [vm_compute; reflexivity|]; cbn zeta.
  split; [vm_compute; reflexivity|]; split; [vm_compute; reflexivity|]; split; [vm_compute; reflexivity|]; eexists; vm_compute; reflexivity.
Qed.
Print Assumptions C90_locals_refuted.

(** The models are not independent: a parameter assigned to the observed model has the new
    value in the model too, whose structures keep the old one; one assigned to the model keeps
    its old value in the observed model; and the variables of the model have the periods of
    the observation equations. *)
Theorem C90_independence_refuted :
  exists m m' ob, ofile_model one_variable = Ok m /\ oobserve level m = (m', Ok ob) /\
    ox m = [("x"%string, Some [0; -1]%Z)] /\ ox m' = [("x"%string, Some [0; -1; 1]%Z)] /\
    (exists m2 ob2, observed_params _ OZ odec (fun v => v) oscope oscope [("a"%string, DNum (Some 7%Z))] m' ob = (m2, ob2, Ok tt) /\
       ashow m' = Ok (Some 2%Z) /\ ashow m2 = Ok (Some 7%Z) /\ ashow ob2 = Ok (Some 7%Z) /\
       map snd (snd (orun false [Read RSpace] m2)) = [Ok (OValue (VSpace [("a"%string, Some 2%Z)]))] /\
       map snd (snd (orun false [Read RSpace] ob2)) = [Ok (OValue (VSpace [("a"%string, Some 7%Z)]))]) /\
    (exists m2 ob2, model_params _ OZ odec (fun v => v) oscope oscope [("a"%string, DNum (Some 7%Z))] m' ob = (m2, ob2, Ok tt) /\
       ashow m2 = Ok (Some 7%Z) /\ ashow ob2 = Ok (Some 2%Z) /\
       map snd (snd (orun false [Read RSpace] ob2)) = [Ok (OValue (VSpace [("a"%string, Some 2%Z)]))]).
Proof.
  do 3 eexists; split; [vm_compute; reflexivity|]; split; [vm_compute; reflexivity|].
  split; [vm_compute; reflexivity|]; split; [vm_compute; reflexivity|]; split.
  - do 2 eexists; split; [vm_compute; reflexivity|]; repeat split; vm_compute; reflexivity.
  - do 2 eexists; split; [vm_compute; reflexivity|]; repeat split; vm_compute; reflexivity.
Qed.
Print Assumptions C90_independence_refuted.
