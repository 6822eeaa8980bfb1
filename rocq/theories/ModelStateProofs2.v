(** Proofs about reads, solutions and copies of a model. *)
From Verif Require Import Base Syntax Lexer Parser Eval Semantics Factory Calib Indexing DynFunc Vars ExprList
  ModelState ModelStateSpec IndexingSpec IndexingProofs CalibSpec CalibProofs ModelStateProofs.

Section Proofs.
  Variable V : Type.
  Variable O : ops V.
  Variable zero one : V.
  Variable truthy isnum : V -> bool.
  Variable float_of : text -> option V.
  Variable trunc : V -> option Z.
  Variable parse_text : text -> res (ast V).
  Variable keeps : bool.
  Variable default_locals : store V.
  Variable space_t sol_t : Type.
  Variable space : list (option V) -> steady_repr V -> repr V -> res space_t.
  Variable solver : option (sol_t * matrix V) -> list (option V) -> steady_repr V -> repr V -> space_t -> res sol_t.

  Notation new_model := (ModelState.new_model V O zero one truthy float_of trunc parse_text space_t sol_t space).
  Notation update := (ModelState.update V O zero isnum space_t sol_t space).
  Notation ensure := (ModelState.ensure V O zero isnum space_t sol_t space).
  Notation read := (ModelState.read V O zero isnum space_t sol_t space).
  Notation solve := (ModelState.solve V O zero isnum space_t sol_t space solver).
  Notation solve_one := (ModelState.solve_one V O zero isnum space_t sol_t space solver).
  Notation solve_two := (ModelState.solve_two V O zero isnum space_t sol_t space solver).
  Notation finish := (ModelState.finish V space_t sol_t solver).
  Notation simulate := (ModelState.simulate V O zero isnum space_t sol_t space solver).
  Notation read_solution := (ModelState.read_solution V O zero isnum space_t sol_t space solver).
  Notation step := (ModelState.step V O zero one truthy isnum float_of trunc parse_text keeps space_t sol_t space solver).
  Notation run := (ModelState.run V O zero one truthy isnum float_of trunc parse_text keeps space_t sol_t space solver).
  Notation mstate := (ModelState.mstate V space_t sol_t).
  Notation definition := (ModelState.definition V space_t sol_t).
  Notation derived := (ModelState.derived V space_t sol_t).
  Notation altered := (ModelState.altered V space_t sol_t).
  Notation solution := (ModelState.solution V space_t sol_t).
  Notation fresh_of := (ModelStateProofs.fresh_of V space_t space).
  Notation consistent := (ModelStateProofs.consistent V O zero isnum space_t sol_t space).
  Notation current := (ModelStateProofs.current V O zero isnum space_t sol_t space).
  Notation tracks := (ModelStateProofs.tracks V O zero truthy float_of trunc parse_text).
  Notation known := (ModelStateProofs.known V O zero truthy float_of trunc parse_text space_t sol_t).

  Lemma tracks_fresh d m m' x st dy sp : tracks d m -> tracks d m' -> fresh_of m x st dy sp -> fresh_of m' x st dy sp.
  Proof.
    intros T T'; unfold ModelStateProofs.fresh_of.
    rewrite (tracks_names V O zero truthy float_of trunc parse_text d m T), (tracks_names V O zero truthy float_of trunc parse_text d m' T').
    rewrite (tracks_inits V O zero truthy float_of trunc parse_text d m T), (tracks_inits V O zero truthy float_of trunc parse_text d m' T').
    destruct T as (_ & S & _ & (cp & P1 & P2) & (cl & L1 & L2) & E), T' as (_ & S' & _ & (cp' & P1' & P2') & (cl' & L1' & L2') & E').
    assert (d_stoch V m' = d_stoch V m) as -> by congruence.
    assert (trees (d_exprs V m') = trees (d_exprs V m)) as -> by congruence.
    assert (model_scope V m' = model_scope V m) as ->; [|auto].
    unfold model_scope; rewrite P1, P1', L1, L1'; cbn [solved]; congruence.
  Qed.
  Lemma tracks_stoch d m m' : tracks d m -> tracks d m' -> d_stoch V m' = d_stoch V m.
  Proof. intros (_ & S & _) (_ & S' & _); congruence. Qed.

  (** The value of a reading, given the structures. *)
  Definition reading_of (r : reading) (ss : list (svar V)) x st dy sp (v : value V space_t) : Prop :=
    match r with
    | RIndexes => v = VIndexes x | RSteady => v = VSteady st | RDynamic => v = VDynamic dy | RSpace => v = VSpace sp
    | RSigma => exists sg, define_sigma V zero O isnum ss = Ok sg /\ v = VSigma sg
    end.

  Lemma read_current r m m' v : current m -> read r m = (m', Ok v) ->
    exists x st dy sp, fresh_of (definition m') x st dy sp /\ reading_of r (d_stoch V (definition m')) x st dy sp v.
  Proof.
    intros C; unfold ModelState.read.
    destruct (ensure _ m) as [m1 [[]|e]] eqn:E; [|discriminate].
    intros H; injection H as <- Hv.
    destruct (ensure_spec V O zero truthy isnum float_of trunc parse_text space_t sol_t space _ _ _ _ E) as (_ & _ & C1 & N1 & N2).
    assert (CO : consistent m1).
    { destruct (C1 eq_refl C) as [A|(_ & _ & A)]; [|exact A].
      unfold ModelState.ensure in E; destruct (match r with RSigma => _ | _ => _ end) eqn:Eb.
      - destruct (N1 eq_refl eq_refl) as [F _]; congruence.
      - injection E as ->; destruct r; try congruence; apply Bool.orb_false_iff in Eb as [Eb _]; congruence. }
    destruct CO as [F G]; do 4 eexists; split; [exact F|].
    destruct r; cbn [cached reading_of] in *; try (injection Hv as <-; reflexivity).
    destruct (c_sigma V space_t (derived m1)) as [sg|]; [|discriminate].
    injection Hv as <-; exists sg; split; [apply G|]; reflexivity.
  Qed.

  (** A model built from scratch reads as the structures say. *)
  Lemma scratch_read d a m1 x st dy sp r v : describes V one d a -> distinct V d -> new_model a = Ok m1 ->
    fresh_of (definition m1) x st dy sp -> reading_of r (d_stoch V (definition m1)) x st dy sp v ->
    exists m2, read r m1 = (m2, Ok v).
  Proof.
    intros D N Hm F Hr.
    destruct (new_model_known V O zero one truthy isnum float_of trunc parse_text space_t sol_t space d a m1 D N Hm)
      as (K & Al & _ & En & So & [F1 G1] & Sg).
    destruct (fresh_fun V space_t space _ _ _ _ _ _ _ _ _ _ _ _ _ F1 F) as (-> & -> & -> & ->).
    unfold ModelState.read; rewrite Al; unfold no_sigma; rewrite Sg; cbn [orb].
    destruct r; cbn [reading_of] in Hr; try (subst v; unfold ModelState.ensure; eexists; reflexivity).
    destruct Hr as (sg & Hsg & ->).
    destruct (update_total V O zero isnum space_t sol_t space _ _ _ _ _ sg En So F1 Hsg) as (d' & U).
    unfold ModelState.ensure; rewrite U; eexists; reflexivity.
  Qed.

  (** Reading gives what a model built from scratch gives. *)
  Lemma read_scratch r d a m m' v : describes V one d a -> distinct V d -> known d m -> current m -> read r m = (m', Ok v) ->
    exists m1 m2, new_model a = Ok m1 /\ read r m1 = (m2, Ok v).
  Proof.
    intros D N K C H.
    destruct (read_current _ _ _ _ C H) as (x & st & dy & sp & F & R).
    pose proof (proj1 (read_ok V O zero truthy isnum float_of trunc parse_text space_t sol_t space _ _ _ _ H) d K) as K'.
    destruct (new_model_total V O zero one truthy float_of trunc parse_text space_t sol_t space d a _ _ _ _ _ D N K' F) as (m1 & Hm & _).
    destruct (new_model_known V O zero one truthy isnum float_of trunc parse_text space_t sol_t space d a m1 D N Hm) as (K1 & _).
    pose proof (tracks_fresh _ _ _ _ _ _ _ K' K1 F) as F1.
    rewrite <- (tracks_stoch _ _ _ K' K1) in R.
    destruct (scratch_read _ _ _ _ _ _ _ _ _ D N Hm F1 R) as (m2 & E); eauto.
  Qed.

  (** Conversely, with the arrays intact. *)
  Definition intact (m : mstate) : Prop := d_en_ok V (definition m) = true /\ d_st_ok V (definition m) = true.

  Lemma scratch_structures d a m m1 m2 sg : describes V one d a -> distinct V d -> known d m -> new_model a = Ok m1 ->
    read RSigma m1 = (m2, Ok (VSigma sg)) ->
    exists x st dy sp, fresh_of (definition m) x st dy sp /\ fresh_of (definition m1) x st dy sp /\
      define_sigma V zero O isnum (d_stoch V (definition m)) = Ok sg /\
      define_sigma V zero O isnum (d_stoch V (definition m1)) = Ok sg.
  Proof.
    intros D N K Hm Hs.
    destruct (new_model_known V O zero one truthy isnum float_of trunc parse_text space_t sol_t space d a m1 D N Hm)
      as (K1 & Al & _ & En & So & CO & Sg).
    assert (C : current m1) by (right; auto).
    destruct (read_current _ _ _ _ C Hs) as (x & st & dy & sp & F & (sg' & R & E)); injection E as <-.
    pose proof (proj1 (read_ok V O zero truthy isnum float_of trunc parse_text space_t sol_t space _ _ _ _ Hs) d K1) as K2.
    exists x, st, dy, sp; split; [apply (tracks_fresh _ _ _ _ _ _ _ K2 K F)|]; split; [apply (tracks_fresh _ _ _ _ _ _ _ K2 K1 F)|].
    rewrite (tracks_stoch _ _ _ K2 K), (tracks_stoch _ _ _ K2 K1); auto.
  Qed.

  Lemma current_read r m x st dy sp sg : current m -> intact m -> fresh_of (definition m) x st dy sp ->
    define_sigma V zero O isnum (d_stoch V (definition m)) = Ok sg ->
    exists m' v, read r m = (m', Ok v) /\ reading_of r (d_stoch V (definition m)) x st dy sp v.
  Proof.
    intros C [I1 I2] F S.
    destruct (update_total V O zero isnum space_t sol_t space _ _ _ _ _ sg I1 I2 F S) as (d' & U).
    unfold ModelState.read; destruct (match r with RSigma => _ | _ => _ end) eqn:Eb; unfold ModelState.ensure.
    - rewrite U; destruct r; cbn [ModelState.derived cached reading_of c_index c_steady c_dynamic c_space c_sigma]; eauto 6.
    - assert (CO : consistent m).
      { destruct C as [A|(_ & _ & A)]; [|exact A]; destruct r; try congruence; apply Bool.orb_false_iff in Eb as [Eb _]; congruence. }
      destruct CO as [F1 G1].
      destruct (fresh_fun V space_t space _ _ _ _ _ _ _ _ _ _ _ _ _ F F1) as (E1 & E2 & E3 & E4).
      destruct r; cbn [cached reading_of]; try (rewrite ?E1, ?E2, ?E3, ?E4; eauto; fail).
      apply Bool.orb_false_iff in Eb as [_ Eb]; unfold no_sigma in Eb.
      destruct (c_sigma V space_t (derived m)) as [sg'|]; [|discriminate].
      do 2 eexists; split; [reflexivity|]; exists sg'; split; [apply G1|]; reflexivity.
  Qed.

  Lemma reading_fun r ss x st dy sp v v' : reading_of r ss x st dy sp v -> reading_of r ss x st dy sp v' -> v' = v.
  Proof. destruct r; cbn [reading_of]; try congruence; intros (s & A & ->) (s' & B & ->); congruence. Qed.

  Lemma scratch_to_read r d a m m1 m2 sg : describes V one d a -> distinct V d -> known d m -> current m -> intact m ->
    new_model a = Ok m1 -> read RSigma m1 = (m2, Ok (VSigma sg)) ->
    exists m' v m1', read r m = (m', Ok v) /\ read r m1 = (m1', Ok v).
  Proof.
    intros D N K C I Hm Hs.
    destruct (scratch_structures _ _ _ _ _ _ D N K Hm Hs) as (x & st & dy & sp & F & F1 & S & S1).
    destruct (current_read r _ _ _ _ _ _ C I F S) as (m' & v & Hr & Hv).
    destruct (read_scratch r d a m m' v D N K C Hr) as (m3 & m4 & E1 & E2).
    assert (m3 = m1) by congruence; subst m3; eauto.
  Qed.

  Lemma intact_similar d d' : similar V d d' -> d_en_ok V d' = d_en_ok V d /\ d_st_ok V d' = d_st_ok V d.
  Proof. intros S; destruct (similar_fields V d d' S) as (A & _ & B & _); auto. Qed.
  Lemma intact_update m m' r : update m = (m', r) -> intact m -> intact m'.
  Proof.
    intros H [A B]; destruct (update_spec V O zero isnum space_t sol_t space _ _ _ H) as (_ & _ & S & _).
    destruct S as [[_ S]|(F & _ & S)]; destruct (intact_similar _ _ S) as [E1 E2]; unfold intact; rewrite E1, E2; auto.
  Qed.
  Lemma intact_ensure b m m' r : ensure b m = (m', r) -> intact m -> intact m'.
  Proof. unfold ModelState.ensure; destruct b; [apply intact_update|]; intros H; injection H as <- _; auto. Qed.
  Lemma intact_finish lower m m' r : finish lower m = (m', r) -> intact m -> intact m'.
  Proof.
    intros H [A B]; destruct (finish_ok V O zero truthy isnum float_of trunc parse_text space_t sol_t space solver _ _ _ _ H) as (E & _).
    unfold intact; rewrite E; auto.
  Qed.
  Lemma intact_one m m' r : solve_one m = (m', r) -> intact m -> intact m'.
  Proof.
    unfold ModelState.solve_one; destruct (ensure (altered m) m) as [m1 [u|e]] eqn:E1; intros H I.
    - apply (intact_finish _ _ _ _ H (intact_ensure _ _ _ _ E1 I)).
    - injection H as <- _; apply (intact_ensure _ _ _ _ E1 I).
  Qed.
  Lemma intact_solve o m m' r : solve o m = (m', r) -> intact m -> intact m'.
  Proof.
    unfold ModelState.solve; cbn zeta; destruct (_ =? 1); [apply intact_one|].
    destruct (_ =? 2); [|intros H; injection H as <- _; auto].
    unfold ModelState.solve_two; destruct (solve_one m) as [m1 [s|e]] eqn:E1; intros H I; pose proof (intact_one _ _ _ E1 I) as I1;
      [|injection H as <- _; exact I1].
    destruct (ensure _ m1) as [m2 [u2|e]] eqn:E2; pose proof (intact_ensure _ _ _ _ E2 I1) as I2; [|injection H as <- _; exact I2].
    destruct (c_sigma _ _ _); [|injection H as <- _; exact I2]; apply (intact_finish _ _ _ _ H I2).
  Qed.
  Lemma intact_step o m m' r : keeps = true -> step o m = (m', r) -> intact m -> intact m'.
  Proof.
    intros Hk; destruct o as [ns i t h|ps|gs|ns sh|ns sh|r0|o| |o]; unfold ModelState.step; intros H [A B];
      apply (f_equal fst) in H; cbn [ok_with fst] in H.
    - subst m'; split; [exact Hk|exact B].
    - unfold add_params in H; destruct (set_params V O float_of trunc ps _) as [k [u|e]]; subst m'; split; assumption.
    - unfold add_exprs in H; destruct (extend V parse_text gs _) as [k [u|e]]; subst m'; split; assumption.
    - unfold add_stoch in H; destruct (create_stoch V one ns sh); subst m'; split; assumption.
    - unfold add_determ in H; destruct (create_determ V one ns sh); subst m'; split; assumption.
    - unfold ModelState.read in H; destruct (ensure _ m) as [m1 [u|e]] eqn:E; subst m'; apply (intact_ensure _ _ _ _ E); split; assumption.
    - destruct (solve o m) as [m1 q] eqn:E; cbn [fst] in H; subst m1; apply (intact_solve _ _ _ _ E); split; assumption.
    - unfold ModelState.read_solution in H; destruct (solution m); [subst m'; split; assumption|].
      destruct (solve 2 m) as [m1 q] eqn:E; cbn [fst] in H; subst m1; apply (intact_solve _ _ _ _ E); split; assumption.
    - unfold ModelState.simulate in H.
      destruct (if o =? 0 then _ else _) as [m1 s] eqn:E1.
      assert (I1 : intact m1).
      { destruct (o =? 0); [destruct (solution m); [injection E1 as <- _; split; assumption|]|]; apply (intact_solve _ _ _ _ E1); split; assumption. }
      destruct s as [s|e]; [|subst m'; exact I1].
      destruct (update m1) as [m2 [u|e]] eqn:E2; cbn [fst] in H; subst m2; apply (intact_update _ _ _ E2 I1).
  Qed.
  Lemma intact_run os : keeps = true -> forall m m' l, run os m = (m', l) -> intact m -> intact m'.
  Proof.
    intros Hk; induction os as [|o os IH]; intros m m' l H I; cbn [ModelState.run] in H.
    - injection H as <- <-; exact I.
    - destruct (step o m) as [m1 r] eqn:E1; destruct (run os m1) as [m2 l2] eqn:E2; injection H as <- <-.
      apply (IH _ _ _ E2 (intact_step _ _ _ _ Hk E1 I)).
  Qed.

  (** ** Solutions *)

  (** What a solve computes from the structures of the definitions. *)
  Definition solution_of (o : nat) is ss st dy sp (s : sol_t) : Prop :=
    (o = 1 /\ solver None is st dy sp = Ok s) \/
    ((o = 0 \/ o = 2) /\ exists s1 sg, solver None is st dy sp = Ok s1 /\ define_sigma V zero O isnum ss = Ok sg /\
      solver (Some (s1, sg)) is st dy sp = Ok s).

  Lemma one_current m m' s : current m -> solve_one m = (m', Ok s) ->
    altered m' = false /\ solution m' = Some s /\ consistent m' /\ current m' /\
    exists x st dy sp, fresh_of (definition m') x st dy sp /\
      solver None (map ev_init (d_endog V (definition m'))) st dy sp = Ok s.
  Proof.
    intros C; unfold ModelState.solve_one.
    destruct (ensure (altered m) m) as [m1 [[]|e]] eqn:E1; [|discriminate].
    destruct (ensure_spec V O zero truthy isnum float_of trunc parse_text space_t sol_t space _ _ _ _ E1) as (_ & _ & C1 & N1 & M1).
    assert (A1 : altered m1 = false).
    { destruct (altered m) eqn:Ea; [apply (N1 eq_refl eq_refl)|destruct (M1 eq_refl) as [-> _]; exact Ea]. }
    pose proof (C1 eq_refl C) as CU.
    assert (CO1 : consistent m1) by (destruct CU as [A|(_ & _ & A)]; [congruence|exact A]).
    intros H; destruct (finish_ok V O zero truthy isnum float_of trunc parse_text space_t sol_t space solver _ _ _ _ H)
      as (D1 & D2 & D3 & _ & C3 & D4).
    assert (CO : consistent m') by (unfold ModelStateProofs.consistent; rewrite D1, D2; exact CO1).
    split; [congruence|]; split; [apply D4; reflexivity|]; split; [exact CO|]; split; [apply C3, CU|].
    do 4 eexists; split; [exact (proj1 CO)|].
    unfold ModelState.finish in H; rewrite D1, D2; destruct (solver _ _ _ _ _); [|discriminate]; injection H as _ ->; reflexivity.
  Qed.

  Lemma two_current m m' s : current m -> solve_two m = (m', Ok s) -> solution m' = Some s /\
    exists x st dy sp, fresh_of (definition m') x st dy sp /\
      solution_of 2 (map ev_init (d_endog V (definition m'))) (d_stoch V (definition m')) st dy sp s.
  Proof.
    intros C; unfold ModelState.solve_two.
    destruct (solve_one m) as [m1 [s1|e]] eqn:E1; [|discriminate].
    destruct (one_current _ _ _ C E1) as (A1 & _ & CO1 & CU1 & x1 & st1 & dy1 & sp1 & F1 & S1).
    destruct (ensure _ m1) as [m2 [[]|e]] eqn:E2; [|discriminate].
    destruct (ensure_spec V O zero truthy isnum float_of trunc parse_text space_t sol_t space _ _ _ _ E2) as (_ & _ & _ & _ & M2).
    assert (CO2 : consistent m2 /\ similar V (definition m1) (definition m2)).
    { destruct (altered m1 || no_sigma V space_t sol_t m1) eqn:Eb.
      - destruct (update_spec V O zero isnum space_t sol_t space _ _ _ E2) as (_ & _ & S & U); split; [apply U; reflexivity|].
        destruct S as [[_ S]|(_ & X & _)]; [exact S|contradiction].
      - destruct (M2 eq_refl) as [-> _]; split; [exact CO1|apply similar_refl]. }
    destruct CO2 as [[F2 G2] S2].
    destruct (c_sigma _ _ (derived m2)) as [sg|] eqn:Esg; [|discriminate].
    intros H; destruct (finish_ok V O zero truthy isnum float_of trunc parse_text space_t sol_t space solver _ _ _ _ H)
      as (D1 & D2 & _ & _ & _ & D4).
    split; [apply D4; reflexivity|].
    rewrite D1; do 4 eexists; split; [exact F2|].
    apply (fresh_similar V space_t space _ _ _ _ _ _ S2) in F1.
    destruct (fresh_fun V space_t space _ _ _ _ _ _ _ _ _ _ _ _ _ F1 F2) as (_ & E3 & E4 & E5).
    rewrite E3, E4, E5.
    right; split; [auto|]; exists s1, sg; split; [|split].
    - rewrite (proj2 (similar_names V _ _ S2)); exact S1.
    - apply G2; reflexivity.
    - unfold ModelState.finish in H; rewrite <- E3, <- E4, <- E5; destruct (solver (Some _) _ _ _ _); [|discriminate]; injection H as _ ->; reflexivity.
  Qed.

  Lemma solve_current o m m' s : current m -> solve o m = (m', Ok s) ->
    solution m' = Some s /\
    exists x st dy sp, fresh_of (definition m') x st dy sp /\
      solution_of o (map ev_init (d_endog V (definition m'))) (d_stoch V (definition m')) st dy sp s.
  Proof.
    intros C; unfold ModelState.solve; cbn zeta.
    destruct o as [|[|[|o]]]; cbn [Nat.eqb]; try discriminate; intros H.
    - destruct (two_current _ _ _ C H) as (A & x & st & dy & sp & B & D); split; [exact A|]; exists x, st, dy, sp; split; [exact B|].
      destruct D as [[D _]|[_ D]]; [discriminate|right; auto].
    - destruct (one_current _ _ _ C H) as (_ & A & _ & _ & x & st & dy & sp & B & D); split; [exact A|]; exists x, st, dy, sp.
      split; [exact B|left; auto].
    - apply (two_current _ _ _ C H).
  Qed.

  Lemma solve_scratch o d a m m' s : describes V one d a -> distinct V d -> known d m -> current m -> solve o m = (m', Ok s) ->
    exists m1 m2, new_model a = Ok m1 /\ solve o m1 = (m2, Ok s).
  Proof.
    intros D N K C H.
    destruct (solve_current _ _ _ _ C H) as (_ & x & st & dy & sp & F & Hs).
    pose proof (proj1 (solve_ok V O zero truthy isnum float_of trunc parse_text space_t sol_t space solver _ _ _ _ H) d K) as K'.
    destruct (new_model_total V O zero one truthy float_of trunc parse_text space_t sol_t space d a _ _ _ _ _ D N K' F) as (m1 & Hm & _).
    exists m1.
    destruct (new_model_known V O zero one truthy isnum float_of trunc parse_text space_t sol_t space d a m1 D N Hm)
      as (K1 & Al & _ & En & So & [F1' G1] & Sg).
    pose proof (tracks_fresh _ _ _ _ _ _ _ K' K1 F) as F1.
    destruct (fresh_fun V space_t space _ _ _ _ _ _ _ _ _ _ _ _ _ F1' F1) as (E1 & E2 & E3 & E4).
    assert (HI : map ev_init (d_endog V (definition m1)) = map ev_init (d_endog V (definition m'))).
    { rewrite (tracks_inits V O zero truthy float_of trunc parse_text d _ K1), (tracks_inits V O zero truthy float_of trunc parse_text d _ K'); reflexivity. }
    rewrite <- HI, <- (tracks_stoch _ _ _ K' K1) in Hs.
    assert (ONE : forall s1, solver None (map ev_init (d_endog V (definition m1))) st dy sp = Ok s1 ->
      solve_one m1 = (MState V space_t sol_t (definition m1) (derived m1) (altered m1) (Some s1), Ok s1)).
    { intros s1 Q; unfold ModelState.solve_one; rewrite Al; unfold ModelState.ensure, ModelState.finish; rewrite <- E2, <- E3, <- E4, Q, Al; reflexivity. }
    destruct Hs as [[-> Hs]|[Ho (s1 & g & Hs1 & Hg & Hs)]].
    { unfold ModelState.solve; cbn [Nat.eqb]; rewrite (ONE _ Hs); eauto. }
    assert (solve o m1 = solve_two m1) as -> by (destruct Ho as [-> | ->]; reflexivity).
    unfold ModelState.solve_two; rewrite (ONE _ Hs1).
    set (m3 := MState V space_t sol_t (definition m1) (derived m1) (altered m1) (Some s1)).
    destruct (update_total V O zero isnum space_t sol_t space m3 _ _ _ _ g En So F1 Hg) as (d' & U).
    assert (NS : altered m3 || no_sigma V space_t sol_t m3 = true).
    { unfold no_sigma; change (derived m3) with (derived m1); rewrite Sg; apply Bool.orb_true_r. }
    rewrite NS; unfold ModelState.ensure; rewrite U; cbn [ModelState.derived c_sigma].
    destruct (update_spec V O zero isnum space_t sol_t space _ _ _ U) as (_ & _ & S & _).
    cbn [ModelState.definition m3] in S.
    unfold ModelState.finish; cbn [ModelState.derived ModelState.definition c_steady c_dynamic c_space].
    assert (HI' : map ev_init (d_endog V d') = map ev_init (d_endog V (definition m1))).
    { destruct S as [[_ S]|(X & _ & _)]; [apply (similar_names V _ _ S)|congruence]. }
    rewrite HI', Hs; eauto.
  Qed.

  (** The stored solution changes only when the model is solved. *)
  Definition solves (o : op V) : Prop := match o with Solve _ => True | Simulate (S _) => True | _ => False end.
  Lemma update_solution m m' r : update m = (m', r) -> solution m' = solution m.
  Proof. intros H; apply (update_spec V O zero isnum space_t sol_t space _ _ _ H). Qed.
  Lemma step_solution o m m' r s : ~ solves o -> solution m = Some s -> step o m = (m', r) -> solution m' = Some s /\
    (forall s', r = Ok (OSolution s') -> s' = s) /\ (forall s' sp, r = Ok (OSimulation s' sp) -> s' = s).
  Proof.
    intros Hn Hs; destruct o as [ns i t h|ps|gs|ns sh|ns sh|r0|o| |o]; unfold ModelState.step, ok_with; intros H; injection H as <- <-.
    - split; [exact Hs|]; split; intros; discriminate.
    - unfold add_params; destruct (set_params V O float_of trunc ps _) as [k [u|e]]; (split; [exact Hs|]); split; intros; discriminate.
    - unfold add_exprs; destruct (extend V parse_text gs _) as [k [u|e]]; (split; [exact Hs|]); split; intros; discriminate.
    - unfold add_stoch; destruct (create_stoch V one ns sh); (split; [exact Hs|]); split; intros; discriminate.
    - unfold add_determ; destruct (create_determ V one ns sh); (split; [exact Hs|]); split; intros; discriminate.
    - unfold ModelState.read; destruct (ensure _ m) as [m1 [u|e]] eqn:E; cbn [fst snd bind];
        (split; [rewrite <- Hs; apply (ensure_spec V O zero truthy isnum float_of trunc parse_text space_t sol_t space _ _ _ _ E)|]);
        try (split; intros; discriminate).
      destruct (cached V space_t r0 _); split; intros; discriminate.
    - destruct Hn; exact I.
    - unfold ModelState.read_solution; rewrite Hs; cbn [fst snd bind]; split; [exact Hs|]; split; [|discriminate].
      intros s' E; injection E as <-; reflexivity.
    - destruct o as [|o]; [|destruct Hn; exact I].
      unfold ModelState.simulate; cbn [Nat.eqb]; rewrite Hs.
      destruct (update m) as [m2 [u|e]] eqn:E2; cbn [fst snd bind]; (split; [rewrite (update_solution _ _ _ E2); exact Hs|]).
      + split; [discriminate|]; intros s' sp E; injection E as <- _; reflexivity.
      + split; intros; discriminate.
  Qed.
  Lemma run_solution os : forall m m' l s, (forall o, In o os -> ~ solves o) -> solution m = Some s -> run os m = (m', l) -> solution m' = Some s.
  Proof.
    induction os as [|o os IH]; intros m m' l s Hn Hs H; cbn [ModelState.run] in H.
    - injection H as <- <-; exact Hs.
    - destruct (step o m) as [m1 r] eqn:E1; destruct (run os m1) as [m2 l2] eqn:E2; injection H as <- <-.
      apply (IH m1 m2 l2 s); [intros o' Ho; apply Hn; right; exact Ho| |exact E2].
      apply (step_solution o m m1 r s); [apply Hn; left; reflexivity|exact Hs|exact E1].
  Qed.
  Lemma finish_stores lower m m' s : finish lower m = (m', Ok s) -> solution m' = Some s.
  Proof.
    intros H; destruct (finish_ok V O zero truthy isnum float_of trunc parse_text space_t sol_t space solver _ _ _ _ H) as (_ & _ & _ & _ & _ & E).
    apply E; reflexivity.
  Qed.
  Lemma solve_stores o m m' s : solve o m = (m', Ok s) -> solution m' = Some s.
  Proof.
    unfold ModelState.solve; cbn zeta; destruct (_ =? 1).
    - unfold ModelState.solve_one; destruct (ensure (altered m) m) as [m1 [u|e]]; [apply finish_stores|discriminate].
    - destruct (_ =? 2); [|discriminate].
      unfold ModelState.solve_two; destruct (solve_one m) as [m1 [s1|e]]; [|discriminate].
      destruct (ensure _ m1) as [m2 [u2|e]]; [|discriminate].
      destruct (c_sigma _ _ _); [apply finish_stores|discriminate].
  Qed.

  (** ** Local definitions *)
  Lemma update_locals m m' r : update m = (m', r) -> d_locals V (definition m') = d_locals V (definition m).
  Proof.
    intros H; destruct (update_spec V O zero isnum space_t sol_t space _ _ _ H) as (_ & _ & S & _).
    destruct S as [[_ S]|(_ & _ & S)]; apply (similar_fields V _ _ S).
  Qed.
End Proofs.
