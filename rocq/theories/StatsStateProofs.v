(** Statistics of a model that is settled: what is kept in its state space is what would be
    computed. *)
From Verif Require Import Base Syntax Lexer Parser Eval Semantics Factory Indexing DynFunc Vars ExprList ModelState ModelStateSpec ModelStateProofs ModelStateProofs2
  Nd Mat Linearize Steady SteadyValues FirstOrder SecondOrder Pipeline Sim Moments PathSim StatsState.

Section Settled.
  Variable F : Type.
  Variable O : rops F.
  Variable P : ops F.
  Variable ltb : F -> F -> bool.
  Variable isnum : F -> bool.
  Variable nan : F.
  Variable minimize : solver -> (list F -> res F) -> list F -> res (list F).
  Variable rank : nat -> nat -> mat F -> nat.
  Variable lyap : nat -> mat F -> mat F -> res (mat F).
  Variable lsolve : nat -> mat F -> vec F -> res (vec F).
  Variable chol_low : nat -> mat F -> res (mat F).
  Variable sqrt abs : F -> F.
  Variable truthy : F -> bool.
  Variable float_of : text -> option F.
  Variable trunc : F -> option Z.
  Variable parse_text : text -> res (ast F).
  Variable keeps : bool.
  Variable space : list (option F) -> steady_repr F -> repr F -> res (space_of F).
  Variable solver_ : option (rules F * matrix F) -> list (option F) -> steady_repr F -> repr F -> space_of F -> res (rules F).

  Notation mstate := (ModelState.mstate F (space_of F) (rules F)).
  Notation sstate := (StatsState.sstate F).
  Notation memo := (StatsState.memo F).
  Notation M := (StatsState.M F).
  Notation update := (ModelState.update F P (r0 O) isnum (space_of F) (rules F) space).
  Notation solve := (ModelState.solve F P (r0 O) isnum (space_of F) (rules F) space solver_).
  Notation solve_one := (ModelState.solve_one F P (r0 O) isnum (space_of F) (rules F) space solver_).
  Notation solve_two := (ModelState.solve_two F P (r0 O) isnum (space_of F) (rules F) space solver_).
  Notation step := (ModelState.step F P (r0 O) (r1 O) truthy isnum float_of trunc parse_text keeps (space_of F) (rules F) space solver_).
  Notation definition := (ModelState.definition F (space_of F) (rules F)).
  Notation derived := (ModelState.derived F (space_of F) (rules F)).
  Notation altered := (ModelState.altered F (space_of F) (rules F)).
  Notation solution := (ModelState.solution F (space_of F) (rules F)).
  Notation no_sigma := (ModelState.no_sigma F (space_of F) (rules F)).
  Notation consistent := (ModelStateProofs.consistent F P (r0 O) isnum (space_of F) (rules F) space).
  Notation similar := (ModelStateProofs.similar F).
  Notation fresh_of := (ModelStateProofs.fresh_of F (space_of F) space).
  Notation sigma_for := (define_sigma F (r0 O) P isnum).
  Notation updated := (StatsState.updated F O P isnum space).
  Notation renewed := (StatsState.renewed F O P isnum space solver_).
  Notation on_model := (StatsState.on_model F O P isnum truthy float_of trunc parse_text keeps space solver_).
  Notation the_solution := (StatsState.the_solution F O P isnum truthy float_of trunc parse_text keeps space solver_).
  Notation the_indexes := (StatsState.the_indexes F O P isnum truthy float_of trunc parse_text keeps space solver_).
  Notation the_space := (StatsState.the_space F O P isnum truthy float_of trunc parse_text keeps space solver_).
  Notation the_sigma := (StatsState.the_sigma F O P isnum truthy float_of trunc parse_text keeps space solver_).
  Notation verify := (StatsState.verify F O P ltb isnum rank truthy float_of trunc parse_text keeps space solver_).
  Notation the_transition := (StatsState.the_transition F O P ltb isnum rank truthy float_of trunc parse_text keeps space solver_).
  Notation the_variance := (StatsState.the_variance F O P ltb isnum rank lyap truthy float_of trunc parse_text keeps space solver_).
  Notation cov := (StatsState.cov F O P ltb isnum rank lyap truthy float_of trunc parse_text keeps space solver_).
  Notation autocov := (StatsState.autocov F O P ltb isnum rank lyap truthy float_of trunc parse_text keeps space solver_).
  Notation shares := (StatsState.shares F O P ltb isnum rank lyap chol_low abs truthy float_of trunc parse_text keeps space solver_).
  Notation mean := (StatsState.mean F O P ltb isnum nan minimize rank lyap lsolve truthy float_of trunc parse_text keeps space solver_).
  Notation ask := (StatsState.ask F O P ltb isnum nan minimize rank lyap lsolve chol_low sqrt abs truthy float_of trunc parse_text keeps space solver_).
  Notation bnd := (StatsState.bnd F).
  Notation lift := (StatsState.lift F).

  (** The definitions (up to the lead-lag sets), their index, and the arrays of the solution. *)
  Variable d0 : defs F.
  Variable X : indexes.
  Variable gy gu : nd F.
  Notation sol := (Sim.First gy gu).
  Notation k := (List.length (d_stoch F d0)).
  (** What the state space would compute. *)
  Definition variance_for (sg : matrix F) (AB : nd F * nd F) : res (nd F) :=
    do Q <- mm3 F O (snd AB) (M2 k k sg) (ntrans F (snd AB)); lyapunov F lyap (fst AB) Q.

  Definition holds_arrays (s : rules F) : Prop := gy_first F (as_sim F s) = gy /\ gu_first F (as_sim F s) = gu.
  Definition kept_right (c : memo) : Prop :=
    (forall v, transition F c = Some v -> kalman_transition F (Ok tt) (places F O X) sol = Ok v) /\
    (forall v, variance F c = Some v -> exists sg AB, sigma_for (d_stoch F d0) = Ok sg /\
       kalman_transition F (Ok tt) (places F O X) sol = Ok AB /\ variance_for sg AB = Ok v).
  Record good (st : sstate) : Prop := Good {
    g_alt : altered (fst st) = false;
    g_cons : consistent (fst st);
    g_sim : similar d0 (definition (fst st));
    g_idx : c_index _ _ (derived (fst st)) = X;
    g_sol : exists s, solution (fst st) = Some s /\ holds_arrays s;
    g_memo : kept_right (snd st) }.

  Lemma blank_right : kept_right (blank F).
  Proof. split; intros v H; discriminate H. Qed.

  (** Answers of a computation in such a state. *)
  Definition ensures {A} (x : M A) (Q : A -> Prop) : Prop :=
    forall st st' a, good st -> x st = (st', Ok a) -> good st' /\ Q a.

  Lemma ens_bind {A B} (x : M A) (f : A -> M B) (Q : A -> Prop) (R : B -> Prop) : ensures x Q -> (forall a, Q a -> ensures (f a) R) -> ensures (bnd x f) R.
  Proof.
    intros Hx Hf st st' b G; unfold StatsState.bnd; destruct (x st) as [s1 [a|e]] eqn:E; [|discriminate].
    destruct (Hx _ _ _ G E) as [G1 Qa]; exact (Hf a Qa s1 st' b G1).
  Qed.
  Lemma ens_lift {A} (r : res A) (Q : A -> Prop) : (forall a, r = Ok a -> Q a) -> ensures (lift r) Q.
  Proof. intros H st st' a G E; injection E as <- E; split; [exact G|apply H, E]. Qed.
  Lemma ens_ret {A} (a : A) (Q : A -> Prop) : Q a -> ensures (StatsState.ret F a) Q.
  Proof. intros H st st' b G E; injection E as <- <-; split; [exact G|exact H]. Qed.
  Lemma ens_weak {A} (x : M A) (Q R : A -> Prop) : ensures x Q -> (forall a, Q a -> R a) -> ensures x R.
  Proof. intros H W st st' a G E; destruct (H _ _ _ G E) as [G' Qa]; split; [exact G'|apply W, Qa]. Qed.

  Lemma sim_stoch d : similar d0 d -> d_stoch F d = d_stoch F d0.
  Proof. intros S; apply (similar_fields F _ _ S). Qed.

  (** An update does not change anything but what it computes. *)
  Lemma update_good st m' : good st -> update (fst st) = (m', Ok tt) -> good (m', blank F).
  Proof.
    intros [G1 G2 G3 G4 G5 G6] U; destruct (update_spec F P (r0 O) isnum _ _ space _ _ _ U) as (A & So & S & C).
    destruct (C eq_refl) as (_ & _ & Co & _).
    assert (S' : similar (definition (fst st)) (definition m')) by (destruct S as [[_ S]|(_ & N & _)]; [exact S|elim N; reflexivity]).
    constructor; cbn [fst snd].
    - exact A.
    - exact Co.
    - exact (similar_trans F _ _ _ G3 S').
    - rewrite <- G4; destruct G2 as [Fr _], Co as [Fr' _]; apply (fresh_similar F _ space _ _ _ _ _ _ S') in Fr.
      apply (fresh_fun F _ space _ _ _ _ _ _ _ _ _ _ _ _ _ Fr Fr').
    - rewrite So; exact G5.
    - exact blank_right.
  Qed.

  (** Reading. *)
  Definition read_value (r : reading) (v : value F (space_of F)) : Prop :=
    match r with
    | RIndexes => v = VIndexes X
    | RSigma => exists sg, v = VSigma sg /\ sigma_for (d_stoch F d0) = Ok sg
    | _ => True
    end.
  Lemma similar_stoch d d' : similar d0 d -> similar d d' -> d_stoch F d' = d_stoch F d0.
  Proof. intros S S'; apply sim_stoch, (similar_trans F _ _ _ S S'). Qed.
  Lemma ens_read r : ensures (on_model (Read r)) (fun p => exists v, fst p = OValue v /\ read_value r v).
  Proof.
    intros [m c] st' [o b] G; pose proof G as [G1 G2 G3 G4 G5 G6]; cbn [fst snd] in *.
    unfold StatsState.on_model, ModelState.step, ok_with, ModelState.read; cbn [fst snd].
    destruct r.
    1-4: rewrite G1; cbn [ensure fst snd cached bind StatsState.renewed]; rewrite G1; cbn [andb]; intros E; injection E as <- <- <-;
      (split; [exact G|]); eexists; (split; [reflexivity|]); cbn [read_value]; try exact I; rewrite G4; reflexivity.
    rewrite G1; cbn [orb StatsState.renewed]; rewrite G1; cbn [orb]; destruct (no_sigma m) eqn:Ns; cbn [andb ensure].
    - destruct (update m) as [m' [[]|e]] eqn:U; cbn [fst snd bind]; [|discriminate].
      unfold StatsState.updated; rewrite U; cbn [cached]; destruct (c_sigma _ _ (derived m')) as [sg|] eqn:Es; [|discriminate].
      cbn [bind]; intros E; injection E as <- <- <-; pose proof (update_good (m, c) m' G U) as G'; split; [exact G'|].
      eexists; split; [reflexivity|]; exists sg; split; [reflexivity|].
      rewrite <- (sim_stoch (definition m') (g_sim _ G')); apply (g_cons _ G'); exact Es.
    - unfold ModelState.no_sigma in Ns; cbn [fst snd cached]; destruct (c_sigma _ _ (derived m)) as [sg|] eqn:Es; [|discriminate].
      cbn [bind]; intros E; injection E as <- <- <-; split; [exact G|].
      eexists; split; [reflexivity|]; exists sg; split; [reflexivity|].
      rewrite <- (sim_stoch (definition m) G3); apply G2; exact Es.
  Qed.
  Lemma ens_solution : ensures the_solution (fun p => holds_arrays (fst p) /\ snd p = true).
  Proof.
    intros [m c] st' [s b] G; pose proof G as [G1 G2 G3 G4 (s0 & G5 & G5') G6]; cbn [fst snd] in *.
    unfold StatsState.the_solution, StatsState.bnd, StatsState.on_model, ModelState.step, ok_with, ModelState.read_solution; cbn [fst snd].
    rewrite G5; cbn [fst snd bind StatsState.renewed]; rewrite G5; intros E; injection E as <- <- <-; split; [exact G|split; [exact G5'|reflexivity]].
  Qed.
  Lemma ens_indexes : ensures the_indexes (fun x => x = X).
  Proof.
    apply (ens_bind _ _ _ _ (ens_read RIndexes)); intros [o b] (v & E & Hv); cbn [fst] in E; subst o; cbn [read_value] in Hv; subst v.
    apply ens_ret; reflexivity.
  Qed.
  Lemma ens_space : ensures the_space (fun _ => True).
  Proof.
    apply (ens_bind _ _ _ _ (ens_read RSpace)); intros [o b] (v & E & _); cbn [fst] in E; subst o; destruct v; try (apply ens_lift; intros ? H; discriminate H).
    apply ens_ret; exact I.
  Qed.
  Lemma ens_sigma : ensures the_sigma (fun p => exists sg, fst p = M2 k k sg /\ sigma_for (d_stoch F d0) = Ok sg).
  Proof.
    apply (ens_bind _ _ _ _ (ens_read RSigma)); intros [o b] (v & E & sg & -> & Es); cbn [fst] in E; subst o.
    intros st st' a G H; unfold StatsState.bnd, n_stoch, StatsState.ret in H; injection H as <- <-; split; [exact G|].
    exists sg; split; [|exact Es]; cbn [fst]; rewrite (sim_stoch _ (g_sim _ G)); reflexivity.
  Qed.
  Lemma ens_verify : ensures verify (fun _ => True).
  Proof.
    apply (ens_bind _ _ _ _ ens_space); intros sp _ st st' a G; destruct (verified F (snd st)).
    - intros H; injection H as <- <-; auto.
    - apply (ens_bind _ _ (fun _ => True) (fun _ => True)); [apply (ens_weak _ _ _ ens_indexes); auto| |exact G].
      intros x _ s s' b [H1 H2 H3 H4 H5 H6] H; injection H as <- _; split; [|exact I].
      constructor; cbn [fst snd]; try assumption; destruct H6 as [H6 H7]; split; assumption.
  Qed.

  Lemma kalman_arrays s : holds_arrays s -> kalman_transition F (Ok tt) (places F O X) (as_sim F s) = kalman_transition F (Ok tt) (places F O X) sol.
  Proof. intros [E1 E2]; unfold kalman_transition; rewrite E1, E2; reflexivity. Qed.
  Lemma declared_arrays s : holds_arrays s -> declared F (places F O X) (as_sim F s) = declared F (places F O X) sol.
  Proof. intros [E1 E2]; unfold declared; rewrite E1, E2; reflexivity. Qed.

  Lemma ens_transition : ensures the_transition (fun p => kalman_transition F (Ok tt) (places F O X) sol = Ok (fst p) /\ snd p = true).
  Proof.
    apply (ens_bind _ _ _ _ ens_space); intros sp _ st st' a G; destruct (transition F (snd st)) as [v|] eqn:Et.
    - intros H; injection H as <- <-; split; [exact G|]; split; [|reflexivity]; apply (g_memo _ G), Et.
    - revert st st' a G Et; enough (E : ensures _ (fun p => kalman_transition F (Ok tt) (places F O X) sol = Ok (fst p) /\ snd p = true)) by (intros st st' a G _; apply E, G).
      apply (ens_bind _ _ _ _ ens_verify); intros _ _.
      apply (ens_bind _ _ _ _ ens_solution); intros [s b] [Hs Hb]; cbn [fst snd] in *; subst b.
      apply (ens_bind _ _ _ _ ens_indexes); intros x ->.
      eapply ens_bind; [apply (ens_lift _ (fun v => kalman_transition F (Ok tt) (places F O X) sol = Ok v)); intros v; rewrite (kalman_arrays s Hs); auto|]; intros v Hv.
      apply (ens_bind _ _ (fun _ => True)).
      + intros [m c] st' a [H1 H2 H3 H4 H5 H6] H; injection H as <- _; split; [|exact I]; constructor; cbn [fst snd]; try assumption.
        destruct H6 as [H6 H7]; split; [|exact H7]; intros v' E; injection E as <-; exact Hv.
      + intros _ _; apply ens_ret; split; [exact Hv|reflexivity].
  Qed.
  Lemma ens_variance : ensures the_variance (fun v => exists sg AB, sigma_for (d_stoch F d0) = Ok sg /\
      kalman_transition F (Ok tt) (places F O X) sol = Ok AB /\ variance_for sg AB = Ok v).
  Proof.
    apply (ens_bind _ _ _ _ ens_space); intros sp _ st st' a G; destruct (variance F (snd st)) as [v|] eqn:Et.
    - intros H; injection H as <- <-; split; [exact G|]; apply (g_memo _ G), Et.
    - revert st st' a G Et; enough (E : ensures _ (fun v => exists sg AB, sigma_for (d_stoch F d0) = Ok sg /\
        kalman_transition F (Ok tt) (places F O X) sol = Ok AB /\ variance_for sg AB = Ok v)) by (intros st st' a G _; apply E, G).
      apply (ens_bind _ _ _ _ ens_verify); intros _ _.
      apply (ens_bind _ _ _ _ ens_transition); intros [AB b] [Hk Hb]; cbn [fst snd] in *; subst b.
      apply (ens_bind _ _ _ _ ens_sigma); intros [S b] (sg & E & Es); cbn [fst snd] in *; subst S.
      eapply ens_bind; [apply (ens_lift _ (fun v => variance_for sg AB = Ok v)); intros ? HH; exact HH|]; intros v Hv.
      apply (ens_bind _ _ (fun _ => True)).
      + intros [m c] st' a [H1 H2 H3 H4 H5 H6] H; injection H as <- _; split; [|exact I]; constructor; cbn [fst snd]; try assumption.
        destruct b; [|exact H6]; destruct H6 as [H6 H7]; split; [exact H6|]; intros v' E; injection E as <-; exists sg, AB; auto.
      + intros _ _; apply ens_ret; exists sg, AB; auto.
  Qed.

  (** ** The statistics are those of Moments.v *)

  Definition model_of (ss : list F) (sg : matrix F) : smodel F := SModel ss (dr_order X) (members is_state (dr X)) (map sv_name (d_stoch F d0)) sg.
  Lemma model_sigma ss sg : sigma_of F (model_of ss sg) = M2 k k sg.
  Proof. unfold sigma_of, model_of; cbn [m_shocks m_sigma]; rewrite map_length; reflexivity. Qed.
  Definition answers {A} (f : smodel F -> lsol F -> res A) (a : A) : Prop :=
    exists sg, sigma_for (d_stoch F d0) = Ok sg /\ forall ss, f (model_of ss sg) sol = Ok a.

  Lemma ens_cov : ensures cov (answers (Moments.cov F O lyap (Ok tt))).
  Proof.
    apply (ens_bind _ _ _ _ ens_solution); intros [s b] [Hs _]; cbn [fst snd] in *.
    apply (ens_bind _ _ _ _ ens_indexes); intros x ->.
    eapply ens_bind; [apply (ens_lift _ (fun w => declared F (places F O X) sol = Ok w)); intros w; rewrite (declared_arrays s Hs); auto|]; intros g Hg.
    apply (ens_bind _ _ _ _ ens_variance); intros v (sg & AB & E1 & E2 & E3).
    eapply ens_bind; [apply (ens_lift _ (fun t => mm3 F O (fst g) v (ntrans F (fst g)) = Ok t)); intros ? HH; exact HH|]; intros t Ht.
    apply (ens_bind _ _ _ _ ens_sigma); intros [S b'] (sg' & E & Es); cbn [fst snd] in *; subst S; assert (sg' = sg) by congruence; subst sg'.
    apply ens_lift; intros a Ha; exists sg; split; [exact Es|]; intros ss; unfold Moments.cov; rewrite (model_sigma ss).
    change (declared F (model_of ss sg) sol) with (declared F (places F O X) sol); rewrite Hg; cbn [bind].
    unfold state_sigma; cbn [bind]; rewrite (model_sigma ss); change (kalman_transition F (Ok tt) (model_of ss sg) sol) with (kalman_transition F (Ok tt) (places F O X) sol).
    rewrite E2; cbn [bind]; unfold variance_for in E3; rewrite E3; cbn [bind]; rewrite Ht; exact Ha.
  Qed.
  Lemma ens_autocov p : ensures (autocov p) (answers (fun m s => Moments.autocov F O lyap (Ok tt) m s p)).
  Proof.
    apply (ens_bind _ _ _ _ ens_solution); intros [s b] [Hs _]; cbn [fst snd] in *.
    apply (ens_bind _ _ _ _ ens_variance); intros v (sg & AB & E1 & E2 & E3).
    apply (ens_bind _ _ _ _ ens_transition); intros [AB' b''] [Hk _]; cbn [fst snd] in *; assert (AB' = AB) by congruence; subst AB'.
    apply (ens_bind _ _ _ _ ens_indexes); intros x ->.
    eapply ens_bind; [apply (ens_lift _ (fun w => declared F (places F O X) sol = Ok w)); intros w; rewrite (declared_arrays s Hs); auto|]; intros g Hg.
    eapply ens_bind; [apply (ens_lift _ (fun t => mm3 F O (fst AB) v (ntrans F (fst g)) = Ok t)); intros ? HH; exact HH|]; intros t Ht.
    apply (ens_bind _ _ _ _ ens_sigma); intros [S b'] (sg' & E & Es); cbn [fst snd] in *; subst S; assert (sg' = sg) by congruence; subst sg'.
    apply ens_lift; intros a Ha; exists sg; split; [exact Es|]; intros ss; unfold Moments.autocov; rewrite (model_sigma ss).
    unfold state_sigma; cbn [bind]; rewrite (model_sigma ss); change (kalman_transition F (Ok tt) (model_of ss sg) sol) with (kalman_transition F (Ok tt) (places F O X) sol).
    rewrite E2; cbn [bind]; unfold variance_for in E3; rewrite E3; cbn [bind].
    change (declared F (model_of ss sg) sol) with (declared F (places F O X) sol); rewrite Hg; cbn [bind]; rewrite Ht; exact Ha.
  Qed.
  Lemma ens_map {A B} (x : M A) (f : A -> B) (g : smodel F -> lsol F -> res A) : ensures x (answers g) ->
    ensures (bnd x (fun a => StatsState.ret F (f a))) (answers (fun m s => do a <- g m s; Ok (f a))).
  Proof.
    intros H; apply (ens_bind _ _ _ _ H); intros a (sg & E & Ha); apply ens_ret; exists sg; split; [exact E|]; intros ss; rewrite (Ha ss); reflexivity.
  Qed.
  Lemma ens_step {A B} (x : M A) (f : A -> res B) (g : smodel F -> lsol F -> res A) : ensures x (answers g) ->
    ensures (bnd x (fun a => lift (f a))) (answers (fun m s => do a <- g m s; f a)).
  Proof.
    intros H; apply (ens_bind _ _ _ _ H); intros a (sg & E & Ha); apply ens_lift; intros b Hb; exists sg; split; [exact E|]; intros ss; rewrite (Ha ss); exact Hb.
  Qed.
  Notation s_var := (StatsState.var F O P ltb isnum rank lyap truthy float_of trunc parse_text keeps space solver_).
  Notation s_std := (StatsState.std F O P ltb isnum rank lyap sqrt truthy float_of trunc parse_text keeps space solver_).
  Notation s_corr := (StatsState.corr F O P ltb isnum rank lyap sqrt truthy float_of trunc parse_text keeps space solver_).
  Notation s_autocorr := (StatsState.autocorr F O P ltb isnum rank lyap sqrt truthy float_of trunc parse_text keeps space solver_).
  Lemma ens_var : ensures s_var (answers (Moments.var F O lyap (Ok tt))).
  Proof. apply (ens_map _ _ _ ens_cov). Qed.
  Lemma ens_std : ensures s_std (answers (Moments.std F O lyap sqrt (Ok tt))).
  Proof. apply (ens_map _ _ _ ens_var). Qed.
  Lemma ens_corr : ensures s_corr (answers (Moments.corr F O lyap sqrt (Ok tt))).
  Proof. apply (ens_step _ _ _ ens_cov). Qed.
  Lemma ens_autocorr p : ensures (s_autocorr p) (answers (fun m s => Moments.autocorr F O lyap sqrt (Ok tt) m s p)).
  Proof.
    apply (ens_bind _ _ _ _ (ens_autocov p)); intros l (sg & E & Hl); apply (ens_bind _ _ _ _ ens_std); intros sd (sg' & E' & Hd).
    assert (sg' = sg) by congruence; subst sg'; apply ens_lift; intros b Hb; exists sg; split; [exact E|]; intros ss.
    unfold Moments.autocorr; rewrite (Hl ss); cbn [bind]; rewrite (Hd ss); exact Hb.
  Qed.

  (** ** Every question leaves such a state *)

  Definition calm {A} (x : M A) : Prop := ensures x (fun _ => True).
  Lemma calm_of {A} (x : M A) (Q : A -> Prop) : ensures x Q -> calm x.
  Proof. intros H; apply (ens_weak _ _ _ H); auto. Qed.
  Lemma calm_bind {A B} (x : M A) (f : A -> M B) : calm x -> (forall a, calm (f a)) -> calm (bnd x f).
  Proof. intros H1 H2; apply (ens_bind _ _ _ _ H1); intros a _; apply H2. Qed.
  Lemma calm_lift {A} (r : res A) : calm (lift r).
  Proof. apply ens_lift; auto. Qed.
  Lemma calm_ret {A} (a : A) : calm (StatsState.ret F a).
  Proof. apply ens_ret; auto. Qed.
  Lemma calm_read {A} (f : sstate -> res A) : calm (fun s => (s, f s)).
  Proof. intros st st' a G E; injection E as <- _; auto. Qed.
  Notation the_steady := (StatsState.the_steady F O P isnum nan minimize truthy float_of trunc parse_text keeps space solver_).
  Lemma calm_steady : calm the_steady.
  Proof. apply calm_bind; [apply (calm_of _ _ (ens_read RSteady))|]; intros p; apply calm_read. Qed.
  Ltac calmly := repeat first
    [ apply (calm_of _ _ ens_solution) | apply (calm_of _ _ ens_indexes) | apply (calm_of _ _ ens_space) | apply (calm_of _ _ ens_sigma)
    | apply ens_verify | apply (calm_of _ _ ens_transition) | apply (calm_of _ _ ens_variance) | apply (calm_of _ _ ens_cov)
    | apply calm_steady | apply calm_lift | apply calm_ret | apply calm_bind; [|intros ?] | apply calm_read ].
  Lemma calm_tail l : calm (bnd the_solution (mean_tail F O P ltb isnum rank lyap lsolve truthy float_of trunc parse_text keeps space solver_ l)).
  Proof.
    apply calm_bind; [apply (calm_of _ _ ens_solution)|]; intros [s b]; unfold mean_tail; cbn [fst]; destruct (as_sim F s); calmly.
  Qed.
  Lemma calm_mean : calm mean.
  Proof. apply calm_bind; [apply calm_steady|exact calm_tail]. Qed.
  Lemma calm_n : calm (n_stoch F).
  Proof. apply (calm_read (fun s => Ok (List.length (d_stoch F (definition (fst s)))))). Qed.
  Lemma calm_shares : calm shares.
  Proof.
    unfold StatsState.shares; calmly; apply calm_n.
  Qed.
  Lemma calm_ask q : calm (ask q).
  Proof.
    destruct q; cbn [StatsState.ask]; (apply calm_bind; [|intros a; apply calm_ret]).
    - apply calm_mean.
    - apply (calm_of _ _ ens_var).
    - apply (calm_of _ _ ens_std).
    - apply (calm_of _ _ ens_cov).
    - apply (calm_of _ _ ens_corr).
    - apply (calm_of _ _ (ens_autocov p)).
    - apply (calm_of _ _ (ens_autocorr p)).
    - apply calm_bind; [apply calm_n|]; intros n st st' b G; destruct (n =? 1); [intros E; injection E as <- _; auto|apply calm_shares, G].
    - apply (calm_of _ _ ens_transition).
    - apply (calm_of _ _ ens_variance).
    - apply ens_verify.
  Qed.
End Settled.

(** ** Questions do not change the definitions *)
Section Quiet.
  Variable F : Type.
  Variable O : rops F.
  Variable P : ops F.
  Variable ltb : F -> F -> bool.
  Variable isnum : F -> bool.
  Variable nan : F.
  Variable minimize : solver -> (list F -> res F) -> list F -> res (list F).
  Variable rank : nat -> nat -> mat F -> nat.
  Variable lyap : nat -> mat F -> mat F -> res (mat F).
  Variable lsolve : nat -> mat F -> vec F -> res (vec F).
  Variable chol_low : nat -> mat F -> res (mat F).
  Variable sqrt abs : F -> F.
  Variable truthy : F -> bool.
  Variable float_of : text -> option F.
  Variable trunc : F -> option Z.
  Variable parse_text : text -> res (ast F).
  Variable keeps : bool.
  Variable space : list (option F) -> steady_repr F -> repr F -> res (space_of F).
  Variable solver_ : option (rules F * matrix F) -> list (option F) -> steady_repr F -> repr F -> space_of F -> res (rules F).
  Notation M := (StatsState.M F).
  Notation sstate := (StatsState.sstate F).
  Notation known := (ModelStateProofs.known F P (r0 O) truthy float_of trunc parse_text (space_of F) (rules F)).
  Notation step := (ModelState.step F P (r0 O) (r1 O) truthy isnum float_of trunc parse_text keeps (space_of F) (rules F) space solver_).
  Notation on_model := (StatsState.on_model F O P isnum truthy float_of trunc parse_text keeps space solver_).
  Notation the_solution := (StatsState.the_solution F O P isnum truthy float_of trunc parse_text keeps space solver_).
  Notation the_indexes := (StatsState.the_indexes F O P isnum truthy float_of trunc parse_text keeps space solver_).
  Notation the_space := (StatsState.the_space F O P isnum truthy float_of trunc parse_text keeps space solver_).
  Notation the_sigma := (StatsState.the_sigma F O P isnum truthy float_of trunc parse_text keeps space solver_).
  Notation verify := (StatsState.verify F O P ltb isnum rank truthy float_of trunc parse_text keeps space solver_).
  Notation the_transition := (StatsState.the_transition F O P ltb isnum rank truthy float_of trunc parse_text keeps space solver_).
  Notation the_variance := (StatsState.the_variance F O P ltb isnum rank lyap truthy float_of trunc parse_text keeps space solver_).
  Notation cov := (StatsState.cov F O P ltb isnum rank lyap truthy float_of trunc parse_text keeps space solver_).
  Notation autocov := (StatsState.autocov F O P ltb isnum rank lyap truthy float_of trunc parse_text keeps space solver_).
  Notation std := (StatsState.std F O P ltb isnum rank lyap sqrt truthy float_of trunc parse_text keeps space solver_).
  Notation var := (StatsState.var F O P ltb isnum rank lyap truthy float_of trunc parse_text keeps space solver_).
  Notation shares := (StatsState.shares F O P ltb isnum rank lyap chol_low abs truthy float_of trunc parse_text keeps space solver_).
  Notation mean := (StatsState.mean F O P ltb isnum nan minimize rank lyap lsolve truthy float_of trunc parse_text keeps space solver_).
  Notation the_steady := (StatsState.the_steady F O P isnum nan minimize truthy float_of trunc parse_text keeps space solver_).
  Notation ask := (StatsState.ask F O P ltb isnum nan minimize rank lyap lsolve chol_low sqrt abs truthy float_of trunc parse_text keeps space solver_).

  Definition quiet {A} (x : M A) : Prop := forall st d, known d (fst st) -> known d (fst (fst (x st))).
  Lemma quiet_bind {A B} (x : M A) (f : A -> M B) : quiet x -> (forall a, quiet (f a)) -> quiet (StatsState.bnd F x f).
  Proof.
    intros H1 H2 st d K; unfold bnd; specialize (H1 st d K); destruct (x st) as [s1 [a|e]]; cbn [fst] in *; [apply H2; exact H1|exact H1].
  Qed.
  Lemma quiet_same {A} (f : sstate -> res A) : quiet (fun s => (s, f s)).
  Proof. intros st d K; exact K. Qed.
  Lemma quiet_kept {A} (f : sstate -> memo F) (g : sstate -> res A) : quiet (fun s => ((fst s, f s), g s)).
  Proof. intros st d K; exact K. Qed.
  Lemma quiet_op o : ~ addition F o -> quiet (on_model o).
  Proof.
    intros N st d K; unfold StatsState.on_model; cbn [fst snd]; destruct (step o (fst st)) as [m' v] eqn:E; cbn [fst].
    destruct (step_ok F P (r0 O) (r1 O) truthy isnum float_of trunc parse_text keeps _ _ space solver_ _ _ _ _ E) as (S & _).
    specialize (S d K ltac:(intros A; contradiction)).
    replace (ModelStateSpec.effect F (r1 O) o d) with d in S; [exact S|destruct o; try reflexivity; elim N; exact I].
  Qed.
  Lemma quiet_choose {A} (b : sstate -> bool) (x y : M A) : quiet x -> quiet y -> quiet (fun s => if b s then x s else y s).
  Proof. intros H1 H2 st d K; destruct (b st); [apply H1|apply H2]; exact K. Qed.
  Lemma quiet_lift {A} (r : res A) : quiet (StatsState.lift F r).
  Proof. apply (quiet_same (fun _ => r)). Qed.
  Lemma quiet_ret {A} (a : A) : quiet (StatsState.ret F a).
  Proof. apply (quiet_same (fun _ => Ok a)). Qed.
  Lemma quiet_solution : quiet the_solution.
  Proof. apply quiet_bind; [apply quiet_op; exact (fun H => H)|]; intros [[| | |] b]; first [apply quiet_ret|apply quiet_lift]. Qed.
  Lemma quiet_indexes : quiet the_indexes.
  Proof. apply quiet_bind; [apply quiet_op; exact (fun H => H)|]; intros [[|[]| |] b]; first [apply quiet_ret|apply quiet_lift]. Qed.
  Lemma quiet_space : quiet the_space.
  Proof. apply quiet_bind; [apply quiet_op; exact (fun H => H)|]; intros [[|[]| |] b]; first [apply quiet_ret|apply quiet_lift]. Qed.
  Lemma quiet_n : quiet (n_stoch F).
  Proof. intros st d K; exact K. Qed.
  Lemma quiet_sigma : quiet the_sigma.
  Proof.
    apply quiet_bind; [apply quiet_op; exact (fun H => H)|]; intros [[|[]| |] b]; try apply quiet_lift.
    apply quiet_bind; [apply quiet_n|intros ?; apply quiet_ret].
  Qed.
  Lemma quiet_verify : quiet verify.
  Proof.
    apply quiet_bind; [apply quiet_space|]; intros sp st d K; destruct (verified F (snd st)); [exact K|].
    revert st d K; enough (H : quiet (StatsState.bnd F the_indexes (fun x s => let r := run_verification F O ltb rank sp x in
      ((fst s, set_verified F (match r with Ok _ => true | Err _ => false end) (snd s)), r)))) by exact H.
    apply quiet_bind; [apply quiet_indexes|]; intros x st d K; exact K.
  Qed.
  Lemma quiet_steady : quiet the_steady.
  Proof. apply quiet_bind; [apply quiet_op; exact (fun H => H)|]; intros p st d K; exact K. Qed.
  Ltac hush := repeat first [apply quiet_solution|apply quiet_indexes|apply quiet_space|apply quiet_n|apply quiet_sigma|apply quiet_verify|apply quiet_steady
    |apply quiet_lift|apply quiet_ret|apply quiet_bind; [|intros ?]].
  Lemma quiet_transition : quiet the_transition.
  Proof.
    apply quiet_bind; [apply quiet_space|]; intros sp st d K; destruct (transition F (snd st)); [exact K|].
    revert st d K; match goal with |- forall st d, _ -> known d (fst (fst (?x st))) => enough (H : quiet x) by exact H end.
    hush; intros st d K; exact K.
  Qed.
  Lemma quiet_variance : quiet the_variance.
  Proof.
    apply quiet_bind; [apply quiet_space|]; intros sp st d K; destruct (variance F (snd st)); [exact K|].
    revert st d K; match goal with |- forall st d, _ -> known d (fst (fst (?x st))) => enough (H : quiet x) by exact H end.
    repeat first [apply quiet_transition|apply quiet_sigma|apply quiet_verify|apply quiet_lift|apply quiet_ret|apply quiet_bind; [|intros ?]].
    intros st d K; exact K.
  Qed.
  Ltac hush2 := repeat first [apply quiet_transition|apply quiet_variance|apply quiet_solution|apply quiet_indexes|apply quiet_space|apply quiet_n|apply quiet_sigma|apply quiet_verify|apply quiet_steady
    |apply quiet_lift|apply quiet_ret|apply quiet_bind; [|intros ?]].
  Lemma quiet_cov : quiet cov.
  Proof. unfold StatsState.cov; hush2. Qed.
  Lemma quiet_autocov p : quiet (autocov p).
  Proof. unfold StatsState.autocov; hush2. Qed.
  Lemma quiet_var : quiet var.
  Proof. apply quiet_bind; [apply quiet_cov|intros ?; apply quiet_ret]. Qed.
  Lemma quiet_std : quiet std.
  Proof. apply quiet_bind; [apply quiet_var|intros ?; apply quiet_ret]. Qed.
  Lemma quiet_ask q : quiet (ask q).
  Proof.
    destruct q; cbn [StatsState.ask]; (apply quiet_bind; [|intros a; apply quiet_ret]).
    - apply quiet_bind; [apply quiet_steady|]; intros l; apply quiet_bind; [apply quiet_solution|]; intros sol; unfold mean_tail; destruct (as_sim F (fst sol)); hush2.
    - apply quiet_var.
    - apply quiet_std.
    - apply quiet_cov.
    - apply quiet_bind; [apply quiet_cov|]; intros c; apply quiet_lift.
    - apply quiet_autocov.
    - apply quiet_bind; [apply quiet_autocov|]; intros l; apply quiet_bind; [apply quiet_std|]; intros sd; apply quiet_lift.
    - apply quiet_bind; [apply quiet_n|]; intros n st d K; destruct (n =? 1); [exact K|].
      assert (H : quiet shares); [|apply H, K].
      unfold StatsState.shares; hush2; intros s d' K'; exact K'.
    - apply quiet_transition.
    - apply quiet_variance.
    - apply quiet_verify.
  Qed.
End Quiet.
