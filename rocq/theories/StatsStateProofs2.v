(** Statistics after histories of operations. *)
From Verif Require Import Base Syntax Lexer Parser Eval Semantics Factory Indexing DynFunc Vars ExprList ModelState ModelStateSpec ModelStateProofs ModelStateProofs2
  Nd Mat Linearize Steady SteadyValues FirstOrder SecondOrder Pipeline Sim Moments PathSim StatsState StatsStateSpec StatsStateProofs.

Section Histories.
  Variable F : Type.
  Variable O : rops F.
  Variable P : ops F.
  Variable ltb : F -> F -> bool.
  Variable isnum : F -> bool.
  Variable nan : F.
  Variable minimize : solver -> (list F -> res F) -> list F -> res (list F).
  Variable rank : nat -> nat -> mat F -> nat.
  Variable lyap : nat -> mat F -> mat F -> res (mat F).
  Variable lsolve : nat -> mat F -> vec F -> res (vec F).
  Variable chol_low : nat -> mat F -> res (mat F).
  Variable sqrt abs : F -> F.
  Variable truthy : F -> bool.
  Variable float_of : text -> option F.
  Variable trunc : F -> option Z.
  Variable parse_text : text -> res (ast F).
  Variable keeps : bool.
  Variable space : list (option F) -> steady_repr F -> repr F -> res (space_of F).
  Variable solver_ : option (rules F * matrix F) -> list (option F) -> steady_repr F -> repr F -> space_of F -> res (rules F).

  Notation mstate := (ModelState.mstate F (space_of F) (rules F)).
  Notation sstate := (StatsState.sstate F).
  Notation M := (StatsState.M F).
  Notation update := (ModelState.update F P (r0 O) isnum (space_of F) (rules F) space).
  Notation ensure := (ModelState.ensure F P (r0 O) isnum (space_of F) (rules F) space).
  Notation read := (ModelState.read F P (r0 O) isnum (space_of F) (rules F) space).
  Notation finish := (ModelState.finish F (space_of F) (rules F) solver_).
  Notation solve := (ModelState.solve F P (r0 O) isnum (space_of F) (rules F) space solver_).
  Notation solve_one := (ModelState.solve_one F P (r0 O) isnum (space_of F) (rules F) space solver_).
  Notation solve_two := (ModelState.solve_two F P (r0 O) isnum (space_of F) (rules F) space solver_).
  Notation simulate := (ModelState.simulate F P (r0 O) isnum (space_of F) (rules F) space solver_).
  Notation step := (ModelState.step F P (r0 O) (r1 O) truthy isnum float_of trunc parse_text keeps (space_of F) (rules F) space solver_).
  Notation definition := (ModelState.definition F (space_of F) (rules F)).
  Notation derived := (ModelState.derived F (space_of F) (rules F)).
  Notation altered := (ModelState.altered F (space_of F) (rules F)).
  Notation solution := (ModelState.solution F (space_of F) (rules F)).
  Notation no_sigma := (ModelState.no_sigma F (space_of F) (rules F)).
  Notation consistent := (ModelStateProofs.consistent F P (r0 O) isnum (space_of F) (rules F) space).
  Notation current := (ModelStateProofs.current F P (r0 O) isnum (space_of F) (rules F) space).
  Notation known := (ModelStateProofs.known F P (r0 O) truthy float_of trunc parse_text (space_of F) (rules F)).
  Notation similar := (ModelStateProofs.similar F).
  Notation fresh_of := (ModelStateProofs.fresh_of F (space_of F) space).
  Notation updated := (StatsState.updated F O P isnum space).
  Notation renewed := (StatsState.renewed F O P isnum space solver_).
  Notation solve_renews := (StatsState.solve_renews F O P isnum space solver_).
  Notation on_model := (StatsState.on_model F O P isnum truthy float_of trunc parse_text keeps space solver_).
  Notation the_solution := (StatsState.the_solution F O P isnum truthy float_of trunc parse_text keeps space solver_).
  Notation the_steady := (StatsState.the_steady F O P isnum nan minimize truthy float_of trunc parse_text keeps space solver_).
  Notation mean_tail := (StatsState.mean_tail F O P ltb isnum rank lyap lsolve truthy float_of trunc parse_text keeps space solver_).
  Notation cov := (StatsState.cov F O P ltb isnum rank lyap truthy float_of trunc parse_text keeps space solver_).
  Notation autocov := (StatsState.autocov F O P ltb isnum rank lyap truthy float_of trunc parse_text keeps space solver_).
  Notation ask := (StatsState.ask F O P ltb isnum nan minimize rank lyap lsolve chol_low sqrt abs truthy float_of trunc parse_text keeps space solver_).
  Notation sstep := (StatsState.sstep F O P ltb isnum nan minimize rank lyap lsolve chol_low sqrt abs truthy float_of trunc parse_text keeps space solver_).
  Notation srun := (StatsState.srun F O P ltb isnum nan minimize rank lyap lsolve chol_low sqrt abs truthy float_of trunc parse_text keeps space solver_).
  Notation bnd := (StatsState.bnd F).
  Notation good := (StatsStateProofs.good F O P isnum lyap space).
  Notation kept_right := (StatsStateProofs.kept_right F O P isnum lyap).

  (** A first-order solution has two arrays, and a solution made from one holds them. *)
  Hypothesis Hfirst : forall is st dy sp s, solver_ None is st dy sp = Ok s -> exists gy gu, s = Pipeline.First gy gu.
  Hypothesis Hsecond : forall gy gu sg is st dy sp s, solver_ (Some (Pipeline.First gy gu, sg)) is st dy sp = Ok s -> holds_arrays F gy gu s.

  Lemma similar_sym d d' : similar d d' -> similar d' d.
  Proof.
    intros [E H]; split; [rewrite E; destruct d; reflexivity|].
    clear E; induction H as [|v v' l l' Hv _ IH]; constructor; [|exact IH]; rewrite Hv; destruct v; reflexivity.
  Qed.

  (** The structures of the definitions, and the solution for them. *)
  Definition solved_by (d0 : defs F) (x : indexes) (gy gu : nd F) : Prop :=
    d_en_ok F d0 = true /\ d_st_ok F d0 = true /\
    exists sr dy sp, fresh_of d0 x sr dy sp /\ solver_ None (map ev_init (d_endog F d0)) sr dy sp = Ok (Pipeline.First gy gu).
  Definition settled (st : sstate) : Prop := exists d0 x gy gu, solved_by d0 x gy gu /\ good d0 x gy gu st.

  Lemma settled_current st : settled st -> current (fst st).
  Proof.
    intros (d0 & x & gy & gu & (E1 & E2 & _) & G); right; destruct (similar_fields F _ _ (g_sim _ _ _ _ _ _ _ _ _ _ _ G)) as (F1 & _ & F2 & _).
    rewrite F1, F2; split; [exact E1|]; split; [exact E2|]; apply (g_cons _ _ _ _ _ _ _ _ _ _ _ G).
  Qed.

  Lemma finish_good d0 x gy gu m m' c s lower : altered m = false -> consistent m -> similar d0 (definition m) -> c_index _ _ (derived m) = x ->
    kept_right d0 x gy gu c -> finish lower m = (m', Ok s) -> holds_arrays F gy gu s -> good d0 x gy gu (m', c).
  Proof.
    intros A C S X K H Hs; unfold ModelState.finish in H; destruct (solver_ _ _ _ _ _) as [s'|e]; [|discriminate]; injection H as <- <-.
    constructor; cbn [fst snd ModelState.altered ModelState.definition ModelState.derived ModelState.solution]; eauto.
  Qed.

  Lemma one_good d0 x gy gu m c m' s : current m -> similar d0 (definition m) -> solved_by d0 x gy gu ->
    (altered m = true \/ kept_right d0 x gy gu c) -> solve_one m = (m', Ok s) ->
    good d0 x gy gu (m', if altered m && updated m then blank F else c) /\ s = Pipeline.First gy gu.
  Proof.
    intros C S (E1 & E2 & sr & dy & sp & Fr & So) K H; unfold ModelState.solve_one in H.
    destruct (ensure (altered m) m) as [m1 [[]|e]] eqn:E; [|discriminate].
    assert (Q : altered m1 = false /\ consistent m1 /\ similar (definition m) (definition m1) /\
      kept_right d0 x gy gu (if altered m && updated m then blank F else c)).
    { unfold ModelState.ensure in E; destruct (altered m) eqn:Ea.
      - destruct (update_spec F P (r0 O) isnum _ _ space _ _ _ E) as (A & _ & Si & U); destruct (U eq_refl) as (_ & _ & Co & _).
        split; [exact A|]; split; [exact Co|]; split; [destruct Si as [[_ Si]|(_ & N & _)]; [exact Si|elim N; reflexivity]|].
        unfold StatsState.updated; rewrite E; apply blank_right.
      - injection E as <-; split; [exact Ea|]; destruct C as [C|(_ & _ & C)]; [congruence|]; split; [exact C|]; split; [apply similar_refl|].
        destruct K as [K|K]; [discriminate|exact K]. }
    destruct Q as (A & Co & S1 & K1); pose proof (similar_trans F _ _ _ S S1) as S2.
    apply (fresh_similar F _ space _ _ _ _ _ _ S2) in Fr; destruct (fresh_fun F _ space _ _ _ _ _ _ _ _ _ _ _ _ _ Fr (proj1 Co)) as (X1 & X2 & X3 & X4).
    assert (Es : s = Pipeline.First gy gu).
    { unfold ModelState.finish in H; rewrite X2, X3, X4, (proj2 (similar_names F _ _ S2)), So in H; injection H as _ <-; reflexivity. }
    split; [|exact Es]; apply (finish_good _ _ _ _ m1 _ _ s None A Co S2 X1 K1 H); subst s; split; reflexivity.
  Qed.

  Lemma solve_good d0 x gy gu o m c m' s : current m -> similar d0 (definition m) -> solved_by d0 x gy gu ->
    (altered m = true \/ kept_right d0 x gy gu c) -> solve o m = (m', Ok s) ->
    good d0 x gy gu (m', if solve_renews o m then blank F else c) /\ holds_arrays F gy gu s.
  Proof using Hsecond.
    intros C S B K; unfold ModelState.solve, StatsState.solve_renews; cbn zeta.
    set (o' := if o =? 0 then 2 else o); destruct (Nat.eqb_spec o' 1) as [->|N1].
    - cbn [orb Nat.eqb andb]; rewrite orb_false_r; intros H; destruct (one_good _ _ _ _ m c _ _ C S B K H) as [G ->]; split; [exact G|split; reflexivity].
    - destruct (Nat.eqb_spec o' 2) as [->|N2]; [|discriminate]; cbn [orb andb]; intros H.
      unfold ModelState.solve_two in H; destruct (solve_one m) as [m1 [s1|e]] eqn:E1; [|discriminate].
      destruct (one_good _ _ _ _ m c _ _ C S B K E1) as [G ->].
      destruct (ensure (altered m1 || no_sigma m1) m1) as [m2 [[]|e]] eqn:E2; [|discriminate].
      assert (G2 : good d0 x gy gu (m2, if altered m && updated m || (altered m1 || no_sigma m1) && updated m1 then blank F else c)).
      { unfold ModelState.ensure in E2; destruct (altered m1 || no_sigma m1).
        - unfold StatsState.updated at 2; rewrite E2; cbn [andb]; rewrite orb_true_r; exact (update_good _ _ _ _ _ _ _ _ _ _ _ _ G E2).
        - injection E2 as <-; cbn [andb]; rewrite orb_false_r; exact G. }
      destruct (c_sigma _ _ (derived m2)) as [sg|]; [|discriminate]; destruct G2 as [G1 G2 G3 G4 G5 G6]; cbn [fst snd] in *.
      assert (Hs : holds_arrays F gy gu s).
      { unfold ModelState.finish in H; destruct (solver_ _ _ _ _ _) as [s'|e] eqn:E; [|discriminate]; injection H as _ <-; exact (Hsecond _ _ _ _ _ _ _ _ E). }
      split; [|exact Hs]; exact (finish_good _ _ _ _ m2 _ _ s _ G1 G2 G3 G4 G6 H Hs).
  Qed.

  (** Nothing is kept that could be old: the next computation has a new state space. *)
  Definition idle (st : sstate) : Prop := altered (fst st) = true \/ snd st = blank F.

  Lemma solve_settles o m c m' s : current m -> idle (m, c) \/ settled (m, c) -> solve o m = (m', Ok s) ->
    settled (m', if solve_renews o m then blank F else c).
  Proof using Hfirst Hsecond truthy float_of trunc parse_text.
    intros C [I|(d0 & x & gy & gu & B & G)] H.
    - destruct (solve_current F P (r0 O) truthy isnum float_of trunc parse_text _ _ space solver_ _ _ _ _ C H) as (_ & x & st & dy & sp & Fr & So).
      assert (Si : similar (definition m) (definition m') /\ d_en_ok F (definition m) = true /\ d_st_ok F (definition m) = true).
      { clear - C H truthy float_of trunc parse_text; assert (U : forall b m m1, current m -> (b = true \/ altered m = false) -> ensure b m = (m1, Ok tt) -> similar (definition m) (definition m1) /\ d_en_ok F (definition m) = true /\ d_st_ok F (definition m) = true /\ altered m1 = false /\ current m1).
        { intros b a a1 Ca Hb E; unfold ModelState.ensure in E; destruct b.
          - destruct (update_spec F P (r0 O) isnum _ _ space _ _ _ E) as (A & _ & Si & U); destruct (U eq_refl) as (U1 & U2 & Co & _).
            assert (S : similar (definition a) (definition a1)) by (destruct Si as [[_ Si]|(_ & N & _)]; [exact Si|elim N; reflexivity]).
            destruct (similar_fields F _ _ S) as (F1 & _ & F2 & _).
            split; [exact S|]; split; [exact U1|]; split; [exact U2|]; split; [exact A|right; rewrite F1, F2; auto].
          - injection E as <-; destruct Hb as [Hb|Hb]; [discriminate|]; destruct Ca as [Ca|(C1 & C2 & C3)]; [congruence|].
            split; [apply similar_refl|]; split; [exact C1|]; split; [exact C2|]; split; [exact Hb|right; auto]. }
        assert (One : forall m m1 s, current m -> solve_one m = (m1, Ok s) -> similar (definition m) (definition m1) /\ d_en_ok F (definition m) = true /\ d_st_ok F (definition m) = true /\ altered m1 = false /\ current m1).
        { intros a a1 r Ca E; unfold ModelState.solve_one in E; destruct (ensure (altered a) a) as [a2 [[]|e]] eqn:E2; [|discriminate].
          destruct (U (altered a) a a2 Ca ltac:(destruct (altered a); auto) E2) as (U1 & U2 & U3 & U4 & U5).
          destruct (finish_ok F P (r0 O) truthy isnum float_of trunc parse_text _ _ space solver_ _ _ _ _ E) as (D1 & D2 & D3 & _ & C3 & _).
          rewrite D1, D3; split; [exact U1|]; split; [exact U2|]; split; [exact U3|]; split; [exact U4|apply C3, U5]. }
        unfold ModelState.solve in H; cbn zeta in H; destruct (_ =? 1); [destruct (One _ _ _ C H) as (Q1 & Q2 & Q3 & _); auto|].
        destruct (_ =? 2); [|discriminate]; unfold ModelState.solve_two in H; destruct (solve_one m) as [m1 [s1|e]] eqn:E1; [|discriminate].
        destruct (One _ _ _ C E1) as (Q1 & Q2 & Q3 & Q4 & Q5); destruct (ensure _ m1) as [m2 [[]|e]] eqn:E2; [|discriminate].
        destruct (U _ _ _ Q5 (or_intror Q4) E2) as (Q6 & _); destruct (c_sigma _ _ (derived m2)); [|discriminate].
        destruct (finish_ok F P (r0 O) truthy isnum float_of trunc parse_text _ _ space solver_ _ _ _ _ H) as (D1 & _).
        rewrite D1; split; [exact (similar_trans F _ _ _ Q1 Q6)|auto]. }
      destruct Si as (Si & En & St); apply (fresh_similar F _ space _ _ _ _ _ _ (similar_sym _ _ Si)) in Fr.
      rewrite (proj2 (similar_names F _ _ Si)) in So.
      assert (B : exists gy gu, solved_by (definition m) x gy gu).
      { destruct So as [[_ So]|[_ (s1 & sg & So & _)]]; destruct (Hfirst _ _ _ _ _ So) as (gy & gu & ->); exists gy, gu; split; [exact En| |exact En|]; (split; [exact St|]); exists st, dy, sp; auto. }
      destruct B as (gy & gu & B); exists (definition m), x, gy, gu; split; [exact B|].
      refine (proj1 (solve_good _ _ _ _ o m c m' s C (similar_refl F _) B _ H)).
      destruct I as [I|I]; [left; exact I|right; cbn [snd] in I; subst c; apply blank_right].
    - exists d0, x, gy, gu; split; [exact B|].
      refine (proj1 (solve_good _ _ _ _ o m c m' s C (g_sim _ _ _ _ _ _ _ _ _ _ _ G) B _ H)); right; apply (g_memo _ _ _ _ _ _ _ _ _ _ _ G).
  Qed.

  (** ** One step *)

  Definition inv (ph : phase) (st : sstate) : Prop :=
    current (fst st) /\ match ph with Settled => settled st | Unsolved => idle st /\ solution (fst st) = None | Stale => idle st \/ settled st end.
  Lemma settled_inv ph st : ph <> Unsolved -> settled st -> inv ph st.
  Proof. intros N S; split; [apply settled_current, S|]; destruct ph; [elim N; reflexivity|right; exact S|exact S]. Qed.

  Lemma add_alters o m m' w : addition F o -> step o m = (m', Ok w) -> altered m' = true /\ solution m' = solution m.
  Proof.
    intros A; destruct o as [ns i t h|ps|gs|ns sh|ns sh|r|o| |o]; try contradiction; unfold ModelState.step, ok_with; intros H; injection H as <- Hw.
    - split; reflexivity.
    - unfold add_params in *; destruct (set_params F P float_of trunc ps _) as [k [u|e]]; [split; reflexivity|discriminate].
    - unfold add_exprs in *; destruct (extend F parse_text gs _) as [k [u|e]]; [split; reflexivity|discriminate].
    - unfold add_stoch in *; destruct (create_stoch F (r1 O) ns sh); [split; reflexivity|discriminate].
    - unfold add_determ in *; destruct (create_determ F (r1 O) ns sh); [split; reflexivity|discriminate].
  Qed.
  Lemma do_inv o st st' w : sstep (Do o) st = (st', Ok w) -> exists v b, on_model o st = (st', Ok (v, b)) /\
    step o (fst st) = (fst st', Ok v) /\ snd st' = if renewed o (fst st) then blank F else snd st.
  Proof.
    cbn [StatsState.sstep]; unfold StatsState.bnd; destruct (on_model o st) as [s1 [[v b]|e]] eqn:E; [|discriminate]; intros H; injection H as <- _.
    exists v, b; split; [reflexivity|]; unfold StatsState.on_model in E; destruct (step o (fst st)) as [m' [v'|e]]; cbn [fst snd bind] in E; [|discriminate].
    injection E as <- <- _; split; reflexivity.
  Qed.
  Lemma add_step o st st' w : addition F o -> sstep (Do o) st = (st', Ok w) ->
    current (fst st') /\ altered (fst st') = true /\ solution (fst st') = solution (fst st).
  Proof.
    intros A H; destruct (do_inv _ _ _ _ H) as (v & b & _ & E & _).
    destruct (step_ok F P (r0 O) (r1 O) truthy isnum float_of trunc parse_text keeps _ _ space solver_ _ _ _ _ E) as (_ & S & _).
    split; [exact (S v eq_refl A)|exact (add_alters _ _ _ _ A E)].
  Qed.

  Lemma read_idle r m m' c v : idle (m, c) -> read r m = (m', Ok v) -> idle (m', if renewed (Read r) m then blank F else c) /\ solution m' = solution m.
  Proof.
    intros I; unfold ModelState.read.
    replace (renewed (Read r) m) with ((match r with RSigma => altered m || no_sigma m | _ => altered m end) && updated m) by (destruct r; reflexivity).
    destruct (match r with RSigma => _ | _ => _ end) eqn:Eb; cbn [andb]; unfold ModelState.ensure.
    - destruct (update m) as [m1 [[]|e]] eqn:U; [|discriminate]; intros H; injection H as <- _; split; [|apply (update_solution F P (r0 O) isnum _ _ space _ _ _ U)].
      unfold StatsState.updated; rewrite U; right; reflexivity.
    - intros H; injection H as <- _; split; [exact I|reflexivity].
  Qed.

  Lemma settled_update m c m' : settled (m, c) -> update m = (m', Ok tt) -> settled (m', blank F).
  Proof.
    intros (d0 & x & gy & gu & B & G) U; exists d0, x, gy, gu; split; [exact B|exact (update_good _ _ _ _ _ _ _ _ _ _ _ _ G U)].
  Qed.

  Lemma do_step ph o st st' w : inv ph st -> sstep (Do o) st = (st', Ok w) -> inv (after F ph (Do o) (Ok w)) st'.
  Proof using All.
    intros [C I] H; destruct (do_inv _ _ _ _ H) as (v & b & E0 & E & Em); destruct st as [m c], st' as [m' c']; cbn [fst snd] in *; subst c'.
    assert (C' : current m').
    { destruct (step_ok F P (r0 O) (r1 O) truthy isnum float_of trunc parse_text keeps _ _ space solver_ _ _ _ _ E) as (_ & _ & S); exact (S v eq_refl C). }
    assert (Add : addition F o -> inv (match ph with Unsolved => Unsolved | _ => Stale end) (m', if renewed o m then blank F else c)).
    { intros A; destruct (add_alters _ _ _ _ A E) as [E1 E2]; split; [exact C'|]; cbn [fst]; destruct ph; [|left; left; exact E1|left; left; exact E1].
      split; [left; exact E1|]; rewrite E2; apply I. }
    assert (Sv : forall k mm s, solve k m = (mm, Ok s) -> settled (mm, if solve_renews k m then blank F else c)).
    { intros k mm s Hk; apply (solve_settles k m c mm s C); [|exact Hk]; destruct ph; [left; apply I|exact I|right; exact I]. }
    destruct o as [ns i t h|ps|gs|ns sh|ns sh|r|o| |o]; try (cbn [after]; apply Add; exact Logic.I); clear Add.
    - (* reads *)
      cbn [after]; split; [exact C'|]; cbn [fst].
      assert (Rd : exists v', read r m = (m', Ok v')).
      { unfold ModelState.step, ok_with in E; destruct (read r m) as [m1 [v'|e]]; cbn [fst snd bind] in E; [injection E as <- _; eauto|discriminate]. }
      destruct Rd as (v' & Rd).
      assert (Ss : settled (m, c) -> settled (m', if renewed (Read r) m then blank F else c)).
      { intros (d0 & x & gy & gu & B & G); exists d0, x, gy, gu; split; [exact B|].
        exact (proj1 (ens_read F O P isnum lyap truthy float_of trunc parse_text keeps space solver_ d0 x gy gu r _ _ _ G E0)). }
      destruct ph.
      + destruct I as [I1 I2], (read_idle _ _ _ _ _ I1 Rd) as [Q1 Q2]; split; [exact Q1|rewrite Q2; exact I2].
      + destruct I as [I|I]; [left; apply (read_idle _ _ _ _ _ I Rd)|right; apply Ss, I].
      + apply Ss, I.
    - (* solve *)
      cbn [after]; apply settled_inv; [discriminate|].
      unfold ModelState.step, ok_with in E; destruct (solve o m) as [m1 [s|e]] eqn:Es; cbn [fst snd bind] in E; [|discriminate]; injection E as <- _.
      exact (Sv _ _ _ Es).
    - (* the solution *)
      cbn [after]; unfold ModelState.step, ok_with, ModelState.read_solution in E; cbn [StatsState.renewed].
      destruct (solution m) as [s0|] eqn:So; cbn [fst snd bind] in E.
      + injection E as <- _; destruct ph; [destruct I as [_ I]; congruence|split; [exact C|exact I]|split; [exact C|exact I]].
      + destruct (solve 2 m) as [m1 [s|e]] eqn:Es; cbn [fst snd bind] in E; [|discriminate]; injection E as <- _.
        apply settled_inv; [destruct ph; discriminate|exact (Sv _ _ _ Es)].
    - (* simulations *)
      unfold ModelState.step, ok_with, ModelState.simulate in E.
      assert (Go : forall k m1 s, solve k m = (m1, Ok s) -> update m1 = (m', Ok tt) -> settled (m', blank F)).
      { intros k m1 s H1 H2; exact (settled_update _ _ _ (Sv _ _ _ H1) H2). }
      cbn [StatsState.renewed]; destruct o as [|o]; cbn [after Nat.eqb] in *.
      + destruct (solution m) as [s0|] eqn:So.
        * destruct (update m) as [m2 [[]|e]] eqn:U; cbn [fst snd bind] in E; [|discriminate]; injection E as <- _.
          unfold StatsState.updated; rewrite U.
          destruct ph; [destruct I; congruence|split; [exact C'|]|split; [exact C'|]].
          { destruct I as [I|I]; [left; right; reflexivity|right; exact (settled_update _ _ _ I U)]. }
          exact (settled_update _ _ _ I U).
        * destruct (solve 0 m) as [m1 [s|e]] eqn:Es; [|discriminate]; destruct (update m1) as [m2 [[]|e]] eqn:U; cbn [fst snd bind] in E; [|discriminate]; injection E as <- _.
          unfold StatsState.updated; rewrite U, orb_true_r; apply settled_inv; [destruct ph; discriminate|exact (Go _ _ _ Es U)].
      + destruct (solve (S o) m) as [m1 [s|e]] eqn:Es; [|discriminate]; destruct (update m1) as [m2 [[]|e]] eqn:U; cbn [fst snd bind] in E; [|discriminate]; injection E as <- _.
        replace (match solution m with Some _ => false | None => false end) with false by (destruct (solution m); reflexivity).
        unfold StatsState.updated; rewrite U, orb_true_r; apply settled_inv; [discriminate|exact (Go _ _ _ Es U)].
  Qed.

  (** ** Questions *)

  Definition unsolved (st : sstate) : Prop := inv Unsolved st.
  Lemma solution_first st st1 s b : unsolved st -> the_solution st = (st1, Ok (s, b)) -> settled st1 /\ the_solution st1 = (st1, Ok (s, true)).
  Proof using All.
    intros [C [I N]]; destruct st as [m c]; cbn [fst snd] in *.
    unfold StatsState.the_solution, StatsState.bnd, StatsState.on_model, ModelState.step, ok_with, ModelState.read_solution; cbn [fst snd StatsState.renewed]; rewrite N.
    destruct (solve 2 m) as [m1 [s1|e]] eqn:Es; cbn [fst snd bind]; [|discriminate]; intros H; injection H as <- <- _.
    split; [exact (solve_settles 2 m c m1 s1 C (or_introl I) Es)|].
    cbn [fst snd]; rewrite (solve_stores F P (r0 O) truthy isnum float_of trunc parse_text _ _ space solver_ _ _ _ _ Es); reflexivity.
  Qed.
  (** The question solves the model, and goes on as if it had been solved. *)
  Definition starts {A} (x : M A) : Prop := forall st st' a, unsolved st -> x st = (st', Ok a) -> exists st1, settled st1 /\ x st1 = (st', Ok a).
  Lemma starts_first {B} (g : rules F * bool -> M B) : (forall s b, g (s, b) = g (s, true)) -> starts (bnd the_solution g).
  Proof using All.
    intros Hg st st' a U; unfold StatsState.bnd at 1; destruct (the_solution st) as [st1 [[s b]|e]] eqn:E; [|discriminate].
    destruct (solution_first _ _ _ _ U E) as [S1 E1]; intros H; exists st1; split; [exact S1|]; unfold StatsState.bnd; rewrite E1, <- (Hg s b); exact H.
  Qed.
  Lemma starts_bind {A B} (x : M A) (f : A -> M B) : starts x -> starts (bnd x f).
  Proof.
    intros H st st' b U; unfold StatsState.bnd at 1; destruct (x st) as [s1 [a|e]] eqn:E; [|discriminate].
    destruct (H _ _ _ U E) as (st1 & S1 & E1); intros Hb; exists st1; split; [exact S1|]; unfold StatsState.bnd; rewrite E1; exact Hb.
  Qed.
  Lemma starts_cov : starts cov.
  Proof using All. apply starts_first; intros s b; reflexivity. Qed.
  Lemma starts_autocov p : starts (autocov p).
  Proof using All. apply starts_first; intros s b; reflexivity. Qed.
  Lemma starts_ask q : second_moment q -> starts (ask q).
  Proof using All.
    destruct q; intros Q; try contradiction; cbn [StatsState.ask]; apply starts_bind.
    - apply starts_bind, starts_cov.
    - apply starts_bind, starts_bind, starts_cov.
    - apply starts_cov.
    - apply starts_bind, starts_cov.
    - apply starts_autocov.
    - apply starts_bind, starts_autocov.
  Qed.
  Lemma ask_settled q st st' a : settled st -> ask q st = (st', Ok a) -> settled st'.
  Proof.
    intros (d0 & x & gy & gu & B & G) H; exists d0, x, gy, gu; split; [exact B|].
    exact (proj1 (calm_ask F O P ltb isnum nan minimize rank lyap lsolve chol_low sqrt abs truthy float_of trunc parse_text keeps space solver_ d0 x gy gu q _ _ _ G H)).
  Qed.
  Lemma ask_mean st st' a : unsolved st -> ask Mean st = (st', Ok a) -> settled st'.
  Proof using All.
    intros U; cbn [StatsState.ask]; unfold StatsState.bnd at 1; destruct (StatsState.mean F O P ltb isnum nan minimize rank lyap lsolve truthy float_of trunc parse_text keeps space solver_ st) as [s1 [v|e]] eqn:E; [|discriminate].
    intros H; injection H as <- _; unfold StatsState.mean in E; unfold StatsState.bnd at 1 in E; destruct (the_steady st) as [s2 [l|e]] eqn:E1; [|discriminate].
    assert (U2 : unsolved s2).
    { unfold StatsState.the_steady, StatsState.bnd in E1; destruct (on_model (Read RSteady) st) as [s3 [p|e]] eqn:E2; [|discriminate]; injection E1 as <- _.
      apply (do_step Unsolved (Read RSteady) st s3 (Did (fst p)) U); cbn [StatsState.sstep]; unfold StatsState.bnd; rewrite E2; reflexivity. }
    destruct (starts_first (mean_tail l) (fun s b => eq_refl) _ _ _ U2 E) as (st1 & (d0 & x & gy & gu & B & G) & E3).
    exists d0, x, gy, gu; split; [exact B|].
    exact (proj1 (calm_tail F O P ltb isnum rank lyap lsolve truthy float_of trunc parse_text keeps space solver_ d0 x gy gu l _ _ _ G E3)).
  Qed.
  Lemma ask_step ph q st st' w : inv ph st -> in_time ph q -> sstep (Ask q) st = (st', Ok w) -> inv (after F ph (Ask q) (Ok w)) st'.
  Proof using All.
    intros I T; cbn [StatsState.sstep]; unfold StatsState.bnd; destruct (ask q st) as [s1 [a|e]] eqn:E; [|discriminate]; intros H; injection H as <- _.
    destruct ph; cbn [in_time] in T; [|contradiction|]; cbn [after]; (apply settled_inv; [discriminate|]).
    - assert (D : q = Mean \/ second_moment q) by (destruct q; try contradiction; [left; reflexivity|right; exact Logic.I..]).
      destruct D as [->|D]; [exact (ask_mean _ _ _ I E)|]; destruct (starts_ask _ D _ _ _ I E) as (st1 & S1 & E1); exact (ask_settled _ _ _ _ S1 E1).
    - exact (ask_settled _ _ _ _ (proj2 I) E).
  Qed.

  (** ** Histories *)

  Lemma run_inv os : forall ph st st' l, srun os st = (st', l) -> all_made F l -> mended F l -> orderly F ph l ->
    (inv ph st \/ (ph <> Unsolved /\ exists o r, In (Do o, r) l /\ addition F o)) -> inv (phase_after F ph l) st'.
  Proof using All.
    induction os as [|o os IH]; intros ph st st' l H A R Or I; cbn [StatsState.srun] in H.
    - injection H as <- <-; destruct I as [I|(_ & o & r & [] & _)]; exact I.
    - destruct (sstep o st) as [s1 r] eqn:E1; destruct (srun os s1) as [s2 l2] eqn:E2; injection H as <- <-; cbn [phase_after orderly] in *; destruct Or as [T Or].
      apply (IH _ s1 s2 l2 E2).
      + intros o' e Hin; apply (A o' e); right; exact Hin.
      + intros l1 o' e l3 E; apply (R ((o, r) :: l1) o' e l3); rewrite E; reflexivity.
      + exact Or.
      + destruct r as [w|e].
        2: { right; cbn [after]; split; [discriminate|]; apply (R [] o e l2); reflexivity. }
        destruct I as [I|(Ph & o' & r' & [E|Hin] & Ha)].
        * left; destruct o as [o|q]; [apply (do_step ph o st s1 w I E1)|apply (ask_step ph q st s1 w I T E1)].
        * injection E as -> _; left; destruct (add_step _ _ _ _ Ha E1) as (Q1 & Q2 & _).
          split; [destruct o'; try contradiction; exact Q1|]; destruct o'; try contradiction; cbn [after]; destruct ph; try (elim Ph; reflexivity); left; left; exact Q2.
        * right; split; [|eauto]; destruct o as [[]|]; cbn [after]; destruct ph; try discriminate; try (elim Ph; reflexivity); destruct order; discriminate.
  Qed.

  Lemma run_known_all os : forall d st st' l, known d (fst st) -> srun os st = (st', l) -> all_made F l -> known (effects F (r1 O) (operations F os) d) (fst st').
  Proof.
    induction os as [|o os IH]; intros d st st' l K H A; cbn [StatsState.srun] in H.
    - injection H as <- <-; exact K.
    - destruct (sstep o st) as [s1 r] eqn:E1; destruct (srun os s1) as [s2 l2] eqn:E2; injection H as <- <-.
      assert (A2 : all_made F l2) by (intros o' e Hin; apply (A o' e); right; exact Hin).
      destruct o as [o|q]; cbn [operations flat_map app].
      + unfold effects; cbn [fold_left]; apply (IH _ s1 s2 l2); [|exact E2|exact A2].
        cbn [StatsState.sstep] in E1; unfold StatsState.bnd in E1; unfold StatsState.on_model in E1; destruct (step o (fst st)) as [m' v] eqn:E; cbn [fst snd] in E1.
        assert (Q : fst s1 = m' /\ (forall e, v = Err e -> r = Err e)) by (destruct v as [v|e]; cbn [bind fst] in E1; injection E1 as <- <-; split; try reflexivity; intros ? X; congruence).
        destruct Q as [-> Q].
        destruct (step_ok F P (r0 O) (r1 O) truthy isnum float_of trunc parse_text keeps _ _ space solver_ _ _ _ _ E) as (S & _).
        apply S; [exact K|]; intros Ha; destruct v as [w|e]; [eauto|]; exfalso; apply (A o e); [left; rewrite (Q e eq_refl); reflexivity|exact Ha].
      + apply (IH _ s1 s2 l2); [|exact E2|exact A2].
        pose proof (quiet_ask F O P ltb isnum nan minimize rank lyap lsolve chol_low sqrt abs truthy float_of trunc parse_text keeps space solver_ q st d K) as Q.
        cbn [StatsState.sstep] in E1; unfold StatsState.bnd in E1; destruct (ask q st) as [s3 [a|e]]; injection E1 as <- _; exact Q.
  Qed.

  (** The answer to a question in time is the statistic of Moments.v, for the solution of the
      definitions in force. *)
  Notation answers := (StatsStateProofs.answers F O P isnum).
  Definition answered (d0 : defs F) (x : indexes) (gy gu : nd F) (q : query) (a : answer F) : Prop :=
    match q with
    | Cov => exists v, a = Array v /\ answers d0 x gy gu (Moments.cov F O lyap (Ok tt)) v
    | Var => exists v, a = Array v /\ answers d0 x gy gu (Moments.var F O lyap (Ok tt)) v
    | Std => exists v, a = Array v /\ answers d0 x gy gu (Moments.std F O lyap sqrt (Ok tt)) v
    | Corr => exists v, a = Array v /\ answers d0 x gy gu (Moments.corr F O lyap sqrt (Ok tt)) v
    | Autocov p => exists v, a = Arrays v /\ answers d0 x gy gu (fun m s => Moments.autocov F O lyap (Ok tt) m s p) v
    | Autocorr p => exists v, a = Arrays v /\ answers d0 x gy gu (fun m s => Moments.autocorr F O lyap sqrt (Ok tt) m s p) v
    | _ => False
    end.
  Lemma ens_answer d0 x gy gu {A} (y : M A) (f : A -> answer F) (Q : A -> Prop) st st' a :
    StatsStateProofs.ensures F O P isnum lyap space d0 x gy gu y Q -> good d0 x gy gu st -> bnd y (fun v => StatsState.ret F (f v)) st = (st', Ok a) ->
    good d0 x gy gu st' /\ exists v, a = f v /\ Q v.
  Proof.
    intros H G; unfold StatsState.bnd; destruct (y st) as [s1 [v|e]] eqn:E; [|discriminate]; intros E'; injection E' as <- <-.
    destruct (H _ _ _ G E) as [G1 Q1]; split; [exact G1|]; exists v; auto.
  Qed.
  Lemma ask_answer ph q st st' a : inv ph st -> in_time ph q -> second_moment q -> ask q st = (st', Ok a) ->
    exists d0 x gy gu, solved_by d0 x gy gu /\ good d0 x gy gu st' /\ answered d0 x gy gu q a.
  Proof using All.
    intros I T Q H; assert (S : exists st1, settled st1 /\ ask q st1 = (st', Ok a)).
    { destruct ph; [exact (starts_ask q Q _ _ _ I H)|contradiction|exists st; split; [apply I|exact H]]. }
    destruct S as (st1 & (d0 & x & gy & gu & B & G) & E); exists d0, x, gy, gu; split; [exact B|].
    destruct q; try contradiction; cbn [StatsState.ask answered] in *.
    - exact (ens_answer _ _ _ _ _ _ _ _ _ _ (ens_var _ _ _ _ _ _ _ _ _ _ _ _ _ _ _ _ _ _) G E).
    - exact (ens_answer _ _ _ _ _ _ _ _ _ _ (ens_std _ _ _ _ _ _ _ _ _ _ _ _ _ _ _ _ _ _ _) G E).
    - exact (ens_answer _ _ _ _ _ _ _ _ _ _ (ens_cov _ _ _ _ _ _ _ _ _ _ _ _ _ _ _ _ _ _) G E).
    - exact (ens_answer _ _ _ _ _ _ _ _ _ _ (ens_corr _ _ _ _ _ _ _ _ _ _ _ _ _ _ _ _ _ _ _) G E).
    - exact (ens_answer _ _ _ _ _ _ _ _ _ _ (ens_autocov _ _ _ _ _ _ _ _ _ _ _ _ _ _ _ _ _ _ _) G E).
    - exact (ens_answer _ _ _ _ _ _ _ _ _ _ (ens_autocorr _ _ _ _ _ _ _ _ _ _ _ _ _ _ _ _ _ _ _ _) G E).
  Qed.
End Histories.
