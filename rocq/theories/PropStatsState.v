(** Statistics after histories of operations: property C95. *)
From Verif Require Import Base Syntax Lexer Parser Eval EvalSpec Semantics Factory FactorySpec Calib CalibSpec CalibProofs Indexing IndexingSpec DynFunc DynSpec Vars ExprList
  ModelState ModelStateSpec ModelStateProofs ModelStateProofs2 PropModel OutlineSpec PropDyn
  Nd NdInst Mat NdProofs SimSpec OrderProofs CalcSpec CalcProofs CalcProofs2 CalcProofs3 Linearize LinearizeSpec LinearizeProofs Steady SteadyValues SteadyValuesSpec PropSteadyValues
  FirstOrder FirstOrderSpec PropFirst Sylvester SylvesterSpec SecondOrder SecondOrderSpec PropSecond AccuracySpec PropAccuracy FirstOrderExample Gauss SylvesterExample LinearExample
  Pipeline PipelineSpec PipelineProofs PropPipeline Sim SimProofs3 PathSim PathSimSpec PathSimProofs PropPathSim
  Moments MomentsSpec MomentsProofs MomentsProofs2 MomentsProofs3 MomentsProofs4 MomentsExample PropMoments StatsState StatsStateSpec StatsStateProofs StatsStateProofs2 StableSpec PathStable.
From Coq Require Import ZArith QArith Qcanon.
Local Open Scope string_scope.
Local Open Scope list_scope.
Local Open Scope nat_scope.

Section C95.
  Notation named := OutlineSpec.named.
  Variable F : Type.
  Variable O : rops F.
  Variable P : ops F.
  Variable ltb eqb : F -> F -> bool.
  Variable nan : F.
  Variable minimize : solver -> (list F -> res F) -> list F -> res (list F).
  Variable grad : (list F -> res F) -> list F -> res (list F).
  Variable jacobian : (list F -> res (list F)) -> list F -> res (list (list F)).
  Variable qr : nat -> nat -> mat F -> res (mat F * mat F).
  Variable rank : nat -> nat -> mat F -> nat.
  Variable ordqz : nat -> mat F -> mat F -> res (schur F).
  Variable inv : nat -> mat F -> res (mat F).
  Variable qz : nat -> mat F -> mat F -> res (mat F * mat F * mat F * mat F).
  Variable solve : nat -> nat -> mat F -> mat F -> res (mat F).
  Variable lyap : nat -> mat F -> mat F -> res (mat F).
  Variable lsolve : nat -> mat F -> vec F -> res (vec F).
  Variable chol_low : nat -> mat F -> res (mat F).
  Variable sqrt abs : F -> F.
  Variable two : F.
  Variable truthy isnum : F -> bool.
  Variable float_of : text -> option F.
  Variable trunc : F -> option Z.
  Variable nzero : F.
  Variable parse_text : text -> res (ast F).
  Variable keeps : bool.

  (** The model with its numerical parts. *)
  Notation space := (whole_space F O P ltb nan minimize grad qr rank ordqz).
  Notation solver_ := (whole_solver F O P eqb nan minimize grad jacobian inv qz solve).
  Notation read_model := (Factory.read_model F P two float_of trunc nzero).
  Notation new_model := (ModelState.new_model F P (r0 O) (r1 O) truthy float_of trunc parse_text (space_of F) (rules F) space).
  Notation step := (ModelState.step F P (r0 O) (r1 O) truthy isnum float_of trunc parse_text keeps (space_of F) (rules F) space solver_).
  Notation sstep := (StatsState.sstep F O P ltb isnum nan minimize rank lyap lsolve chol_low sqrt abs truthy float_of trunc parse_text keeps space solver_).
  Notation srun := (StatsState.srun F O P ltb isnum nan minimize rank lyap lsolve chol_low sqrt abs truthy float_of trunc parse_text keeps space solver_).
  Notation definition := (ModelState.definition F (space_of F) (rules F)).
  Notation derived := (ModelState.derived F (space_of F) (rules F)).

  (** What the routines promise, in exact arithmetic. *)
  Variable finv : F -> F.
  Variable le : F -> F -> Prop.
  Variable fns : string -> smooth_fun F.
  Variable pows : F -> smooth_fun F.
  Hypothesis FT : is_field O finv.
  Hypothesis OR : is_ordered O le.
  Hypothesis Hl : forall x y, ltb x y = false <-> le y x.
  Hypothesis Heq : forall x y, eqb x y = true <-> x = y.
  Hypothesis HI : interprets F O le P fns pows.
  Hypothesis Hn : forall v, o_isnone P v = true -> v = o_none P.
  Hypothesis Hqr : qr_routine F O qr.
  Hypothesis Hqz : schur_routine F O le ordqz.
  Hypothesis Hinv : inverse_routine F O inv.
  Hypothesis Hs : linear_routine F O solve.
  Hypothesis Hm : forall s m x0 y, minimize s (least_squares F O P m) x0 = Ok y -> least F le (List.length x0) (least_squares F O P m) y.
  Hypothesis HL : solves_lyapunov F O lyap.

  Notation solvable := (PropPipeline.solvable F O P grad jacobian le fns pows).

  (** What the answer to a question [q] is for the equations, if it leaves the model [m]: the
      solution that can be read is a rule that solves the equations to first order around a
      steady state, and the answer gives the moments of the processes that follow it, if it is
      stable; and it is stable if the roots of the model are separated, as many being inside
      the unit circle as there are states. *)
  Definition statistics_for (m : mstate F (space_of F) (rules F)) (q : query) (a : answer F)
      (endog stoch : list string) (params : list (string * F)) (exprs : list (ast F)) (fits : Prop) : Prop :=
    exists sp sigma s, snd (step (Read RSpace) m) = Ok (OValue (VSpace sp)) /\ snd (step (Read RSigma) m) = Ok (OValue (VSigma sigma)) /\
      snd (step ReadSolution m) = Ok (OSolution s) /\
      (fits -> solvable endog stoch params exprs sp -> 1 < List.length endog ->
       is_steady F O P endog stoch exprs params (sp_ss sp) /\
       exists g, solving_rule F O le P endog stoch params exprs (sp_ss sp) g /\ first_arrays F s = (gy_of g, gu_of g) /\
         (archimedean F O le -> finite_quotients F O ordqz -> refuses_singular F O solve ->
          separated F O le (eigen (sp_state sp)) (rs g) -> stable F O g /\ no_unit_root F O g) /\
         (stable F O g -> reports F O sqrt g sigma q a)).

  Notation answered := (StatsStateProofs2.answered F O P isnum lyap sqrt).
  Notation good := (StatsStateProofs.good F O P isnum lyap space).

  Lemma first_of is st dy sp s : solver_ None is st dy sp = Ok s -> exists gy gu, s = Pipeline.First gy gu.
  Proof using. unfold whole_solver; destruct (solve_first_order _ _ _ _ _ _) as [[gy gu]|]; cbn [bind]; intros H; [injection H as <-; eauto|discriminate]. Qed.
  Lemma second_of gy gu sg is st dy sp s : solver_ (Some (Pipeline.First gy gu, sg)) is st dy sp = Ok s -> holds_arrays F gy gu s.
  Proof using.
    unfold whole_solver; destruct (ss_values _ _ _ _ _ _ _ _) as [ss|]; cbn [bind]; [|discriminate]; destruct (model_hessian _ _ _ _ _ _ _) as [B|]; cbn [bind]; [|discriminate].
    destruct (solve_second_order _ _ _ _ _ _ _ _ _ _ _ _) as [[[[xx xu] uu] dl]|]; cbn [bind]; intros H; [injection H as <-; split; reflexivity|discriminate].
  Qed.

  (** The answers of Moments.v are right. *)
  Lemma answers_report d0 x gy gu g q a sg ss : has_rule F g (model_of F d0 x ss sg) (Sim.First gy gu) -> 1 < rn g -> stable F O g ->
    define_sigma F (r0 O) P isnum (d_stoch F d0) = Ok sg -> answered d0 x gy gu q a -> reports F O sqrt g sg q a.
  Proof using FT HL.
    intros HR H1 St Sg A; pose proof (Field_theory.F_R FT) as RT.
    assert (Cv : forall c, Moments.cov F O lyap (Ok tt) (model_of F d0 x ss sg) (Sim.First gy gu) = Ok c -> exists C, c = M2 (rn g) (rn g) C /\
      at_dates F O g sg (fun R y t => forall v w, v < rn g -> w < rn g -> C v w = covariance R (y t v) (y t w))).
    { intros c E; destruct (C44_partial F O lyap g _ _ c RT HL HR H1 St E) as (C & E1 & E2 & _); exists C; split; [exact E1|].
      intros R y u LR Fo Sy t v w; exact (E2 R y u LR Fo Sy t v w). }
    destruct q; cbn [StatsStateProofs2.answered reports] in *; try contradiction; destruct A as (v & -> & sg' & Sg' & A); rewrite Sg in Sg'; injection Sg' as <-; specialize (A ss).
    - destruct (Moments.cov F O lyap (Ok tt) (model_of F d0 x ss sg) (Sim.First gy gu)) as [c|] eqn:Ec; [|unfold Moments.var in A; rewrite Ec in A; discriminate].
      destruct (Cv c eq_refl) as (C & E1 & E2); destruct (std_ok F O lyap sqrt (rn g) _ _ _ c C Ec E1) as [V _]; rewrite V in A; injection A as <-.
      eexists; split; [reflexivity|]; intros R y u LR Fo Sy t i Hi; exact (E2 R y u LR Fo Sy t i i Hi Hi).
    - destruct (Moments.cov F O lyap (Ok tt) (model_of F d0 x ss sg) (Sim.First gy gu)) as [c|] eqn:Ec; [|unfold Moments.std, Moments.var in A; rewrite Ec in A; discriminate].
      destruct (Cv c eq_refl) as (C & E1 & E2); destruct (std_ok F O lyap sqrt (rn g) _ _ _ c C Ec E1) as [_ V]; rewrite V in A; injection A as <-.
      eexists; split; [reflexivity|]; intros R y u LR Fo Sy t i Hi; rewrite (E2 R y u LR Fo Sy t i i Hi Hi); reflexivity.
    - destruct (Cv v A) as (C & -> & E2); exists C; split; [reflexivity|exact E2].
    - destruct (Moments.cov F O lyap (Ok tt) (model_of F d0 x ss sg) (Sim.First gy gu)) as [c|] eqn:Ec; [|unfold Moments.corr in A; rewrite Ec in A; discriminate].
      destruct (Cv c eq_refl) as (C & E1 & E2); destruct (corr_ok F O lyap sqrt (rn g) _ _ _ c C Ec E1) as (h & V & Hh); rewrite V in A; injection A as <-.
      exists h; split; [reflexivity|]; intros R y u LR Fo Sy t i j Hi Hj; rewrite (Hh i j Hi Hj); unfold scaled.
      rewrite (E2 R y u LR Fo Sy t i j Hi Hj), (E2 R y u LR Fo Sy t i i Hi Hi), (E2 R y u LR Fo Sy t j j Hj Hj); reflexivity.
    - destruct (C45_partial F O lyap g _ _ p v RT HL HR H1 St A) as (B1 & B2 & B3); exists v; split; [reflexivity|]; split; [exact B1|]; split; [exact B2|].
      intros i Hi; destruct (B3 i Hi) as (C & B4 & B5); exists C; split; [exact B4|]; intros R y u LR Fo Sy t; exact (B5 R y u LR Fo Sy t).
    - destruct (C45_correlations F O lyap sqrt g _ _ p v RT HL HR H1 St A) as (B1 & B2 & B3); exists v; split; [reflexivity|]; split; [exact B1|]; split; [exact B2|].
      intros i Hi; destruct (B3 i Hi) as (C & B4 & B5); exists C; split; [exact B4|]; intros R y u LR Fo Sy t; exact (B5 R y u LR Fo Sy t).
  Qed.

  Lemma model_statistics D d0 x gy gu st q a :
    ModelStateProofs.known F P (r0 O) truthy float_of trunc parse_text (space_of F) (rules F) D (fst st) ->
    StatsStateProofs2.solved_by F space solver_ d0 x gy gu -> good d0 x gy gu st -> answered d0 x gy gu q a ->
    let d := definition (fst st) in
    let ns := map ev_name (d_endog F d) in let sv := map sv_name (d_stoch F d) in
    let sc := model_scope F d in let es := trees (d_exprs F d) in
    statistics_for (fst st) q a ns sv sc es (readable ns sv es sc /\ List.length es = List.length ns).
  Proof using FT OR Hl Heq HI Hqr Hqz Hinv Hs Hm HL.
    intros K (En & Sk & sr & dy & sp & Fr & So) G A d ns sv sc es; destruct st as [m c]; cbn [fst] in *.
    pose proof G as [G1 G2 G3 G4 (s & So1 & So2) _]; cbn [fst snd] in *.
    apply (fresh_similar F _ space _ _ _ _ _ _ G3) in Fr; destruct (fresh_fun F _ space _ _ _ _ _ _ _ _ _ _ _ _ _ Fr (proj1 G2)) as (_ & X2 & X3 & X4).
    rewrite <- (proj2 (similar_names F _ _ G3)) in So.
    destruct (similar_fields F _ _ G3) as (F1 & F3 & F2 & _).
    assert (Sg : exists sg, define_sigma F (r0 O) P isnum (d_stoch F d0) = Ok sg) by (destruct q; try contradiction; destruct A as (v & _ & sg & E & _); eauto).
    destruct Sg as (sg & Sg).
    assert (Sg' : define_sigma F (r0 O) P isnum (d_stoch F d) = Ok sg) by (unfold d; rewrite F3; exact Sg).
    assert (C : ModelStateProofs.current F P (r0 O) isnum _ _ space m) by (right; rewrite F1, F2; auto).
    assert (It : intact F _ _ m) by (split; [rewrite F1|rewrite F2]; assumption).
    destruct (current_read F P (r0 O) isnum _ _ space RSpace m _ _ _ _ sg C It Fr Sg') as (m1 & v1 & R1 & V1); cbn [reading_of] in V1; subst v1.
    destruct (current_read F P (r0 O) isnum _ _ space RSigma m _ _ _ _ sg C It Fr Sg') as (m2 & v2 & R2 & sg' & V2 & ->); fold d in V2; rewrite Sg' in V2; injection V2 as <-.
    exists sp, sg, s; split; [unfold ModelState.step, ok_with; rewrite R1; reflexivity|]; split; [unfold ModelState.step, ok_with; rewrite R2; reflexivity|].
    split; [unfold ModelState.step, ok_with, ModelState.read_solution; rewrite So1; reflexivity|].
    intros [Re Sq] Sv H1; pose proof Sv as (Hd & Hex & Sm & Rt); unfold fresh_of in Fr; fold d in Fr; fold ns sc es in Fr.
    assert (St : is_steady F O P ns sv es sc (sp_ss sp)).
    { eapply (steady_found F O P ltb eqb nan minimize grad qr rank ordqz finv le FT OR Heq Hm); [exact Fr| |exact Re|exact Hex]; apply endog_length. }
    split; [exact St|].
    destruct (first_solves F O P ltb eqb nan minimize grad jacobian qr rank ordqz inv qz solve finv le fns pows FT OR Hl HI Hqr Hqz Hinv Hs _ _ _ _ _ _ _ _ _ _ Fr So) as (gy' & gu' & Eq & Sol).
    injection Eq as <- <-; destruct (Sol Re Sq Hd St Sm Rt) as (L & g & Oc & Ab & Pr & Rk & E1 & E2 & Gg).
    exists g; split; [exists L; auto|]; split.
    { transitivity (gy, gu); [destruct So2 as [<- <-]; destruct s; reflexivity|exact (f_equal2 pair E1 E2)]. }
    split; [intros AR Hfin Hsing Sep;
      exact (proj2 (proj2 (solved_settles F O P ltb eqb nan minimize grad jacobian qr rank ordqz inv qz solve finv le fns pows FT OR Hl HI Hqr Hqz Hinv Hs AR Hfin Hsing
        _ _ _ _ _ _ _ _ _ _ _ L g Fr So Re Sq Hd (proj1 St) Sm Oc Ab Pr Rk E1 E2 Sep)))|].
    intros Sb.
    pose proof (solved_index F O P ltb eqb nan minimize grad jacobian qr rank ordqz inv qz solve finv le fns pows FT OR HI _ _ _ _ _ _ _ _ _ _ Fr So) as Ix.
    destruct (Ix Re Sq Hd (proj1 St) Sm) as (L' & k' & Ex & Oc' & Al).
    destruct (same_places F ns es L' L g k' Oc' Oc Ab Al) as [Po Ps].
    assert (Rn : rn g = List.length ns) by (destruct Ab as (-> & _); apply Oc).
    eapply (answers_report d0 x gy gu g q a sg (sp_ss sp)); [|rewrite Rn; exact H1|exact Sb|exact Sg|exact A].
    split; [exact Pr|]; split; [|split; [exact E1|exact E2]].
    unfold SimProofs3.describes, model_of; cbn [m_ss m_shocks m_order m_state]; rewrite <- F3, Rn, Rk, Ex, Po, Ps; split; [apply St|]; auto.
  Qed.

  (** Full statement: a question about second moments (variances, standard deviations,
      covariances, correlations, and those with lags) is answered, after any history, with those
      of the processes that follow a rule that solves the equations then in force to first
      order, for the parameters and the shocks then in force.  Proved when the questions are
      asked in time: after the last addition the model is solved anew, or it was never solved
      before (C95_refuted), and for models as in C92. *)
  Theorem C95_partial :
    forall (d : mdef F) (a : args F) (m0 : mstate F (space_of F) (rules F)) (os : list (sop F)) st l q st' ans,
    ModelStateSpec.describes F (r1 O) d a -> NoDup (keys (m_params F d)) -> NoDup (keys (m_locals F d)) ->
    new_model a = Ok m0 -> srun os (m0, blank F) = (st, l) -> all_made F l -> mended F l -> distinct F (effects F (r1 O) (operations F os) d) ->
    orderly F Unsolved l -> in_time (phase_after F Unsolved l) q -> second_moment q ->
    sstep (Ask q) st = (st', Ok (Answer ans)) ->
    let D := effects F (r1 O) (operations F os) d in
    let ns := map fst (m_endog F D) in let sv := map fst (m_stoch F D) in
    exists es pv lv, mapM (parse_given F parse_text) (m_exprs F D) = Ok es /\
      satisfies F P float_of trunc pv (m_params F D) /\ satisfies F P float_of trunc lv (m_locals F D) /\
      let sc := merge F pv lv in
      statistics_for (fst st') q ans ns sv sc es (readable ns sv es sc /\ List.length es = List.length ns).
  Proof.
    intros d a m0 os st l q st' ans De N1 N2 Hnew Hr Ha Hme Di Hor Hin Hq Hask D ns sv.
    destruct (PropModel.start F P (r0 O) (r1 O) truthy isnum float_of trunc parse_text _ _ space d a m0 De (distinct_effects F (r1 O) _ d Di) Hnew) as (K0 & C0 & _ & So0).
    pose proof (run_known_all F O P ltb isnum nan minimize rank lyap lsolve chol_low sqrt abs truthy float_of trunc parse_text keeps space solver_ os d (m0, blank F) st l K0 Hr Ha) as K.
    assert (I0 : StatsStateProofs2.inv F O P isnum lyap space solver_ Unsolved (m0, blank F)) by (split; [exact C0|split; [right; reflexivity|exact So0]]).
    pose proof (run_inv F O P ltb isnum nan minimize rank lyap lsolve chol_low sqrt abs truthy float_of trunc parse_text keeps space solver_ first_of second_of os _ _ _ _ Hr Ha Hme Hor (or_introl I0)) as I.
    cbn [StatsState.sstep] in Hask; unfold StatsState.bnd in Hask; destruct (StatsState.ask _ _ _ _ _ _ _ _ _ _ _ _ _ _ _ _ _ _ _ _ q st) as [s1 [a1|e]] eqn:Ea; [|discriminate]; injection Hask as <- <-.
    destruct (ask_answer F O P ltb isnum nan minimize rank lyap lsolve chol_low sqrt abs truthy float_of trunc parse_text keeps space solver_ first_of second_of _ _ _ _ _ I Hin Hq Ea) as (d0 & x & gy & gu & B & G & A).
    assert (K1 : ModelStateProofs.known F P (r0 O) truthy float_of trunc parse_text (space_of F) (rules F) D (fst s1)).
    { pose proof (quiet_ask F O P ltb isnum nan minimize rank lyap lsolve chol_low sqrt abs truthy float_of trunc parse_text keeps space solver_ q st D K) as Q.
      rewrite Ea in Q; exact Q. }
    pose proof (model_statistics D d0 x gy gu s1 q a1 K1 B G A) as S; cbn zeta in S.
    destruct (effects_params F O (operations F os) d N1 N2) as [N1' N2'].
    pose proof (tracks_names F P (r0 O) truthy float_of trunc parse_text D _ K1) as E1.
    destruct K1 as (_ & K2 & _ & (pv & P1 & P2) & (lv & L1 & L2) & K6).
    assert (E2 : map sv_name (d_stoch F (definition (fst s1))) = sv).
    { unfold sv; fold D in K2; clear - K2; apply mapM_ok in K2; induction K2 as [|p v l l' Hv _ IH]; cbn [map]; [reflexivity|rewrite IH; f_equal].
      destruct p as [x [|[] []]]; cbn in Hv; try discriminate; injection Hv as <-; reflexivity. }
    rewrite E1, E2 in S; unfold model_scope in S; rewrite P1, L1 in S; cbn [solved] in S.
    exists (trees (d_exprs F (definition (fst s1)))), pv, lv; split; [exact K6|].
    split; [apply (solve_satisfies F P float_of trunc _ _ N1' P2)|]; split; [apply (solve_satisfies F P float_of trunc _ _ N2' L2)|exact S].
  Qed.

  (** The same for a model that is read from a file, and asked any questions. *)
  Lemma effects_none os d : (forall o, In o os -> ~ addition F o) -> effects F (r1 O) os d = d.
  Proof using.
    unfold effects; revert d; induction os as [|o os IH]; intros d H; [reflexivity|]; cbn [fold_left].
    assert (E : effect F (r1 O) o d = d) by (pose proof (H o (or_introl eq_refl)) as N; destruct o; try reflexivity; elim N; exact Logic.I).
    rewrite E; apply IH; intros o' Ho; apply H; right; exact Ho.
  Qed.
  Theorem C95_file_partial :
    forall (t : text) (out : outline F) (m : mstate F (space_of F) (rules F)) (os : list (sop F)) st l q st' ans,
    read_model t = Ok out -> new_model (outline_args F out) = Ok m ->
    srun os (m, blank F) = (st, l) -> (forall o, In o (operations F os) -> ~ addition F o) -> (forall o e, ~ In (o, Err e) l) ->
    orderly F Unsolved l -> in_time (phase_after F Unsolved l) q -> second_moment q ->
    sstep (Ask q) st = (st', Ok (Answer ans)) ->
    let params := model_scope F (definition m) in
    exists f, parse_file F float_of trunc nzero t = Ok f /\ values_of F P f params /\
      statistics_for (fst st') q ans (named F "var" f) (named F "varexo" f) params (equations F f) (plain_file F f).
  Proof.
    intros t out m os st l q st' ans Ho Hnew Hr Hno Her Hor Hin Hq Hask params; subst params.
    destruct (file_model F P two (r0 O) (r1 O) truthy float_of trunc nzero parse_text _ _ space Hn t out m Ho Hnew) as (f & Hf & Hv & E1 & E2 & E3 & E4).
    destruct (file_defined F P two (r1 O) float_of trunc nzero Hn t out Ho) as (f' & d & Hf' & _ & _ & De & Di & _).
    destruct (PropModel.start F P (r0 O) (r1 O) truthy isnum float_of trunc parse_text _ _ space d _ m De Di Hnew) as (K0 & C0 & _ & So0).
    assert (Ha : all_made F l) by (intros o e Hi; exfalso; exact (Her _ _ Hi)).
    assert (Hme : mended F l) by (intros l1 o e l2 ->; exfalso; apply (Her o e), in_or_app; right; left; reflexivity).
    pose proof (run_known_all F O P ltb isnum nan minimize rank lyap lsolve chol_low sqrt abs truthy float_of trunc parse_text keeps space solver_ os d (m, blank F) st l K0 Hr Ha) as K.
    rewrite (effects_none _ d Hno) in K.
    assert (I0 : StatsStateProofs2.inv F O P isnum lyap space solver_ Unsolved (m, blank F)) by (split; [exact C0|split; [right; reflexivity|exact So0]]).
    pose proof (run_inv F O P ltb isnum nan minimize rank lyap lsolve chol_low sqrt abs truthy float_of trunc parse_text keeps space solver_ first_of second_of os _ _ _ _ Hr Ha Hme Hor (or_introl I0)) as I.
    cbn [StatsState.sstep] in Hask; unfold StatsState.bnd in Hask; destruct (StatsState.ask _ _ _ _ _ _ _ _ _ _ _ _ _ _ _ _ _ _ _ _ q st) as [s1 [a1|e]] eqn:Ea; [|discriminate]; injection Hask as <- <-.
    destruct (ask_answer F O P ltb isnum nan minimize rank lyap lsolve chol_low sqrt abs truthy float_of trunc parse_text keeps space solver_ first_of second_of _ _ _ _ _ I Hin Hq Ea) as (d0 & x & gy & gu & B & G & A).
    assert (K1 : ModelStateProofs.known F P (r0 O) truthy float_of trunc parse_text (space_of F) (rules F) d (fst s1)).
    { pose proof (quiet_ask F O P ltb isnum nan minimize rank lyap lsolve chol_low sqrt abs truthy float_of trunc parse_text keeps space solver_ q st d K) as Q.
      rewrite Ea in Q; exact Q. }
    pose proof (model_statistics d d0 x gy gu s1 q a1 K1 B G A) as S; cbn zeta in S.
    assert (T : map ev_name (d_endog F (definition m)) = map ev_name (d_endog F (definition (fst s1))) /\ map sv_name (d_stoch F (definition m)) = map sv_name (d_stoch F (definition (fst s1))) /\
      model_scope F (definition m) = model_scope F (definition (fst s1)) /\ trees (d_exprs F (definition m)) = trees (d_exprs F (definition (fst s1)))).
    { rewrite (tracks_names F P (r0 O) truthy float_of trunc parse_text d _ K0), (tracks_names F P (r0 O) truthy float_of trunc parse_text d _ K1).
      rewrite (tracks_stoch F P (r0 O) truthy float_of trunc parse_text d _ _ K0 K1).
      destruct K0 as (_ & _ & _ & (cp & P1 & P2) & (cl & L1 & L2) & E6), K1 as (_ & _ & _ & (cp' & P1' & P2') & (cl' & L1' & L2') & E6').
      split; [reflexivity|]; split; [reflexivity|]; split; [|congruence]; unfold model_scope; rewrite P1, P1', L1, L1'; cbn [solved]; congruence. }
    destruct T as (T1 & T2 & T3 & T4); rewrite <- T1, <- T2, <- T3, <- T4, E1, E2, E3 in S.
    exists f; split; [exact Hf|]; split; [exact E4|].
    destruct S as (sp & sg & s & S1 & S2 & S3 & S4); exists sp, sg, s; split; [exact S1|]; split; [exact S2|]; split; [exact S3|].
    intros Pf; apply S4; split; [|apply Pf]; apply (file_readable F float_of trunc nzero t f _ Hf Hv Pf); destruct E4 as (? & ? & _ & _ & _ & _ & E); exact E.
  Qed.
End C95.
Print Assumptions C95_partial.
Print Assumptions C95_file_partial.

(** ** A concrete history *)
From Verif Require Import PiecewiseSimSpec PropPiecewiseSim.
From Verif Require PropStable PropRoots.
(** Roots and factors are not needed here. *)
Definition t_step := StatsState.sstep Qc QO q_ops qlt (fun _ => true) z0 p_minimize rank_all lyapD lsolveD (fun _ _ => Err ValueErr) (fun x => x) Qcabs q_true q_decimal q_trunc p_text false p_space p_solver.
Definition t_run := StatsState.srun Qc QO q_ops qlt (fun _ => true) z0 p_minimize rank_all lyapD lsolveD (fun _ _ => Err ValueErr) (fun x => x) Qcabs q_true q_decimal q_trunc p_text false p_space p_solver.
Definition t_set : sop Qc := Do (AddParams [("rho", DNum (q 1 2))]).
(** A model made with rho = 1/4 is solved and asked; rho is set to 1/2, and it is solved anew. *)
Definition t_ops : list (sop Qc) := [Do (Solve 1); Ask Cov; t_set; Do (Solve 1)].
(** The same, but it is asked between the change and the new solution. *)
Definition t_early : list (sop Qc) := [Do (Solve 1); t_set; Ask Cov; Do (Solve 1)].
(** It is not solved anew. *)
Definition t_stale : list (sop Qc) := [Do (Solve 1); t_set].
Definition table (a : answer Qc) : list (list (list Q)) :=
  match a with Array c => [table_of c] | Arrays l => map table_of l | _ => [] end.
Definition t_statistics := statistics_for Qc QO q_ops qlt same z0 p_minimize qgrad qjacobian xyz_qr rank_all p_qz p_inv xyz2_real qsolve (fun x => x) q_true (fun _ => true) q_decimal q_trunc p_text false Qcle no_function squares.

(** The rule for rho = 1/2: the order is z, x, y. *)
Definition t_arrays (s : rules Qc) : bool :=
  match first_arrays Qc s with
  | (M2 3 2 f, M2 3 2 h) =>
      rows_same (map (fun i => map (f i) [0; 1]) [0; 1; 2]) [[q 1 2; q 3 4]; [q 1 2; z0]; [z0; q 3 4]] &&
      rows_same (map (fun i => map (h i) [0; 1]) [0; 1; 2]) [[z1; q (-1) 2]; [z1; z0]; [z0; q (-1) 2]]
  | _ => false
  end.
Lemma t_places L : occurs_with lendog lmodel L -> members_of L (static L) = [2] /\ members_of L (pure_backward L) = [0] /\ members_of L (IndexingSpec.mixed L) = [1] /\
  members_of L (pure_forward L) = [] /\ members_of L (backward L) = [0; 1].
Proof.
  intros (Ln & At).
  assert (N : forall i k, i < 3 -> ~ occurs_at Qc lendog lmodel i k -> at_k L i k = false) by (intros i k Hi Hn; destruct (at_k L i k) eqn:E; [exfalso; apply Hn, At; [exact Hi|exact E]|reflexivity]).
  assert (E1 : at_k L 0 (-1) = true) by (apply At; [cbn; lia|]; exists "x", leq1; split; [reflexivity|]; split; [left; reflexivity|]; apply P_binr, P_binl, P_binl, P_binr; constructor).
  assert (E2 : at_k L 1 (-1) = true) by (apply At; [cbn; lia|]; exists "y", leq2; split; [reflexivity|]; split; [right; left; reflexivity|]; apply P_binr, P_binl, P_binr, P_binr; constructor).
  assert (E3 : at_k L 1 1 = true) by (apply At; [cbn; lia|]; exists "y", leq2; split; [reflexivity|]; split; [right; left; reflexivity|]; apply P_binl, P_binl; constructor).
  assert (E4 : at_k L 0 1 = false) by (apply N; [lia|]; intros (x & e & Hi & He & Ha); injection Hi as <-; cbn [lmodel In] in He; destruct He as [<-|[<-|[<-|[]]]]; unfold leq1, leq2, leq3 in Ha; invert_tree).
  assert (E5 : at_k L 2 1 = false) by (apply N; [lia|]; intros (x & e & Hi & He & Ha); injection Hi as <-; cbn [lmodel In] in He; destruct He as [<-|[<-|[<-|[]]]]; unfold leq1, leq2, leq3 in Ha; invert_tree).
  assert (E6 : at_k L 2 (-1) = false) by (apply N; [lia|]; intros (x & e & Hi & He & Ha); injection Hi as <-; cbn [lmodel In] in He; destruct He as [<-|[<-|[<-|[]]]]; unfold leq1, leq2, leq3 in Ha; invert_tree).
  unfold members_of; rewrite Ln; cbn [List.length lendog seq filter]; unfold static, pure_backward, IndexingSpec.mixed, pure_forward, backward.
  rewrite E1, E2, E3, E4, E5, E6; repeat split; reflexivity.
Qed.

Definition t_rows (l : list (list Qc)) (f : nat -> nat -> Qc) : Prop := forall i j, i < 3 -> j < 2 -> f i j = nth j (nth i l []) z0.
Lemma rows_are_rows f l : rows_same (map (fun i => map (f i) [0; 1]) [0; 1; 2]) l = true -> t_rows l f.
Proof. intros H; apply rows_same_eq in H; subst l; intros [|[|[|i]]] [|[|j]] Hi Hj; try lia; reflexivity. Qed.
Lemma t_rule s g ss : t_arrays s = true -> first_arrays Qc s = (gy_of g, gu_of g) -> solving_rule Qc QO Qcle q_ops lendog lstoch lparams lmodel ss g ->
  proper g /\ rn g = 3 /\ rs g = 2 /\ rk g = 2 /\ rorder g = [2; 0; 1] /\ rstate g = [1; 2] /\
  t_rows [[q 1 2; q 3 4]; [q 1 2; z0]; [z0; q 3 4]] (ry g) /\ t_rows [[z1; q (-1) 2]; [z1; z0]; [z0; q (-1) 2]] (ru g).
Proof.
  intros Ha Hs (L & Oc & (A1 & A2 & A3 & A4) & Pr & Rk & _); destruct (t_places L Oc) as (B1 & B2 & B3 & B4 & B5).
  rewrite B1, B2, B3, B4 in A2; rewrite B1, B5 in A3; rewrite B5 in A4; rewrite (proj1 Oc) in A1; cbn in A1, A2, A3, A4, Rk.
  split; [exact Pr|]; split; [exact A1|]; split; [exact A4|]; split; [exact Rk|]; split; [exact A2|]; split; [exact A3|].
  unfold t_arrays in Ha; rewrite Hs in Ha; unfold gy_of, gu_of in Ha; rewrite A1, A4, Rk in Ha; cbn [squeeze Nat.eqb] in Ha; apply andb_true_iff in Ha as [Ha1 Ha2].
  split; apply rows_are_rows; assumption.
Qed.
Section TRule.
  Variable g : rule Qc.
  Hypothesis H : proper g /\ rn g = 3 /\ rs g = 2 /\ rk g = 2 /\ rorder g = [2; 0; 1] /\ rstate g = [1; 2] /\
    t_rows [[q 1 2; q 3 4]; [q 1 2; z0]; [z0; q 3 4]] (ry g) /\ t_rows [[z1; q (-1) 2]; [z1; z0]; [z0; q (-1) 2]] (ru g).
  Lemma t_on i j : i < 2 -> j < 2 -> on_states Qc g i j = if i =? j then (if i =? 0 then q 1 2 else q 3 4) else z0.
  Proof.
    destruct H as (_ & _ & _ & _ & _ & E & Y & _); unfold on_states; rewrite E; intros Hi Hj.
    rewrite Y; [|destruct i as [|[|i]]; cbn; lia|exact Hj]; destruct i as [|[|i]], j as [|[|j]]; try lia; reflexivity.
  Qed.
  Lemma t_by i j : i < 2 -> j < 2 -> B Qc g i j = if i =? j then (if i =? 0 then z1 else q (-1) 2) else z0.
  Proof.
    destruct H as (_ & _ & _ & _ & _ & E & _ & Y); unfold B; rewrite E; intros Hi Hj.
    rewrite Y; [|destruct i as [|[|i]]; cbn; lia|exact Hj]; destruct i as [|[|i]], j as [|[|j]]; try lia; reflexivity.
  Qed.
  Lemma t_stable : stable Qc QO g.
  Proof.
    destruct H as (_ & _ & Es & _); apply diagonal_stable; rewrite Es.
    - intros i j Hi Hj N; rewrite t_on by assumption; destruct (Nat.eqb_spec i j); [contradiction|reflexivity].
    - intros i j Hi Hj; rewrite !t_on by assumption; rewrite !Nat.eqb_refl; destruct i as [|[|i]], j as [|[|j]]; try lia; apply same_neq; vm_compute; reflexivity.
  Qed.
  Definition t_var (j : nat) : Qc := if j =? 0 then q 4 3 else q 4 7.
  Lemma t_next i j : i < rs g -> j < rs g -> next_var g (fun _ => z1) t_var i j = diagonal t_var i j.
  Proof.
    pose proof t_on as To; pose proof t_by as Tb; destruct H as (_ & _ & Es & Ek & _); rewrite Es; intros Hi Hj.
    unfold next_var, Mat.madd, Mat.mmul, mtr, A; rewrite Es, Ek; cbn [rsum].
    repeat match goal with |- context [on_states Qc g ?a ?b] => rewrite (To a b) by lia end.
    repeat match goal with |- context [B Qc g ?a ?b] => rewrite (Tb a b) by lia end.
    destruct i as [|[|i]], j as [|[|j]]; try lia; apply same_eq; vm_compute; reflexivity.
  Qed.
  Definition t_R := MomentsExample.R g (fun _ => z1) t_var.
  Definition t_y := later (MomentsExample.run g (fun _ => z1) t_var).
  Definition t_u := later (eps g (fun _ => z1) t_var).
  Lemma t_process Sg : (forall i j, i < 2 -> j < 2 -> Sg i j = if i =? j then z1 else z0) ->
    lawful Qc QO t_R /\ follows Qc QO t_R g Sg t_y t_u /\ stationary Qc t_R g t_y /\ covariance t_R (t_y 0 0) (t_y 0 0) = q 4 3.
  Proof.
    intros HS; pose proof t_next as Tn; destruct H as (W & _ & Es & Ek & Eo & Est & _).
    split; [apply space_lawful|]; split; [|split; [apply later_stationary; [exact W|exact Tn]|]].
    - destruct (later_follows g W (fun _ => z1) t_var) as [Q1 Q2 Q3 Q4]; constructor; [exact Q1| |exact Q3|exact Q4].
      intros t l m Hl Hm; rewrite HS by lia; exact (Q2 t l m Hl Hm).
    - pose proof (state_var g W (fun _ => z1) t_var Tn 1 0 0 ltac:(lia) ltac:(lia)) as V; unfold D, state_at in V; rewrite Est, Eo in V; exact V.
  Qed.
End TRule.


(** What the histories show: no error, the answer, and the parts that can be read after it. *)
Definition t_case (os : list (sop Qc)) (x : query) (given : list (list (list Q))) : Prop :=
  match p_new f_args with
  | Ok m0 => let r := t_run os (m0, blank Qc) in forallb done (snd r) = true /\
      match t_step (Ask x) (fst r) with
      | (st', Ok (Answer a)) => table a = given /\
          match snd (p_step (Read RSpace) (fst st')), snd (p_step (Read RSigma) (fst st')), snd (p_step ReadSolution (fst st')) with
          | Ok (OValue (VSpace sp)), Ok (OValue (VSigma sg)), Ok (OSolution s) =>
              lspace sp && rows_same (map (fun i => map (sg i) [0; 1]) [0; 1]) [[z1; z0]; [z0; z1]] && t_arrays s = true
          | _, _, _ => False end
      | _ => False end
  | Err _ => False end.
Lemma t_done os : forall st, map fst (snd (t_run os st)) = os.
Proof.
  induction os as [|o os IH]; intros st; [reflexivity|]; unfold t_run in *; cbn [StatsState.srun]; destruct (StatsState.sstep _ _ _ _ _ _ _ _ _ _ _ _ _ _ _ _ _ _ _ _ o st) as [s1 r].
  specialize (IH s1); destruct (StatsState.srun _ _ _ _ _ _ _ _ _ _ _ _ _ _ _ _ _ _ _ _ os s1) as [s2 l]; cbn in *; rewrite IH; reflexivity.
Qed.
Lemma t_facts os x given : t_case os x given -> exists m0 st l st' a sp sg s,
  p_new f_args = Ok m0 /\ t_run os (m0, blank Qc) = (st, l) /\ map fst l = os /\ (forall o e, ~ In (o, Err e) l) /\ t_step (Ask x) st = (st', Ok (Answer a)) /\ table a = given /\
  snd (p_step (Read RSpace) (fst st')) = Ok (OValue (VSpace sp)) /\ snd (p_step (Read RSigma) (fst st')) = Ok (OValue (VSigma sg)) /\ snd (p_step ReadSolution (fst st')) = Ok (OSolution s) /\
  solvable Qc QO q_ops qgrad qjacobian Qcle no_function squares lendog lstoch lparams lmodel sp /\
  (forall i j, i < 2 -> j < 2 -> sg i j = if i =? j then z1 else z0) /\ t_arrays s = true.
Proof.
  unfold t_case; destruct (p_new f_args) as [m0|]; [|contradiction]; cbv zeta; intros [H1 H2].
  pose proof (t_done os (m0, blank Qc)) as Hf; destruct (t_run os (m0, blank Qc)) as [st l] eqn:Er; cbn [fst snd] in *.
  destruct (t_step (Ask x) st) as [st' [[|a]|]] eqn:Es; try contradiction; destruct H2 as [H2 H3].
  destruct (snd (p_step (Read RSpace) (fst st'))) as [[|[| | |sp|]| |]|] eqn:E1; try contradiction.
  destruct (snd (p_step (Read RSigma) (fst st'))) as [[|[| | | |sg]| |]|] eqn:E2; try contradiction.
  destruct (snd (p_step ReadSolution (fst st'))) as [[| |s|]|] eqn:E3; try contradiction.
  apply andb_true_iff in H3 as [H3 H5]; apply andb_true_iff in H3 as [H3 H4].
  exists m0, st, l, st', a, sp, sg, s; split; [reflexivity|]; split; [exact Er|]; split; [exact Hf|].
  split; [intros o e Hi; apply (proj1 (forallb_forall done l) H1) in Hi; discriminate Hi|].
  split; [exact Es|]; split; [exact H2|]; split; [exact E1|]; split; [exact E2|]; split; [exact E3|]; split; [exact (lspace_solvable sp H3)|]; split; [|exact H5].
  apply rows_same_eq in H4; cbn [map] in H4; injection H4 as S1 S2 S3 S4; intros [|[|i]] [|[|j]] Hi Hj; try lia; assumption.
Qed.
Lemma t_distinct os : operations Qc os = [Solve 1; AddParams [("rho", DNum (q 1 2))]; Solve 1] -> distinct Qc (effects Qc (r1 QO) (operations Qc os) f_def).
Proof. intros ->; exact (f_distinct f_altered (or_intror eq_refl)). Qed.
Lemma t_made l : (forall o e, ~ In (o, Err e) l) -> @all_made Qc (sout Qc) l /\ @mended Qc (sout Qc) l.
Proof.
  intros A; split; [intros o e Hi; exfalso; exact (A _ _ Hi)|]; intros l1 o e l2 ->; exfalso; apply (A o e), in_or_app; right; left; reflexivity.
Qed.
(** All results are values: what the history does follows from the operations. *)
Lemma t_phases os l : map fst l = os -> (forall o e, ~ In (o, Err e) l) ->
  (os = t_ops -> @orderly Qc (sout Qc) Unsolved l /\ @phase_after Qc (sout Qc) Unsolved l = Settled) /\ (os = t_early -> @phase_after Qc (sout Qc) Unsolved l = Settled).
Proof.
  intros Hf Hn; split; intros ->; destruct l as [|[o1 [r1|e]] [|[o2 [r2|e']] [|[o3 [r3|e'']] [|[o4 [r4|e''']] [|? ?]]]]]; try discriminate Hf;
    try (exfalso; eapply Hn; cbn; eauto 6; fail); injection Hf as -> -> -> ->; repeat split; reflexivity.
Qed.

Definition t_cov : list (list (list Q)) := [[[Qmake 4 3; Qmake 0 1; Qmake 4 3]; [Qmake 0 1; Qmake 4 7; Qmake 4 7]; [Qmake 4 3; Qmake 4 7; Qmake 40 21]]].
Definition t_autocov : list (list (list Q)) :=
  [[[Qmake 2 3; Qmake 0 1; Qmake 2 3]; [Qmake 0 1; Qmake 3 7; Qmake 3 7]; [Qmake 2 3; Qmake 3 7; Qmake 23 21]];
   [[Qmake 1 3; Qmake 0 1; Qmake 1 3]; [Qmake 0 1; Qmake 9 28; Qmake 9 28]; [Qmake 1 3; Qmake 9 28; Qmake 55 84]]].
Lemma t_holds x given : second_moment x -> t_case t_ops x given ->
  exists m0 st l st' a, p_new f_args = Ok m0 /\ t_run t_ops (m0, blank Qc) = (st, l) /\ all_made Qc l /\ mended Qc l /\ orderly Qc Unsolved l /\ in_time (phase_after Qc Unsolved l) x /\
    t_step (Ask x) st = (st', Ok (Answer a)) /\ table a = given /\
    exists g ss sg, solving_rule Qc QO Qcle q_ops lendog lstoch lparams lmodel ss g /\ stable Qc QO g /\ reports Qc QO (fun x => x) g sg x a /\
      exists R y u, lawful Qc QO R /\ follows Qc QO R g sg y u /\ stationary Qc R g y.
Proof.
  intros Hq Hc; destruct (t_facts t_ops x given Hc) as (m0 & st & l & st' & a & sp & sg & s & E0 & E1 & Ef & A & E2 & Ht & R1 & R2 & R3 & Sv & Hsg & Ha).
  destruct (t_made l A) as [Am Me]; destruct (t_phases t_ops l Ef A) as [Ph _]; destruct (Ph eq_refl) as [Or Ph']; clear Ph.
  assert (It : in_time (phase_after Qc Unsolved l) x) by (rewrite Ph'; exact I).
  exists m0, st, l, st', a; split; [exact E0|]; split; [exact E1|]; split; [exact Am|]; split; [exact Me|]; split; [exact Or|]; split; [exact It|]; split; [exact E2|]; split; [exact Ht|].
  assert (N1 : NoDup (keys (m_params Qc f_def))) by (repeat constructor; cbn; intuition discriminate).
  assert (N2 : NoDup (keys (m_locals Qc f_def))) by constructor.
  destruct q_hypotheses as (H1 & H2 & H3 & H4 & H5 & H6 & H7 & _ & _ & H10 & _).
  destruct (C95_partial Qc QO q_ops qlt same z0 p_minimize qgrad qjacobian xyz_qr rank_all p_qz p_inv xyz2_real qsolve lyapD lsolveD (fun _ _ => Err ValueErr) (fun x => x) Qcabs q_true (fun _ => true) q_decimal q_trunc p_text false
    Qcinv Qcle no_function squares H1 H2 H3 H4 H5 H7 (qz_with_ok _) (inv_with_ok _) H10 p_minimize_ok lyapD_solves
    f_def f_args m0 t_ops st l x st' a f_describes N1 N2 E0 E1 Am Me (t_distinct t_ops eq_refl) Or It Hq E2) as (es & pv & lv & Ep & Sp & Sl & S).
  apply f_params in Sp; apply f_locals in Sl; subst pv lv; cbn in Ep; injection Ep as <-.
  destruct S as (sp' & sg' & s' & S1 & S2 & S3 & S4).
  change (snd (p_step (Read RSpace) (fst st')) = Ok (OValue (VSpace sp'))) in S1; change (snd (p_step (Read RSigma) (fst st')) = Ok (OValue (VSigma sg'))) in S2; change (snd (p_step ReadSolution (fst st')) = Ok (OSolution s')) in S3.
  assert (sp' = sp) by congruence; assert (sg' = sg) by congruence; assert (s' = s) by congruence; subst sp' sg' s'.
  destruct (S4 (conj lmodel_readable eq_refl) Sv ltac:(cbn; lia)) as (_ & g & G1 & G2 & _ & G3); pose proof (t_rule s g _ Ha G2 G1) as T; pose proof (t_stable g T) as Sb.
  exists g, (sp_ss sp), sg; split; [exact G1|]; split; [exact Sb|]; split; [exact (G3 Sb)|].
  destruct (t_process g T sg Hsg) as (P1 & P2 & P3 & _); exists (t_R g), (t_y g), (t_u g); split; [exact P1|split; [exact P2|exact P3]].
Qed.
Example C95_nonvacuous :
  ModelStateSpec.describes Qc (r1 QO) f_def f_args /\ NoDup (keys (m_params Qc f_def)) /\ NoDup (keys (m_locals Qc f_def)) /\ distinct Qc (effects Qc (r1 QO) (operations Qc t_ops) f_def) /\
  forall x given, (x, given) = (Cov, t_cov) \/ (x, given) = (Autocov 2, t_autocov) ->
  exists m0 st l st' a, p_new f_args = Ok m0 /\ t_run t_ops (m0, blank Qc) = (st, l) /\ all_made Qc l /\ mended Qc l /\ orderly Qc Unsolved l /\ in_time (phase_after Qc Unsolved l) x /\
    t_step (Ask x) st = (st', Ok (Answer a)) /\ table a = given /\
    exists g ss sg, solving_rule Qc QO Qcle q_ops lendog lstoch lparams lmodel ss g /\ stable Qc QO g /\ reports Qc QO (fun x => x) g sg x a /\
      exists R y u, lawful Qc QO R /\ follows Qc QO R g sg y u /\ stationary Qc R g y.
Proof.
  split; [exact f_describes|]; split; [repeat constructor; cbn; intuition discriminate|]; split; [constructor|]; split; [exact (t_distinct t_ops eq_refl)|].
  intros x given [E|E]; injection E as -> ->; (apply t_holds; [exact I|]); vm_compute; repeat apply conj; reflexivity.
Qed.

(** The roots of that model are separated, so that its stability follows from them: 1/2 and 3/4,
    as many as there are states, are inside the unit circle, and 2 is outside. *)
Definition apart (es : list (cnum Qc)) (k : nat) : bool :=
  Nat.leb k (List.length es) && forallb (fun i => is_inside (nth i es Nan)) (seq 0 k) && forallb (fun i => PropRoots.is_outside (nth i es Nan)) (seq k (List.length es - k)).
Lemma apart_ok es k : apart es k = true -> separated Qc QO Qcle es k.
Proof.
  unfold apart; intros H; apply andb_true_iff in H as [H H3]; apply andb_true_iff in H as [H1 H2]; apply Nat.leb_le in H1; rewrite forallb_forall in H2, H3.
  split; [exact H1|]; split; intros i Hi; [apply is_inside_ok, H2, in_seq|apply PropRoots.is_outside_ok, H3, in_seq]; lia.
Qed.
Example C95_separated :
  archimedean Qc QO Qcle /\ finite_quotients Qc QO p_qz /\ refuses_singular Qc QO qsolve /\
  match p_new f_args with
  | Ok m0 => match snd (p_step (Read RSpace) (fst (fst (t_run t_ops (m0, blank Qc))))) with
      | Ok (OValue (VSpace sp)) => List.length (eigen (sp_state sp)) = 3 /\ separated Qc QO Qcle (eigen (sp_state sp)) 2
      | _ => False end
  | Err _ => False end.
Proof.
  split; [exact PropStable.Q_archimedean|]; split; [apply PropStable.quotients_ok; vm_compute; reflexivity|]; split; [exact qsolve_refuses|].
  assert (E : match p_new f_args with
    | Ok m0 => match snd (p_step (Read RSpace) (fst (fst (t_run t_ops (m0, blank Qc))))) with
        | Ok (OValue (VSpace sp)) => Nat.eqb (List.length (eigen (sp_state sp))) 3 && apart (eigen (sp_state sp)) 2 | _ => false end
    | Err _ => false end = true) by (vm_compute; reflexivity).
  destruct (p_new f_args) as [m0|]; [|discriminate E]; destruct (snd _) as [[|[| | |sp|]| |]|]; try discriminate E.
  apply andb_true_iff in E as [E1 E2]; split; [apply Nat.eqb_eq, E1|apply apart_ok, E2].
Qed.

(** The full statement is false: asked between the change and the new solution, the state space
    keeps a variance of the old rule, and the new solution does not remove it.  So the answer
    for the variance of x is 19/15 instead of 4/3, although the model was just solved. *)
Definition t_mixed : list (list (list Q)) := [[[Qmake 19 15; Qmake 0 1; Qmake 19 15]; [Qmake 0 1; Qmake 4 7; Qmake 4 7]; [Qmake 19 15; Qmake 4 7; Qmake 193 105]]].
Theorem C95_refuted :
  ModelStateSpec.describes Qc (r1 QO) f_def f_args /\ NoDup (keys (m_params Qc f_def)) /\ NoDup (keys (m_locals Qc f_def)) /\ distinct Qc (effects Qc (r1 QO) (operations Qc t_early) f_def) /\
  exists m0 st l st' a, p_new f_args = Ok m0 /\ t_run t_early (m0, blank Qc) = (st, l) /\ all_made Qc l /\ mended Qc l /\ in_time (phase_after Qc Unsolved l) Cov /\
    t_step (Ask Cov) st = (st', Ok (Answer a)) /\ table a = t_mixed /\
    ~ t_statistics (fst st') Cov a lendog lstoch lparams lmodel (readable lendog lstoch lmodel lparams /\ List.length lmodel = List.length lendog).
Proof.
  split; [exact f_describes|]; split; [repeat constructor; cbn; intuition discriminate|]; split; [constructor|]; split; [exact (t_distinct t_early eq_refl)|].
  destruct (t_facts t_early Cov t_mixed ltac:(vm_compute; repeat apply conj; reflexivity)) as (m0 & st & l & st' & a & sp & sg & s & E0 & E1 & Ef & A & E2 & Ht & R1 & R2 & R3 & Sv & Hsg & Ha).
  destruct (t_made l A) as [Am Me]; destruct (t_phases t_early l Ef A) as [_ Ph]; specialize (Ph eq_refl).
  exists m0, st, l, st', a; split; [exact E0|]; split; [exact E1|]; split; [exact Am|]; split; [exact Me|]; split; [rewrite Ph; exact I|]; split; [exact E2|]; split; [exact Ht|].
  intros (sp' & sg' & s' & S1 & S2 & S3 & S4).
  change (snd (p_step (Read RSpace) (fst st')) = Ok (OValue (VSpace sp'))) in S1; change (snd (p_step (Read RSigma) (fst st')) = Ok (OValue (VSigma sg'))) in S2; change (snd (p_step ReadSolution (fst st')) = Ok (OSolution s')) in S3.
  assert (sp' = sp) by congruence; assert (sg' = sg) by congruence; assert (s' = s) by congruence; subst sp' sg' s'.
  destruct (S4 (conj lmodel_readable eq_refl) Sv ltac:(cbn; lia)) as (_ & g & G1 & G2 & _ & G3); pose proof (t_rule s g _ Ha G2 G1) as T; destruct (G3 (t_stable g T)) as (C & -> & HC).
  destruct (t_process g T sg Hsg) as (P1 & P2 & P3 & P4); pose proof T as (_ & Rn & _); rewrite Rn in *.
  pose proof (HC _ _ _ P1 P2 P3 0 0 0 ltac:(lia) ltac:(lia)) as V; rewrite P4 in V.
  cbn [table] in Ht; unfold t_mixed in Ht; cbn in Ht; injection Ht as Ht; rewrite V in Ht; vm_compute in Ht; discriminate Ht.
Qed.
Print Assumptions C95_refuted.

(** Not solved anew, the answer is that of the old rule. *)
Example C95_stale : match p_new f_args with
  | Ok m0 => match snd (t_step (Ask Cov) (fst (t_run t_stale (m0, blank Qc)))) with
      | Ok (Answer a) => table a = [[[Qmake 16 15; Qmake 0 1; Qmake 16 15]; [Qmake 0 1; Qmake 4 7; Qmake 4 7]; [Qmake 16 15; Qmake 4 7; Qmake 172 105]]]
      | _ => False end
  | Err _ => False end.
Proof. vm_compute; reflexivity. Qed.
