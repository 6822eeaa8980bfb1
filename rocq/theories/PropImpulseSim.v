(** Impulse responses after histories of operations: property C96. *)
From Verif Require Import Base Syntax Lexer Parser Eval EvalSpec Semantics Factory FactorySpec Calib CalibSpec CalibProofs Indexing IndexingSpec DynFunc DynSpec Vars ExprList
  ModelState ModelStateSpec ModelStateProofs ModelStateProofs2 PropModel OutlineSpec PropDyn
  Nd NdInst Mat NdProofs SimSpec OrderProofs CalcSpec CalcProofs CalcProofs2 CalcProofs3 Linearize LinearizeSpec LinearizeProofs Steady SteadyValues SteadyValuesSpec PropSteadyValues
  FirstOrder FirstOrderSpec PropFirst Sylvester SylvesterSpec SecondOrder SecondOrderSpec PropSecond AccuracySpec PropAccuracy FirstOrderExample Gauss SylvesterExample LinearExample
  Pipeline PipelineSpec PipelineProofs PropPipeline Sim SimProofs3 PathSim PathSimSpec PathSimProofs PropPathSim
  Moments MomentsSpec MomentsProofs MomentsProofs2 MomentsProofs3 MomentsProofs4 MomentsExample PropMoments StatsState StatsStateSpec StatsStateProofs StatsStateProofs2 PropStatsState ImpulseSim ImpulseSimSpec ImpulseSimProofs.
From Verif Require IndexingProofs2.
From Verif Require Import StableSpec PathStable ImpulseFade.
From Coq Require Import ZArith QArith Qcanon.
Local Open Scope string_scope.
Local Open Scope list_scope.
Local Open Scope nat_scope.

Section C96.
  Notation named := OutlineSpec.named.
  Variable F : Type.
  Variable O : rops F.
  Variable P : ops F.
  Variable ltb eqb : F -> F -> bool.
  Variable nan : F.
  Variable minimize : solver -> (list F -> res F) -> list F -> res (list F).
  Variable grad : (list F -> res F) -> list F -> res (list F).
  Variable jacobian : (list F -> res (list F)) -> list F -> res (list (list F)).
  Variable qr : nat -> nat -> mat F -> res (mat F * mat F).
  Variable rank : nat -> nat -> mat F -> nat.
  Variable ordqz : nat -> mat F -> mat F -> res (schur F).
  Variable inv : nat -> mat F -> res (mat F).
  Variable qz : nat -> mat F -> mat F -> res (mat F * mat F * mat F * mat F).
  Variable solve : nat -> nat -> mat F -> mat F -> res (mat F).
  Variable lyap : nat -> mat F -> mat F -> res (mat F).
  Variable lsolve : nat -> mat F -> vec F -> res (vec F).
  Variable chol_low : nat -> mat F -> res (mat F).
  Variable chol : nat -> (nat -> nat -> F) -> res (nat -> nat -> F).
  Variable sqrt abs : F -> F.
  Variable two : F.
  Variable truthy isnum : F -> bool.
  Variable float_of : text -> option F.
  Variable trunc : F -> option Z.
  Variable nzero : F.
  Variable parse_text : text -> res (ast F).
  Variable keeps : bool.

  (** The model with its numerical parts. *)
  Notation space := (whole_space F O P ltb nan minimize grad qr rank ordqz).
  Notation solver_ := (whole_solver F O P eqb nan minimize grad jacobian inv qz solve).
  Notation read_model := (Factory.read_model F P two float_of trunc nzero).
  Notation new_model := (ModelState.new_model F P (r0 O) (r1 O) truthy float_of trunc parse_text (space_of F) (rules F) space).
  Notation step := (ModelState.step F P (r0 O) (r1 O) truthy isnum float_of trunc parse_text keeps (space_of F) (rules F) space solver_).
  Notation sstep := (StatsState.sstep F O P ltb isnum nan minimize rank lyap lsolve chol_low sqrt abs truthy float_of trunc parse_text keeps space solver_).
  Notation srun := (StatsState.srun F O P ltb isnum nan minimize rank lyap lsolve chol_low sqrt abs truthy float_of trunc parse_text keeps space solver_).
  Notation simulation := (whole_simulate F O P isnum nan minimize chol space solver_).
  Notation impulse := (whole_impulse F O P isnum nan minimize chol space solver_).
  Notation definition := (ModelState.definition F (space_of F) (rules F)).
  Notation derived := (ModelState.derived F (space_of F) (rules F)).

  (** What the routines promise, in exact arithmetic. *)
  Variable finv : F -> F.
  Variable le : F -> F -> Prop.
  Variable fns : string -> smooth_fun F.
  Variable pows : F -> smooth_fun F.
  Hypothesis FT : is_field O finv.
  Hypothesis OR : is_ordered O le.
  Hypothesis Hl : forall x y, ltb x y = false <-> le y x.
  Hypothesis Heq : forall x y, eqb x y = true <-> x = y.
  Hypothesis HI : interprets F O le P fns pows.
  Hypothesis Hn : forall v, o_isnone P v = true -> v = o_none P.
  Hypothesis Hqr : qr_routine F O qr.
  Hypothesis Hqz : schur_routine F O le ordqz.
  Hypothesis Hinv : inverse_routine F O inv.
  Hypothesis Hs : linear_routine F O solve.
  Hypothesis Hm : forall s m x0 y, minimize s (least_squares F O P m) x0 = Ok y -> least F le (List.length x0) (least_squares F O P m) y.

  Notation solvable := (PropPipeline.solvable F O P grad jacobian le fns pows).

  (** What the responses of a model [m] are for the equations, when the solution it has is one
      of the first order: the covariance matrix is factorised, the paths that are simulated
      without an order satisfy the equations to first order around a steady state, and so do the
      responses to the shocks that are named.  When the roots of the model are separated, as many
      being inside the unit circle as there are variables with last period's value in the
      equations, the responses come as close to zero as one wishes, and stay there. *)
  Definition responses_for (m : mstate F (space_of F) (rules F)) (endog stoch : list string) (params : list (string * F)) (exprs : list (ast F)) (fits : Prop) : Prop :=
    exists m1 s sp sigma R, step (Simulate 0) m = (m1, Ok (OSimulation s sp)) /\
      snd (step (Read RSigma) m1) = Ok (OValue (VSigma sigma)) /\ chol (List.length stoch) sigma = Ok R /\
      ((exists gy gu, s = Pipeline.First gy gu) -> fits -> solvable endog stoch params exprs sp -> 1 < List.length endog \/ List.length stoch = 1 ->
       is_steady F O P endog stoch exprs params (sp_ss sp) /\
       (forall periods noise, paths_solve F O le P endog stoch params exprs (sp_ss sp) R
         (fun shocks init => snd (simulation 0 (Some shocks) periods noise (Some init) m))) /\
       (forall e periods, named_shocks stoch e -> 0 < periods ->
         responses_solve F O le P endog stoch params exprs (sp_ss sp) R e periods (fun h => snd (impulse e periods h m))) /\
       (forall L, occurs_with endog exprs L -> archimedean F O le -> finite_quotients F O ordqz -> refuses_singular F O solve ->
         separated F O le (eigen (sp_state sp)) (List.length (members_of L (backward L))) ->
         forall e size close, named_shocks stoch e -> ~ le close (r0 O) ->
         exists T0, forall periods p, snd (impulse e periods size m) = Ok p ->
         forall t v, T0 <= t < periods -> v < List.length endog -> le (ropp O close) (value F O p t v) /\ le (value F O p t v) close)).

  (** Something was simulated, or a response was returned. *)
  Definition returned (m : mstate F (space_of F) (rules F)) : Prop :=
    (exists given periods noise init p, snd (simulation 0 given periods noise init m) = Ok p) \/
    (exists e periods size p, snd (impulse e periods size m) = Ok p).
  Lemma returned_path m : returned m -> exists given periods noise init p, snd (simulation 0 given periods noise init m) = Ok p.
  Proof using.
    intros [H|(e & pr & h & p & H)]; [exact H|].
    unfold whole_impulse in H; destruct (impulse_shocks _ _ _ _ _ _) as [sh|]; [|discriminate].
    destruct (simulation 0 (Some sh) 200 (fun _ _ => r0 O) None m) as [m1 [q|]] eqn:E; [|discriminate]; do 5 eexists; rewrite E; reflexivity.
  Qed.

  Lemma settled_paths D d0 x gy gu st :
    ModelStateProofs.known F P (r0 O) truthy float_of trunc parse_text (space_of F) (rules F) D (fst st) ->
    StatsStateProofs2.solved_by F space solver_ d0 x gy gu -> StatsStateProofs.good F O P isnum lyap space d0 x gy gu st ->
    returned (fst st) ->
    let d := definition (fst st) in
    let ns := map ev_name (d_endog F d) in let sv := map sv_name (d_stoch F d) in
    let sc := model_scope F d in let es := trees (d_exprs F d) in
    responses_for (fst st) ns sv sc es (readable ns sv es sc /\ List.length es = List.length ns).
  Proof using FT OR Hl Heq HI Hqr Hqz Hinv Hs Hm.
    intros K (En & Sk & sr & dy & sp0 & Fr0 & So0) G Rt0 d ns sv sc es; destruct st as [m c]; cbn [fst] in *.
    destruct (returned_path m Rt0) as (gv & per0 & nz0 & i0 & p0 & H0); clear Rt0.
    pose proof G as [G1 G2 G3 G4 (s & So1 & So2) _]; cbn [fst snd] in *.
    assert (Ex : exists m1, ModelState.simulate F P (r0 O) isnum _ _ space solver_ 0 m = (m1, Ok (s, c_space _ _ (derived m1))) /\
      ModelStateProofs.known F P (r0 O) truthy float_of trunc parse_text (space_of F) (rules F) D m1 /\ altered _ _ _ m1 = false /\
      ModelStateProofs.consistent F P (r0 O) isnum _ _ space m1 /\ (exists sg, c_sigma _ _ (derived m1) = Some sg) /\
      solver_ None (map ev_init (d_endog F (definition m1))) (c_steady _ _ (derived m1)) (c_dynamic _ _ (derived m1)) (c_space _ _ (derived m1)) = Ok (Pipeline.First gy gu)).
    { unfold whole_simulate in H0; destruct (ModelState.simulate F P (r0 O) isnum _ _ space solver_ 0 m) as [m1 [[s' sp]|e]] eqn:E; [|discriminate H0]; clear H0.
      pose proof (proj1 (simulate_ok F P (r0 O) truthy isnum float_of trunc parse_text _ _ space solver_ _ _ _ _ E) D K) as K1.
      unfold ModelState.simulate in E; cbn [Nat.eqb] in E; rewrite So1 in E.
      destruct (ModelState.update F P (r0 O) isnum _ _ space m) as [m3 [[]|e]] eqn:E2; [|discriminate E]; injection E as <- <- <-.
      destruct (update_spec F P (r0 O) isnum _ _ space _ _ _ E2) as (A & _ & Si & U); destruct (U eq_refl) as (_ & _ & Co & Sg).
      exists m3; split; [reflexivity|]; split; [exact K1|]; split; [exact A|]; split; [exact Co|]; split; [exact Sg|].
      assert (S1 : ModelStateProofs.similar F (definition m) (definition m3)) by (destruct Si as [[_ Si]|(_ & N & _)]; [exact Si|elim N; reflexivity]).
      pose proof (similar_trans F _ _ _ G3 S1) as S2.
      apply (fresh_similar F _ space _ _ _ _ _ _ S2) in Fr0; destruct (fresh_fun F _ space _ _ _ _ _ _ _ _ _ _ _ _ _ Fr0 (proj1 Co)) as (X1 & X2 & X3 & X4).
      rewrite (proj2 (similar_names F _ _ S2)), X2, X3, X4; exact So0. }
    destruct Ex as (m1 & E & K1 & A & [Fr Co] & (sg & Sg) & So).
    destruct (fresh_built F O P ltb nan minimize grad qr rank ordqz _ _ _ _ _ _ _ _ _ Fr) as (_ & _ & _ & V & _).
    assert (Rd : forall g per nz i, simulation 0 g per nz i m =
      (m1, Sim.simulate F O chol (SModel (sp_ss (c_space _ _ (derived m1))) (dr_order (c_index _ _ (derived m1))) (members is_state (dr (c_index _ _ (derived m1)))) (map sv_name (d_stoch F (definition m1))) sg)
             (as_sim F s) g per nz i)).
    { intros g per nz i; unfold whole_simulate; rewrite E; cbn zeta; unfold ModelState.read, no_sigma, ensure; rewrite A, Sg; cbn [orb cached]; rewrite Sg, V; reflexivity. }
    assert (T : ns = map ev_name (d_endog F (definition m1)) /\ sv = map sv_name (d_stoch F (definition m1)) /\ sc = model_scope F (definition m1) /\ es = trees (d_exprs F (definition m1))).
    { unfold ns, sv, sc, es, d; rewrite (tracks_names F P (r0 O) truthy float_of trunc parse_text D _ K), (tracks_names F P (r0 O) truthy float_of trunc parse_text D _ K1).
      rewrite (tracks_stoch F P (r0 O) truthy float_of trunc parse_text D _ _ K K1).
      destruct K as (_ & _ & _ & (cp & P1 & P2) & (cl & L1 & L2) & E6), K1 as (_ & _ & _ & (cp' & P1' & P2') & (cl' & L1' & L2') & E6').
      split; [reflexivity|]; split; [reflexivity|]; split; [|congruence]; unfold model_scope; rewrite P1, P1', L1, L1'; cbn [solved]; congruence. }
    destruct T as (T1 & T2 & T3 & T4).
    assert (Ri : forall e per h, snd (impulse e per h m) =
      do sh <- impulse_shocks F O sv e per h;
      do p <- Sim.simulate F O chol (SModel (sp_ss (c_space _ _ (derived m1))) (dr_order (c_index _ _ (derived m1))) (members is_state (dr (c_index _ _ (derived m1)))) (map sv_name (d_stoch F (definition m1))) sg)
             (as_sim F s) (Some sh) 200 (fun _ _ => r0 O) None;
      Ok (less F O (sp_ss (c_space _ _ (derived m1))) p)).
    { intros e per h; unfold whole_impulse; change (map sv_name (d_stoch F (definition m))) with sv; destruct (impulse_shocks F O sv e per h) as [sh|]; [|reflexivity]; rewrite Rd; cbn [bind].
      destruct (Sim.simulate F O chol _ _ _ _ _ _) as [p|]; [|reflexivity]; unfold ModelState.read, ensure; rewrite A; cbn [cached snd]; rewrite V; reflexivity. }
    rewrite Rd in H0; cbn [snd] in H0.
    assert (Ch : exists R, chol (List.length sv) sg = Ok R).
    { unfold Sim.simulate, gen_shocks in H0; cbn [m_shocks m_sigma] in H0; rewrite <- T2 in H0; destruct (chol (List.length sv) sg) as [R|]; [eauto|discriminate H0]. }
    destruct Ch as (R & Ch).
    exists m1, s, (c_space _ _ (derived m1)), sg, R; split; [unfold ModelState.step, ok_with; rewrite E; reflexivity|].
    split; [unfold ModelState.step, ok_with, ModelState.read, no_sigma, ensure; rewrite A, Sg; cbn [orb fst snd bind cached]; rewrite Sg; reflexivity|]; split; [exact Ch|].
    intros (gy' & gu' & ->) [Re Sq] Sv Wd; change (gy' = gy /\ gu' = gu) in So2; destruct So2 as [-> ->].
    pose proof Sv as (Hd & Hex & Sm & Rt); unfold fresh_of in Fr; rewrite <- T1, <- T3, <- T4 in Fr.
    assert (St : is_steady F O P ns sv es sc (sp_ss (c_space _ _ (derived m1)))).
    { rewrite T2 in *; eapply (steady_found F O P ltb eqb nan minimize grad qr rank ordqz finv le FT OR Heq Hm); [exact Fr| |exact Re|exact Hex].
      rewrite T1; apply endog_length. }
    split; [exact St|].
    destruct (first_solves F O P ltb eqb nan minimize grad jacobian qr rank ordqz inv qz solve finv le fns pows FT OR Hl HI Hqr Hqz Hinv Hs _ _ _ _ _ _ _ _ _ _ Fr So) as (gy1 & gu1 & Eq & Sol).
    injection Eq as <- <-; rewrite <- T2 in Sol; destruct (Sol Re Sq Hd St Sm Rt) as (L & g & Oc & Ab & Pr & Rk & E1 & E2 & Gg).
    pose proof (solved_index F O P ltb eqb nan minimize grad jacobian qr rank ordqz inv qz solve finv le fns pows FT OR HI _ _ _ _ _ _ _ _ _ _ Fr So) as Ix.
    rewrite <- T2 in Ix; destruct (Ix Re Sq Hd (proj1 St) Sm) as (L' & k' & Ex & Oc' & Al).
    destruct (same_places F ns es L' L g k' Oc' Oc Ab Al) as [Po Ps].
    assert (Rn : rn g = List.length ns) by (destruct Ab as (-> & _); apply Oc).
    set (M := SModel (sp_ss (c_space _ _ (derived m1))) (dr_order (c_index _ _ (derived m1))) (members is_state (dr (c_index _ _ (derived m1)))) (map sv_name (d_stoch F (definition m1))) sg) in *.
    assert (Dm : SimProofs3.describes g M).
    { unfold SimProofs3.describes, M; cbn [m_ss m_shocks m_order m_state]; rewrite <- T2, Rn, Rk, Ex, Po, Ps; split; [apply St|]; auto. }
    split; [|split].
    - intros per nz.
      assert (Pt : paths_solve F O le P ns sv sc es (sp_ss (c_space _ _ (derived m1))) R
        (fun a i => Sim.simulate F O chol M (Sim.First (gy_of g) (gu_of g)) (Some a) per nz (Some i))).
      { eapply (rule_paths F O finv le P FT); [exact Pr|exact Dm|reflexivity|symmetry; exact Rn|symmetry; exact Rk|rewrite Rn, Rk; exact Wd|unfold M; cbn [m_sigma]; rewrite Rk; exact Ch|exact Gg]. }
      intros T r u y N w e HT Hcn; destruct (Pt T r u y N w e HT Hcn) as (path & H1 & H2 & H3 & H4); exists path.
      split; [|split; [exact H2|split; [exact H3|exact H4]]].
      intros q h; rewrite Rd; cbn [snd]; fold M; cbn [as_sim]; rewrite E1, E2; apply H1.
    - intros e per He Hp.
      assert (Nds : NoDup sv) by (destruct Re as (Nd & _); exact (IndexingProofs2.NoDup_app_r _ _ Nd)).
      assert (Pt : responses_solve F O le P ns sv sc es (sp_ss (c_space _ _ (derived m1))) R e per (response_from F O chol sv (sp_ss (c_space _ _ (derived m1))) g M e per)).
      { eapply (rule_responses F O finv le P FT); [exact Pr|exact Dm|reflexivity|symmetry; exact Rn|symmetry; exact Rk|rewrite Rn, Rk; exact Wd|unfold M; cbn [m_sigma]; rewrite Rk; exact Ch|exact Nds|exact Gg|exact He|exact Hp]. }
      destruct Pt as (rows & H1 & H2); exists rows; split; [|exact H2].
      intros h; rewrite Ri; fold M; cbn [as_sim]; rewrite E1, E2; apply H1.
    - intros L2 Oc2 AR Hfin Hsing Sep e h close He Hcl.
      assert (Rs : rs g = List.length (members_of L2 (backward L2))) by (destruct Ab as (_ & _ & _ & ->); rewrite (same_backward F ns es L L2 Oc Oc2); reflexivity).
      rewrite <- Rs in Sep.
      destruct (solved_settles F O P ltb eqb nan minimize grad jacobian qr rank ordqz inv qz solve finv le fns pows FT OR Hl HI Hqr Hqz Hinv Hs AR Hfin Hsing
        _ _ (d_stoch F (definition m1)) _ _ _ _ _ _ _ _ L g Fr So ltac:(rewrite <- T2; exact Re) Sq ltac:(rewrite <- T2; exact Hd) (proj1 St) ltac:(rewrite <- T2; exact Sm) Oc Ab Pr ltac:(rewrite <- T2; exact Rk) E1 E2 Sep) as (_ & Van & _).
      assert (Nds : NoDup sv) by (destruct Re as (Nd & _); exact (IndexingProofs2.NoDup_app_r _ _ Nd)).
      destruct (responses_fade F O le (Field_theory.F_R FT) chol sv (sp_ss (c_space _ _ (derived m1))) g M R Pr Dm eq_refl (eq_sym Rk)
        ltac:(rewrite Rn, Rk; exact Wd) ltac:(unfold M; cbn [m_sigma]; rewrite Rk; exact Ch) Nds e He h close Van Hcl) as [T0 HT].
      exists T0; intros per p Ep; rewrite <- Rn; apply HT; rewrite <- Ep, Ri; fold M; cbn [as_sim]; rewrite E1, E2; reflexivity.
  Qed.

  (** Full statement: after any history of additions, readings, solutions, simulations and
      questions, the responses that a model returns, and the paths it simulates without an
      order, satisfy the equations then in force to first order around a steady state, for the
      parameter values and the covariance matrix then in force.  Proved when the model was
      solved since its last change (C96_stale_refuted), the solution it has is one of first
      order (C96_refuted), and for models as in C93. *)
  Theorem C96_history_partial :
    forall (d : mdef F) (a : args F) (m0 : mstate F (space_of F) (rules F)) (os : list (sop F)) st l,
    ModelStateSpec.describes F (r1 O) d a -> NoDup (keys (m_params F d)) -> NoDup (keys (m_locals F d)) ->
    new_model a = Ok m0 -> srun os (m0, blank F) = (st, l) -> all_made F l -> mended F l -> distinct F (effects F (r1 O) (operations F os) d) ->
    orderly F Unsolved l -> phase_after F Unsolved l = Settled -> returned (fst st) ->
    let D := effects F (r1 O) (operations F os) d in
    let ns := map fst (m_endog F D) in let sv := map fst (m_stoch F D) in
    exists es pv lv, mapM (parse_given F parse_text) (m_exprs F D) = Ok es /\
      satisfies F P float_of trunc pv (m_params F D) /\ satisfies F P float_of trunc lv (m_locals F D) /\
      let sc := merge F pv lv in
      responses_for (fst st) ns sv sc es (readable ns sv es sc /\ List.length es = List.length ns).
  Proof.
    intros d a m0 os st l De N1 N2 Hnew Hr Ha Hme Di Hor Hph Hret D ns sv.
    destruct (PropModel.start F P (r0 O) (r1 O) truthy isnum float_of trunc parse_text _ _ space d a m0 De (distinct_effects F (r1 O) _ d Di) Hnew) as (K0 & C0 & _ & So0).
    pose proof (run_known_all F O P ltb isnum nan minimize rank lyap lsolve chol_low sqrt abs truthy float_of trunc parse_text keeps space solver_ os d (m0, blank F) st l K0 Hr Ha) as K.
    assert (I0 : StatsStateProofs2.inv F O P isnum lyap space solver_ Unsolved (m0, blank F)) by (split; [exact C0|split; [right; reflexivity|exact So0]]).
    pose proof (run_inv F O P ltb isnum nan minimize rank lyap lsolve chol_low sqrt abs truthy float_of trunc parse_text keeps space solver_
      (PropStatsState.first_of F O P eqb nan minimize grad jacobian inv qz solve) (PropStatsState.second_of F O P eqb nan minimize grad jacobian inv qz solve) os _ _ _ _ Hr Ha Hme Hor (or_introl I0)) as I.
    rewrite Hph in I; destruct I as [_ (d0 & x & gy & gu & B & G)].
    pose proof (settled_paths D d0 x gy gu st K B G Hret) as S; cbn zeta in S.
    destruct (effects_params F O (operations F os) d N1 N2) as [N1' N2'].
    pose proof (tracks_names F P (r0 O) truthy float_of trunc parse_text D _ K) as E1.
    destruct K as (_ & K2 & _ & (pv & P1 & P2) & (lv & L1 & L2) & K6).
    assert (E2 : map sv_name (d_stoch F (definition (fst st))) = sv).
    { unfold sv; fold D in K2; clear - K2; apply mapM_ok in K2; induction K2 as [|p v l l' Hv _ IH]; cbn [map]; [reflexivity|rewrite IH; f_equal].
      destruct p as [x [|[] []]]; cbn in Hv; try discriminate; injection Hv as <-; reflexivity. }
    rewrite E1, E2 in S; unfold model_scope in S; rewrite P1, L1 in S; cbn [solved] in S.
    exists (trees (d_exprs F (definition (fst st)))), pv, lv; split; [exact K6|].
    split; [apply (solve_satisfies F P float_of trunc _ _ N1' P2)|]; split; [apply (solve_satisfies F P float_of trunc _ _ N2' L2)|exact S].
  Qed.

  (** The same for a model that is read from a file, without additions. *)
  Theorem C96_file_partial :
    forall (t : text) (out : outline F) (m : mstate F (space_of F) (rules F)) (os : list (sop F)) st l,
    read_model t = Ok out -> new_model (outline_args F out) = Ok m ->
    srun os (m, blank F) = (st, l) -> (forall o, In o (operations F os) -> ~ addition F o) -> (forall o e, ~ In (o, Err e) l) ->
    orderly F Unsolved l -> phase_after F Unsolved l = Settled -> returned (fst st) ->
    let params := model_scope F (definition m) in
    exists f, parse_file F float_of trunc nzero t = Ok f /\ values_of F P f params /\
      responses_for (fst st) (named F "var" f) (named F "varexo" f) params (equations F f) (plain_file F f).
  Proof.
    intros t out m os st l Ho Hnew Hr Hno Her Hor Hph Hret params; subst params.
    destruct (file_model F P two (r0 O) (r1 O) truthy float_of trunc nzero parse_text _ _ space Hn t out m Ho Hnew) as (f & Hf & Hv & E1 & E2 & E3 & E4).
    destruct (file_defined F P two (r1 O) float_of trunc nzero Hn t out Ho) as (f' & d & Hf' & _ & _ & De & Di & _).
    destruct (PropModel.start F P (r0 O) (r1 O) truthy isnum float_of trunc parse_text _ _ space d _ m De Di Hnew) as (K0 & C0 & _ & So0).
    assert (Ha : all_made F l) by (intros o e Hi; exfalso; exact (Her _ _ Hi)).
    assert (Hme : mended F l) by (intros l1 o e l2 ->; exfalso; apply (Her o e), in_or_app; right; left; reflexivity).
    pose proof (run_known_all F O P ltb isnum nan minimize rank lyap lsolve chol_low sqrt abs truthy float_of trunc parse_text keeps space solver_ os d (m, blank F) st l K0 Hr Ha) as K.
    rewrite (PropStatsState.effects_none F O _ d Hno) in K.
    assert (I0 : StatsStateProofs2.inv F O P isnum lyap space solver_ Unsolved (m, blank F)) by (split; [exact C0|split; [right; reflexivity|exact So0]]).
    pose proof (run_inv F O P ltb isnum nan minimize rank lyap lsolve chol_low sqrt abs truthy float_of trunc parse_text keeps space solver_ (PropStatsState.first_of F O P eqb nan minimize grad jacobian inv qz solve) (PropStatsState.second_of F O P eqb nan minimize grad jacobian inv qz solve) os _ _ _ _ Hr Ha Hme Hor (or_introl I0)) as I.
    rewrite Hph in I; destruct I as [_ (d0 & x & gy & gu & B & G)].
    pose proof (settled_paths d d0 x gy gu st K B G Hret) as S; cbn zeta in S.
    assert (T : map ev_name (d_endog F (definition m)) = map ev_name (d_endog F (definition (fst st))) /\ map sv_name (d_stoch F (definition m)) = map sv_name (d_stoch F (definition (fst st))) /\
      model_scope F (definition m) = model_scope F (definition (fst st)) /\ trees (d_exprs F (definition m)) = trees (d_exprs F (definition (fst st)))).
    { rewrite (tracks_names F P (r0 O) truthy float_of trunc parse_text d _ K0), (tracks_names F P (r0 O) truthy float_of trunc parse_text d _ K).
      rewrite (tracks_stoch F P (r0 O) truthy float_of trunc parse_text d _ _ K0 K).
      destruct K0 as (_ & _ & _ & (cp & P1 & P2) & (cl & L1 & L2) & E6), K as (_ & _ & _ & (cp' & P1' & P2') & (cl' & L1' & L2') & E6').
      split; [reflexivity|]; split; [reflexivity|]; split; [|congruence]; unfold model_scope; rewrite P1, P1', L1, L1'; cbn [solved]; congruence. }
    destruct T as (T1 & T2 & T3 & T4); rewrite <- T1, <- T2, <- T3, <- T4, E1, E2, E3 in S.
    exists f; split; [exact Hf|]; split; [exact E4|].
    destruct S as (m1 & s & sp & sg & R & S1 & S2 & S3 & S4); exists m1, s, sp, sg, R; split; [exact S1|]; split; [exact S2|]; split; [exact S3|].
    intros Fi Pf; apply S4; [exact Fi|]; split; [|apply Pf]; apply (file_readable F float_of trunc nzero t f _ Hf Hv Pf); destruct E4 as (? & ? & _ & _ & _ & _ & E); exact E.
  Qed.
End C96.
Print Assumptions C96_history_partial.
Print Assumptions C96_file_partial.

(** ** Concrete histories *)
From Verif Require Import PiecewiseSimSpec PropPiecewise PropPiecewiseSim.
Definition i_impulse := whole_impulse Qc QO q_ops (fun _ => true) z0 p_minimize q_chol p_space p_solver.
(** The histories of C95: a model made with rho = 1/4 is solved, asked, rho is set to 1/2, and
    it is solved anew ([t_ops]); it is not solved anew ([t_stale]); it is solved to second
    order. *)
Definition i_two : list (sop Qc) := [Do (Solve 1); t_set; Do (Solve 2)].
Definition numbers (p : list (list Qc)) : list (list Q) := map (map this) p.
Definition first_one (s : rules Qc) : bool := match s with Pipeline.First _ _ => true | _ => false end.
Definition i_case (os : list (sop Qc)) (h : Qc) (given : list (list Q)) (one : bool) : Prop :=
  match p_new f_args with
  | Ok m0 => let r := t_run os (m0, blank Qc) in forallb done (snd r) = true /\
      match snd (i_impulse (Some (One "e")) 4 h (fst (fst r))), snd (p_step (Simulate 0) (fst (fst r))) with
      | Ok p, Ok (OSimulation s sp) => numbers p = given /\ lspace sp = true /\ first_one s = one
      | _, _ => False end
  | Err _ => False end.
Lemma i_facts os h given one : i_case os h given one -> exists m0 st l p m1 s sp,
  p_new f_args = Ok m0 /\ t_run os (m0, blank Qc) = (st, l) /\ map fst l = os /\ (forall o e, ~ In (o, Err e) l) /\
  snd (i_impulse (Some (One "e")) 4 h (fst st)) = Ok p /\ numbers p = given /\
  p_step (Simulate 0) (fst st) = (m1, Ok (OSimulation s sp)) /\ solvable Qc QO q_ops qgrad qjacobian Qcle no_function squares lendog lstoch lparams lmodel sp /\ sp_ss sp = lss /\ first_one s = one.
Proof.
  unfold i_case; destruct (p_new f_args) as [m0|]; [|contradiction]; cbv zeta; intros [H1 H2].
  pose proof (t_done os (m0, blank Qc)) as Hf; destruct (t_run os (m0, blank Qc)) as [st l] eqn:Er; cbn [fst snd] in *.
  destruct (snd (i_impulse (Some (One "e")) 4 h (fst st))) as [p|] eqn:E1; [|contradiction].
  destruct (p_step (Simulate 0) (fst st)) as [m1 [[| | |s sp]|]] eqn:E2; cbn [snd] in H2; try contradiction; destruct H2 as (H2 & H3 & H4).
  exists m0, st, l, p, m1, s, sp; split; [reflexivity|]; split; [exact Er|]; split; [exact Hf|].
  split; [intros o e Hi; apply (proj1 (forallb_forall done l) H1) in Hi; discriminate Hi|].
  split; [exact E1|]; split; [exact H2|]; split; [exact E2|]; split; [exact (lspace_solvable sp H3)|]; split; [exact (proj2 (f_reference sp H3))|exact H4].
Qed.
Lemma i_distinct os : operations Qc os = [Solve 1; AddParams [("rho", DNum (q 1 2))]; Solve 2] -> distinct Qc (effects Qc (r1 QO) (operations Qc os) f_def).
Proof. intros ->; exact (f_distinct f_altered (or_intror eq_refl)). Qed.
Lemma i_phases l : map fst l = i_two -> (forall o e, ~ In (o, Err e) l) -> @orderly Qc (sout Qc) Unsolved l /\ @phase_after Qc (sout Qc) Unsolved l = Settled.
Proof.
  intros Hf Hn; destruct l as [|[o1 [r1|e]] [|[o2 [r2|e']] [|[o3 [r3|e'']] [|? ?]]]]; try discriminate Hf;
    try (exfalso; eapply Hn; cbn; eauto 6; fail); injection Hf as -> -> ->; repeat split; reflexivity.
Qed.

(** One unit of e: x and z go up by 1, then 1/2, 1/4. *)
Definition i_rows : list (list Q) := [[Qmake 0 1; Qmake 0 1; Qmake 0 1]; [Qmake 1 1; Qmake 0 1; Qmake 1 1]; [Qmake 1 2; Qmake 0 1; Qmake 1 2]; [Qmake 1 4; Qmake 0 1; Qmake 1 4]].
Example C96_nonvacuous :
  ModelStateSpec.describes Qc (r1 QO) f_def f_args /\ NoDup (keys (m_params Qc f_def)) /\ NoDup (keys (m_locals Qc f_def)) /\ distinct Qc (effects Qc (r1 QO) (operations Qc t_ops) f_def) /\
  exists m0 st l p, p_new f_args = Ok m0 /\ t_run t_ops (m0, blank Qc) = (st, l) /\ all_made Qc l /\ mended Qc l /\ orderly Qc Unsolved l /\ phase_after Qc Unsolved l = Settled /\
    snd (i_impulse (Some (One "e")) 4 z1 (fst st)) = Ok p /\ numbers p = i_rows /\
    exists R, responses_solve Qc QO Qcle q_ops lendog lstoch lparams lmodel lss R (Some (One "e")) 4 (fun h => snd (i_impulse (Some (One "e")) 4 h (fst st))).
Proof.
  split; [exact f_describes|]; split; [repeat constructor; cbn; intuition discriminate|]; split; [constructor|]; split; [exact (t_distinct t_ops eq_refl)|].
  destruct (i_facts t_ops z1 i_rows true ltac:(vm_compute; repeat apply conj; reflexivity)) as (m0 & st & l & p & m1 & s & sp & E0 & E1 & Ef & A & Ep & Hp & Es & Sv & Ess & Fi).
  destruct (t_made l A) as [Am Me]; destruct (t_phases t_ops l Ef A) as [Ph _]; destruct (Ph eq_refl) as [Or Ph']; clear Ph.
  exists m0, st, l, p; split; [exact E0|]; split; [exact E1|]; split; [exact Am|]; split; [exact Me|]; split; [exact Or|]; split; [exact Ph'|]; split; [exact Ep|]; split; [exact Hp|].
  assert (N1 : NoDup (keys (m_params Qc f_def))) by (repeat constructor; cbn; intuition discriminate).
  assert (N2 : NoDup (keys (m_locals Qc f_def))) by constructor.
  destruct q_hypotheses as (H1 & H2 & H3 & H4 & H5 & H6 & H7 & _ & _ & H10 & _).
  destruct (C96_history_partial Qc QO q_ops qlt same z0 p_minimize qgrad qjacobian xyz_qr rank_all p_qz p_inv xyz2_real qsolve lyapD lsolveD (fun _ _ => Err ValueErr) q_chol (fun x => x) Qcabs q_true (fun _ => true) q_decimal q_trunc p_text false
    Qcinv Qcle no_function squares H1 H2 H3 H4 H5 H7 (qz_with_ok _) (inv_with_ok _) H10 p_minimize_ok
    f_def f_args m0 t_ops st l f_describes N1 N2 E0 E1 Am Me (t_distinct t_ops eq_refl) Or Ph' (or_intror (ex_intro _ (Some (One "e")) (ex_intro _ 4 (ex_intro _ z1 (ex_intro _ p Ep)))))) as (es & pv & lv & Ee & Sp & Sl & S).
  apply f_params in Sp; apply f_locals in Sl; subst pv lv; cbn in Ee; injection Ee as <-.
  destruct S as (m1' & s' & sp' & sg & R & S1 & S2 & S3 & S4).
  change (p_step (Simulate 0) (fst st) = (m1', Ok (OSimulation s' sp'))) in S1; rewrite Es in S1; injection S1 as <- <- <-; rewrite Ess in S4.
  exists R; apply S4; [destruct s; [eauto|discriminate Fi]|exact (conj lmodel_readable eq_refl)|exact Sv|left; cbn; lia|left; reflexivity|lia].
Qed.

(** The full statement is false of solutions of second order, the default: without a shock
    there is a response. *)
Definition i_unshocked : list (list Q) :=
  [[Qmake 0 1; Qmake 0 1; Qmake 0 1]; [Qmake 0 1; Qmake 4 23; Qmake 4 23]; [Qmake 0 1; Qmake 7487 24334; Qmake 7487 24334]; [Qmake 0 1; Qmake 180902983073 435817657216; Qmake 180902983073 435817657216]].
Lemma this_numbers p rows t v : numbers p = rows -> t < List.length rows -> v < List.length (nth t rows []) -> this (value Qc QO p t v) = nth v (nth t rows []) (Qmake 0 1).
Proof.
  intros <- Ht Hv; unfold numbers in *; rewrite map_length in Ht; unfold value.
  rewrite (nth_indep _ _ (map this [])) in * by (rewrite map_length; exact Ht); rewrite (map_nth (map this)) in *; rewrite map_length in Hv.
  change (Qmake 0 1) with (this z0); rewrite map_nth; reflexivity.
Qed.
Theorem C96_refuted :
  ModelStateSpec.describes Qc (r1 QO) f_def f_args /\ NoDup (keys (m_params Qc f_def)) /\ NoDup (keys (m_locals Qc f_def)) /\ distinct Qc (effects Qc (r1 QO) (operations Qc i_two) f_def) /\
  exists m0 st l p, p_new f_args = Ok m0 /\ t_run i_two (m0, blank Qc) = (st, l) /\ all_made Qc l /\ mended Qc l /\ orderly Qc Unsolved l /\ phase_after Qc Unsolved l = Settled /\
    snd (i_impulse (Some (One "e")) 4 z0 (fst st)) = Ok p /\ numbers p = i_unshocked /\
    forall ss R, ~ responses_solve Qc QO Qcle q_ops lendog lstoch lparams lmodel ss R (Some (One "e")) 4 (fun h => snd (i_impulse (Some (One "e")) 4 h (fst st))).
Proof.
  split; [exact f_describes|]; split; [repeat constructor; cbn; intuition discriminate|]; split; [constructor|]; split; [exact (i_distinct i_two eq_refl)|].
  destruct (i_facts i_two z0 i_unshocked false ltac:(vm_compute; repeat apply conj; reflexivity)) as (m0 & st & l & p & m1 & s & sp & E0 & E1 & Ef & A & Ep & Hp & Es & Sv & Ess & Fi).
  destruct (t_made l A) as [Am Me]; destruct (i_phases l Ef A) as [Or Ph].
  exists m0, st, l, p; split; [exact E0|]; split; [exact E1|]; split; [exact Am|]; split; [exact Me|]; split; [exact Or|]; split; [exact Ph|]; split; [exact Ep|]; split; [exact Hp|].
  intros ss R (rows & G1 & G2 & G3 & G4 & _); specialize (G1 z0); rewrite Ep in G1; injection G1 as G1.
  pose proof (G4 z0 1 1 ltac:(lia) ltac:(cbn; lia)) as X; rewrite <- G1 in X.
  pose proof (this_numbers p i_unshocked 1 1 Hp ltac:(cbn; lia) ltac:(cbn; lia)) as Y; rewrite X in Y.
  replace (rmul QO z0 (value Qc QO (rows (r1 QO)) 1 1)) with z0 in Y by (cbn [rmul QO]; unfold z0; ring); vm_compute in Y; discriminate Y.
Qed.
Print Assumptions C96_refuted.

(** And of models that were changed since they were solved: the response is the one for the old
    value of rho. *)
Definition i_old : list (list Q) := [[Qmake 0 1; Qmake 0 1; Qmake 0 1]; [Qmake 1 1; Qmake 0 1; Qmake 1 1]; [Qmake 1 4; Qmake 0 1; Qmake 1 4]; [Qmake 1 16; Qmake 0 1; Qmake 1 16]].
Theorem C96_stale_refuted :
  ModelStateSpec.describes Qc (r1 QO) f_def f_args /\ NoDup (keys (m_params Qc f_def)) /\ NoDup (keys (m_locals Qc f_def)) /\ distinct Qc (effects Qc (r1 QO) (operations Qc t_stale) f_def) /\
  exists m0 st l p m1 s sp, p_new f_args = Ok m0 /\ t_run t_stale (m0, blank Qc) = (st, l) /\ all_made Qc l /\ mended Qc l /\ orderly Qc Unsolved l /\
    snd (i_impulse (Some (One "e")) 4 z1 (fst st)) = Ok p /\ numbers p = i_old /\
    p_step (Simulate 0) (fst st) = (m1, Ok (OSimulation s sp)) /\ solvable Qc QO q_ops qgrad qjacobian Qcle no_function squares lendog lstoch lparams lmodel sp /\ (exists gy gu, s = Pipeline.First gy gu) /\
    forall R, ~ responses_solve Qc QO Qcle q_ops lendog lstoch lparams lmodel (sp_ss sp) R (Some (One "e")) 4 (fun h => snd (i_impulse (Some (One "e")) 4 h (fst st))).
Proof.
  split; [exact f_describes|]; split; [repeat constructor; cbn; intuition discriminate|]; split; [constructor|]; split; [exact (f_distinct f_altered (or_intror eq_refl))|].
  destruct (i_facts t_stale z1 i_old true ltac:(vm_compute; repeat apply conj; reflexivity)) as (m0 & st & l & p & m1 & s & sp & E0 & E1 & Ef & A & Ep & Hp & Es & Sv & Ess & Fi).
  destruct (t_made l A) as [Am Me].
  assert (Or : orderly Qc Unsolved l).
  { clear - Ef A; destruct l as [|[o1 [r1|e]] [|[o2 [r2|e']] [|? ?]]]; try discriminate Ef; try (exfalso; eapply A; cbn; eauto 6; fail); injection Ef as -> ->; repeat split; reflexivity. }
  exists m0, st, l, p, m1, s, sp; split; [exact E0|]; split; [exact E1|]; split; [exact Am|]; split; [exact Me|]; split; [exact Or|]; split; [exact Ep|]; split; [exact Hp|].
  split; [exact Es|]; split; [exact Sv|]; split; [destruct s; [eauto|discriminate Fi]|]; rewrite Ess.
  intros R (rows & G1 & G2 & G3 & G4 & G5); specialize (G1 z1); rewrite Ep in G1; injection G1 as G1.
  specialize (G5 1 ltac:(lia)); inversion G5 as [|? ? (gap & En & z & Vz & Sm) _ E]; clear G5 E; subst.
  assert (X1 : value Qc QO (rows z1) 1 0 = z1) by (apply Qc_is_canon; pose proof (this_numbers (rows z1) i_old 1 0 Hp ltac:(cbn; lia) ltac:(cbn; lia)) as Y; rewrite Y; vm_compute; reflexivity).
  assert (X2 : value Qc QO (rows z1) 2 0 = q 1 4) by (apply Qc_is_canon; pose proof (this_numbers (rows z1) i_old 2 0 Hp ltac:(cbn; lia) ltac:(cbn; lia)) as Y; rewrite Y; vm_compute; reflexivity).
  assert (Et : near Qc QO Qcle (fun t => Qcplus (Qcplus z0 (Qcmult z0 t)) (Qcmult (z t) t) = Qcplus (Qcplus z0 (Qcmult (q (-1) 4) t)) (Qcmult (Qcmult (Qcopp z1) t) t))).
  { generalize (near_and Qc QO Qcinv Q_field Qcle Q_ordered _ _ En Sm); apply near_mono; intros t [Ev Jt].
    apply leq1_value in Ev; cbn [radd rmul QO] in *; unfold level in Ev; rewrite (G4 t 1 0 ltac:(lia) ltac:(cbn; lia)), (G4 t 2 0 ltac:(lia) ltac:(cbn; lia)) in Ev.
    change (r1 QO) with z1 in Ev; rewrite X1, X2 in Ev; cbn [nth radd rmul QO r0 lss Nat.eqb] in Ev; rewrite <- Jt, Ev.
    replace (q (-1) 4) with (Qcminus (q 1 4) (q 1 2)) by (apply Qc_is_canon; vm_compute; reflexivity); generalize (q 1 2), (q 1 4); intros h k; unfold z0, z1; ring. }
  pose proof (slope_is z0 z0 z0 (q (-1) 4) z (Qcopp z1) Vz Et) as C; apply (f_equal this) in C; vm_compute in C; discriminate C.
Qed.
Print Assumptions C96_stale_refuted.
