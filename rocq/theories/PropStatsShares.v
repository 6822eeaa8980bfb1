(** Variance decompositions and means after histories of operations: property C95. *)
From Verif Require Import Base Syntax Lexer Parser Eval EvalSpec Semantics Factory FactorySpec Calib CalibSpec CalibProofs Indexing IndexingSpec DynFunc DynSpec Vars ExprList
  ModelState ModelStateSpec ModelStateProofs ModelStateProofs2 PropModel OutlineSpec PropDyn
  Nd NdInst Mat NdProofs SimSpec OrderProofs CalcSpec CalcProofs CalcProofs2 CalcProofs3 Linearize LinearizeSpec LinearizeProofs Steady SteadyValues SteadyValuesSpec PropSteadyValues
  FirstOrder FirstOrderSpec PropFirst Sylvester SylvesterSpec SecondOrder SecondOrderSpec PropSecond AccuracySpec PropAccuracy FirstOrderExample Gauss SylvesterExample LinearExample
  Pipeline PipelineSpec PipelineProofs PropPipeline Sim SimProofs3 PathSim PathSimSpec PathSimProofs PropPathSim
  Moments MomentsSpec MomentsProofs MomentsProofs2 MomentsProofs3 MomentsProofs4 MomentsExample PropMoments StatsState StatsStateSpec StatsStateProofs StatsStateProofs2 PropStatsState
  StatsSharesSpec StatsSharesProofs StableSpec PathStable.
From Coq Require Import ZArith QArith Qcanon.
Local Open Scope string_scope.
Local Open Scope list_scope.
Local Open Scope nat_scope.

Section C95Shares.
  Notation named := OutlineSpec.named.
  Variable F : Type.
  Variable O : rops F.
  Variable P : ops F.
  Variable ltb eqb : F -> F -> bool.
  Variable nan : F.
  Variable minimize : solver -> (list F -> res F) -> list F -> res (list F).
  Variable grad : (list F -> res F) -> list F -> res (list F).
  Variable jacobian : (list F -> res (list F)) -> list F -> res (list (list F)).
  Variable qr : nat -> nat -> mat F -> res (mat F * mat F).
  Variable rank : nat -> nat -> mat F -> nat.
  Variable ordqz : nat -> mat F -> mat F -> res (schur F).
  Variable inv : nat -> mat F -> res (mat F).
  Variable qz : nat -> mat F -> mat F -> res (mat F * mat F * mat F * mat F).
  Variable solve : nat -> nat -> mat F -> mat F -> res (mat F).
  Variable lyap : nat -> mat F -> mat F -> res (mat F).
  Variable lsolve : nat -> mat F -> vec F -> res (vec F).
  Variable chol_low : nat -> mat F -> res (mat F).
  Variable sqrt abs : F -> F.
  Variable two : F.
  Variable truthy isnum : F -> bool.
  Variable float_of : text -> option F.
  Variable trunc : F -> option Z.
  Variable nzero : F.
  Variable parse_text : text -> res (ast F).
  Variable keeps : bool.

  (** The model with its numerical parts. *)
  Notation space := (whole_space F O P ltb nan minimize grad qr rank ordqz).
  Notation solver_ := (whole_solver F O P eqb nan minimize grad jacobian inv qz solve).
  Notation read_model := (Factory.read_model F P two float_of trunc nzero).
  Notation new_model := (ModelState.new_model F P (r0 O) (r1 O) truthy float_of trunc parse_text (space_of F) (rules F) space).
  Notation step := (ModelState.step F P (r0 O) (r1 O) truthy isnum float_of trunc parse_text keeps (space_of F) (rules F) space solver_).
  Notation sstep := (StatsState.sstep F O P ltb isnum nan minimize rank lyap lsolve chol_low sqrt abs truthy float_of trunc parse_text keeps space solver_).
  Notation srun := (StatsState.srun F O P ltb isnum nan minimize rank lyap lsolve chol_low sqrt abs truthy float_of trunc parse_text keeps space solver_).
  Notation definition := (ModelState.definition F (space_of F) (rules F)).
  Notation derived := (ModelState.derived F (space_of F) (rules F)).

  (** What the routines promise, in exact arithmetic. *)
  Variable finv : F -> F.
  Variable le : F -> F -> Prop.
  Variable fns : string -> smooth_fun F.
  Variable pows : F -> smooth_fun F.
  Hypothesis FT : is_field O finv.
  Hypothesis OR : is_ordered O le.
  Hypothesis Hl : forall x y, ltb x y = false <-> le y x.
  Hypothesis Heq : forall x y, eqb x y = true <-> x = y.
  Hypothesis HI : interprets F O le P fns pows.
  Hypothesis Hn : forall v, o_isnone P v = true -> v = o_none P.
  Hypothesis Hqr : qr_routine F O qr.
  Hypothesis Hqz : schur_routine F O le ordqz.
  Hypothesis Hinv : inverse_routine F O inv.
  Hypothesis Hs : linear_routine F O solve.
  Hypothesis Hm : forall s m x0 y, minimize s (least_squares F O P m) x0 = Ok y -> least F le (List.length x0) (least_squares F O P m) y.
  Hypothesis HL : solves_lyapunov F O lyap.
  Hypothesis HC : factors F O chol_low.
  Hypothesis A1 : forall x, le (r0 O) x -> abs x = x.
  Hypothesis A2 : forall x, le x (r0 O) -> abs x = ropp O x.

  Notation solvable := (PropPipeline.solvable F O P grad jacobian le fns pows).
  Notation solution := (ModelState.solution F (space_of F) (rules F)).
  Notation good := (StatsStateProofs.good F O P isnum lyap space).
  Notation ask := (StatsState.ask F O P ltb isnum nan minimize rank lyap lsolve chol_low sqrt abs truthy float_of trunc parse_text keeps space solver_).

  (** What the decomposition of variances is for the equations, if the model [m] is asked:
      with several shocks it is that of the rule that solves the equations, if that is
      stable (as it is if the roots of the model are separated), for the covariance matrix that
      can be read. *)
  Definition shares_for (m : mstate F (space_of F) (rules F)) (a : answer F)
      (endog stoch : list string) (params : list (string * F)) (exprs : list (ast F)) (fits : Prop) : Prop :=
    exists sp s, snd (step (Read RSpace) m) = Ok (OValue (VSpace sp)) /\ snd (step ReadSolution m) = Ok (OSolution s) /\
      (List.length stoch = 1 -> all_ones F O (List.length endog) a) /\
      (List.length stoch <> 1 -> exists sigma, snd (step (Read RSigma) m) = Ok (OValue (VSigma sigma)) /\
       (fits -> solvable endog stoch params exprs sp -> 1 < List.length endog ->
        is_steady F O P endog stoch exprs params (sp_ss sp) /\
        exists g, solving_rule F O le P endog stoch params exprs (sp_ss sp) g /\ first_arrays F s = (gy_of g, gu_of g) /\
          (archimedean F O le -> finite_quotients F O ordqz -> refuses_singular F O solve ->
           separated F O le (eigen (sp_state sp)) (rs g) -> stable F O g /\ no_unit_root F O g) /\
          (stable F O g -> decomposes F O le g sigma a))).
  (** What the mean is: the steady state, if the solution is one of first order. *)
  Definition mean_for (m : mstate F (space_of F) (rules F)) (a : answer F)
      (endog stoch : list string) (params : list (string * F)) (exprs : list (ast F)) (fits : Prop) : Prop :=
    exists sp s, snd (step (Read RSpace) m) = Ok (OValue (VSpace sp)) /\ snd (step ReadSolution m) = Ok (OSolution s) /\
      ((exists gy gu, s = Pipeline.First gy gu) -> lists F O (sp_ss sp) a /\
       (fits -> solvable endog stoch params exprs sp -> is_steady F O P endog stoch exprs params (sp_ss sp))).

  (** The rule of a settled model. *)
  Lemma settled_rule D d0 x gy gu st :
    ModelStateProofs.known F P (r0 O) truthy float_of trunc parse_text (space_of F) (rules F) D (fst st) ->
    StatsStateProofs2.solved_by F space solver_ d0 x gy gu -> good d0 x gy gu st ->
    let d := definition (fst st) in
    let ns := map ev_name (d_endog F d) in let sv := map sv_name (d_stoch F d) in
    let sc := model_scope F d in let es := trees (d_exprs F d) in
    exists s, solution (fst st) = Some s /\ holds_arrays F gy gu s /\
      let sp := c_space _ _ (derived (fst st)) in
      ss_values F O P nan minimize (map ev_init (d_endog F d)) (c_steady _ _ (derived (fst st))) (c_dynamic _ _ (derived (fst st))) = Ok (sp_ss sp) /\
      (readable ns sv es sc /\ List.length es = List.length ns -> solvable ns sv sc es sp ->
       is_steady F O P ns sv es sc (sp_ss sp) /\
       exists g, solving_rule F O le P ns sv sc es (sp_ss sp) g /\ first_arrays F s = (gy_of g, gu_of g) /\ rn g = List.length ns /\
         (archimedean F O le -> finite_quotients F O ordqz -> refuses_singular F O solve ->
          separated F O le (eigen (sp_state sp)) (rs g) -> stable F O g /\ no_unit_root F O g) /\
         forall sg, has_rule F g (model_of F d0 x (sp_ss sp) sg) (Sim.First gy gu)).
  Proof using FT OR Hl Heq HI Hqr Hqz Hinv Hs Hm.
    intros K (En & Sk & sr & dy & sp & Fr & So) G d ns sv sc es; destruct st as [m c]; cbn [fst] in *.
    pose proof G as [G1 G2 G3 G4 (s & So1 & So2) _]; cbn [fst snd] in *.
    apply (fresh_similar F _ space _ _ _ _ _ _ G3) in Fr; destruct (fresh_fun F _ space _ _ _ _ _ _ _ _ _ _ _ _ _ Fr (proj1 G2)) as (_ & X2 & X3 & X4).
    rewrite <- (proj2 (similar_names F _ _ G3)) in So.
    destruct (similar_fields F _ _ G3) as (F1 & F3 & F2 & _).
    destruct (fresh_built F O P ltb nan minimize grad qr rank ordqz _ _ _ _ _ _ _ _ _ Fr) as (_ & _ & _ & V & _).
    exists s; split; [exact So1|]; split; [exact So2|]; cbn zeta; rewrite X2, X3, X4; split; [exact V|].
    intros [Re Sq] Sv; pose proof Sv as (Hd & Hex & Sm & Rt); unfold fresh_of in Fr; fold d in Fr; fold ns sc es in Fr.
    assert (St : is_steady F O P ns sv es sc (sp_ss sp)).
    { eapply (steady_found F O P ltb eqb nan minimize grad qr rank ordqz finv le FT OR Heq Hm); [exact Fr| |exact Re|exact Hex]; apply endog_length. }
    split; [exact St|].
    destruct (first_solves F O P ltb eqb nan minimize grad jacobian qr rank ordqz inv qz solve finv le fns pows FT OR Hl HI Hqr Hqz Hinv Hs _ _ _ _ _ _ _ _ _ _ Fr So) as (gy' & gu' & Eq & Sol).
    injection Eq as <- <-; destruct (Sol Re Sq Hd St Sm Rt) as (L & g & Oc & Ab & Pr & Rk & E1 & E2 & Gg).
    exists g; split; [exists L; auto|]; split.
    { transitivity (gy, gu); [destruct So2 as [<- <-]; destruct s; reflexivity|exact (f_equal2 pair E1 E2)]. }
    pose proof (solved_index F O P ltb eqb nan minimize grad jacobian qr rank ordqz inv qz solve finv le fns pows FT OR HI _ _ _ _ _ _ _ _ _ _ Fr So) as Ix.
    destruct (Ix Re Sq Hd (proj1 St) Sm) as (L' & k' & Ex & Oc' & Al).
    destruct (same_places F ns es L' L g k' Oc' Oc Ab Al) as [Po Ps].
    assert (Rn : rn g = List.length ns) by (destruct Ab as (-> & _); apply Oc).
    split; [exact Rn|].
    split; [intros AR Hfin Hsing Sep;
      exact (proj2 (proj2 (solved_settles F O P ltb eqb nan minimize grad jacobian qr rank ordqz inv qz solve finv le fns pows FT OR Hl HI Hqr Hqz Hinv Hs AR Hfin Hsing
        _ _ _ _ _ _ _ _ _ _ _ L g Fr So Re Sq Hd (proj1 St) Sm Oc Ab Pr Rk E1 E2 Sep)))|].
    intros sg; split; [exact Pr|]; split; [|split; [exact E1|exact E2]].
    unfold SimProofs3.describes, model_of; cbn [m_ss m_shocks m_order m_state]; rewrite <- F3, Rn, Rk, Ex, Po, Ps; split; [apply St|]; auto.
  Qed.

  Lemma read_settled d0 x gy gu m c s : good d0 x gy gu (m, c) -> solution m = Some s ->
    snd (step (Read RSpace) m) = Ok (OValue (VSpace (c_space _ _ (derived m)))) /\ snd (step ReadSolution m) = Ok (OSolution s).
  Proof using.
    intros G So; pose proof (g_alt _ _ _ _ _ _ _ _ _ _ _ G) as G1; cbn [fst] in G1.
    split; [unfold ModelState.step, ok_with, ModelState.read; rewrite G1; reflexivity|unfold ModelState.step, ok_with, ModelState.read_solution; rewrite So; reflexivity].
  Qed.

  Lemma model_shares D d0 x gy gu st st' a :
    ModelStateProofs.known F P (r0 O) truthy float_of trunc parse_text (space_of F) (rules F) D (fst st) ->
    StatsStateProofs2.solved_by F space solver_ d0 x gy gu -> good d0 x gy gu st -> ask Shares st = (st', Ok a) ->
    let d := definition (fst st) in
    let ns := map ev_name (d_endog F d) in let sv := map sv_name (d_stoch F d) in
    let sc := model_scope F d in let es := trees (d_exprs F d) in
    shares_for (fst st) a ns sv sc es (readable ns sv es sc /\ List.length es = List.length ns).
  Proof using FT OR Hl Heq HI Hqr Hqz Hinv Hs Hm HL HC A1 A2.
    intros K B G E d ns sv sc es; cbn [StatsState.ask] in E.
    destruct (ens_answer F O P isnum lyap space _ _ _ _ _ _ _ _ _ _ (ens_decomposition F O P ltb isnum rank lyap chol_low abs truthy float_of trunc parse_text keeps space solver_ d0 x gy gu) G E) as (_ & v & -> & Q1 & Q2).
    destruct (settled_rule D d0 x gy gu st K B G) as (s & So & Ha & V & Sol); fold d ns sv sc es in Sol.
    pose proof (good_size F O P isnum lyap space d0 x gy gu st G) as Sz; pose proof (good_stoch F O P isnum lyap space d0 x gy gu st G) as Ss; fold d in Sz, Ss.
    destruct B as (En & Sk & _); pose proof (g_sim _ _ _ _ _ _ _ _ _ _ _ G) as Si; pose proof G as [_ G2 _ _ _ _].
    destruct st as [m c]; cbn [fst snd] in *; destruct (read_settled _ _ _ _ _ _ _ G So) as [R1 R2].
    exists (c_space _ _ (derived m)), s; split; [exact R1|]; split; [exact R2|].
    assert (Ln : List.length ns = List.length (d_endog F d0)) by (unfold ns; rewrite map_length; exact Sz).
    assert (Lk : List.length sv = List.length (d_stoch F d0)) by (unfold sv; rewrite map_length, Ss; reflexivity).
    split; [intros L1; rewrite Lk in L1; rewrite (Q1 L1), Ln; eexists; split; [reflexivity|]; intros; reflexivity|].
    intros L1; rewrite Lk in L1; destruct (Q2 L1) as (sg & Sg & Q); exists sg.
    assert (Sg' : define_sigma F (r0 O) P isnum (d_stoch F d) = Ok sg) by (rewrite Ss; exact Sg).
    destruct (similar_fields F _ _ Si) as (F1 & F3 & F2 & _).
    assert (C : ModelStateProofs.current F P (r0 O) isnum _ _ space m) by (right; rewrite F1, F2; auto).
    assert (It : intact F _ _ m) by (split; [rewrite F1|rewrite F2]; assumption).
    destruct (current_read F P (r0 O) isnum _ _ space RSigma m _ _ _ _ sg C It (proj1 G2) Sg') as (m2 & v2 & R3 & sg' & V2 & ->); fold d in V2; rewrite Sg' in V2; injection V2 as <-.
    split; [unfold ModelState.step, ok_with; rewrite R3; reflexivity|].
    intros Fi Sv H1; destruct (Sol Fi Sv) as (St & g & Sr & Fa & Rn & Sp & Hr); split; [exact St|]; exists g; split; [exact Sr|]; split; [exact Fa|]; split; [exact Sp|].
    intros Sb; assert (Ls : List.length (sp_ss (c_space _ _ (derived m))) = List.length (d_endog F d0)) by (rewrite <- Ln; apply St).
    specialize (Q _ Ls); assert (Hn' : 1 < rn g) by (rewrite Rn; exact H1).
    destruct (C46_partial F O finv le lyap chol_low abs g _ _ v FT OR HL HC A1 A2 (Hr sg) Hn' Sb Q) as (L & h & -> & B1 & B2 & B3).
    exists L, h; split; [reflexivity|]; split; [exact B1|]; split; [exact B2|].
    intros R y u LR Fo Sy w Hw Nz; destruct (B3 R y u LR Fo Sy w Hw Nz) as (P1 & P2 & P3); split; [exact P1|]; split; [exact P2|]; split; [exact P3|].
    intros Off Dg Rs ys us Hs' i Hi.
    destruct (C46_uncorrelated F O finv le lyap chol_low abs g _ _ _ FT OR HL HC A1 A2 (Hr sg) Hn' Sb Off Dg Q) as (h' & Eh & U); injection Eh as Eh; rewrite Eh.
    exact (U R y u LR Fo Sy Rs ys us Hs' w i Hw Hi Nz).
  Qed.

  Lemma model_mean D d0 x gy gu st st' a :
    ModelStateProofs.known F P (r0 O) truthy float_of trunc parse_text (space_of F) (rules F) D (fst st) ->
    StatsStateProofs2.solved_by F space solver_ d0 x gy gu -> good d0 x gy gu st -> ask Mean st = (st', Ok a) ->
    let d := definition (fst st) in
    let ns := map ev_name (d_endog F d) in let sv := map sv_name (d_stoch F d) in
    let sc := model_scope F d in let es := trees (d_exprs F d) in
    mean_for (fst st) a ns sv sc es (readable ns sv es sc /\ List.length es = List.length ns).
  Proof using FT OR Hl Heq HI Hqr Hqz Hinv Hs Hm.
    intros K B G E d ns sv sc es.
    destruct (settled_rule D d0 x gy gu st K B G) as (s & So & Ha & V & Sol); fold d ns sv sc es in Sol.
    exists (c_space _ _ (derived (fst st))), s; destruct st as [m c]; cbn [fst snd] in *; destruct (read_settled _ _ _ _ _ _ _ G So) as [R1 R2].
    split; [exact R1|]; split; [exact R2|]; intros (gy1 & gu1 & ->); split; [|intros Fi Sv; apply (Sol Fi Sv)].
    cbn [StatsState.ask] in E; unfold StatsState.bnd, StatsState.mean, StatsState.the_steady in E; unfold StatsState.bnd, StatsState.on_model, StatsState.the_solution in E.
    unfold ModelState.step, ok_with, ModelState.read in E; pose proof (g_alt _ _ _ _ _ _ _ _ _ _ _ G) as G1; cbn [fst snd] in *; rewrite G1 in E; cbn [ensure fst snd bind cached] in E.
    rewrite V in E; unfold StatsState.bnd, StatsState.on_model, ModelState.step, ok_with, ModelState.read_solution in E; cbn [fst snd] in E; rewrite So in E; cbn [fst snd bind] in E.
    unfold mean_tail in E; cbn [fst as_sim StatsState.ret] in E; unfold StatsState.ret in E; injection E as _ <-; eexists; split; [reflexivity|]; intros; reflexivity.
  Qed.

  (** The settled model after a history. *)
  Lemma history_settled : forall (d : mdef F) (a : args F) (m0 : mstate F (space_of F) (rules F)) (os : list (sop F)) st l,
    ModelStateSpec.describes F (r1 O) d a -> NoDup (keys (m_params F d)) -> NoDup (keys (m_locals F d)) ->
    new_model a = Ok m0 -> srun os (m0, blank F) = (st, l) -> all_made F l -> mended F l -> distinct F (effects F (r1 O) (operations F os) d) ->
    orderly F Unsolved l -> phase_after F Unsolved l = Settled ->
    let D := effects F (r1 O) (operations F os) d in
    exists es pv lv, mapM (parse_given F parse_text) (m_exprs F D) = Ok es /\
      satisfies F P float_of trunc pv (m_params F D) /\ satisfies F P float_of trunc lv (m_locals F D) /\
      forall T : list string -> list string -> list (string * F) -> list (ast F) -> Prop,
      (forall D d0 x gy gu, ModelStateProofs.known F P (r0 O) truthy float_of trunc parse_text (space_of F) (rules F) D (fst st) ->
         StatsStateProofs2.solved_by F space solver_ d0 x gy gu -> good d0 x gy gu st ->
         let d := definition (fst st) in T (map ev_name (d_endog F d)) (map sv_name (d_stoch F d)) (model_scope F d) (trees (d_exprs F d))) ->
      T (map fst (m_endog F D)) (map fst (m_stoch F D)) (merge F pv lv) es.
  Proof using.
    intros d a m0 os st l De N1 N2 Hnew Hr Ha Hme Di Hor Hph D.
    destruct (PropModel.start F P (r0 O) (r1 O) truthy isnum float_of trunc parse_text _ _ space d a m0 De (distinct_effects F (r1 O) _ d Di) Hnew) as (K0 & C0 & _ & So0).
    pose proof (run_known_all F O P ltb isnum nan minimize rank lyap lsolve chol_low sqrt abs truthy float_of trunc parse_text keeps space solver_ os d (m0, blank F) st l K0 Hr Ha) as K.
    assert (I0 : StatsStateProofs2.inv F O P isnum lyap space solver_ Unsolved (m0, blank F)) by (split; [exact C0|split; [right; reflexivity|exact So0]]).
    pose proof (run_inv F O P ltb isnum nan minimize rank lyap lsolve chol_low sqrt abs truthy float_of trunc parse_text keeps space solver_
      (PropStatsState.first_of F O P eqb nan minimize grad jacobian inv qz solve) (PropStatsState.second_of F O P eqb nan minimize grad jacobian inv qz solve) os _ _ _ _ Hr Ha Hme Hor (or_introl I0)) as I.
    rewrite Hph in I; destruct I as [_ (d0 & x & gy & gu & B & G)].
    destruct (effects_params F O (operations F os) d N1 N2) as [N1' N2'].
    pose proof (tracks_names F P (r0 O) truthy float_of trunc parse_text D _ K) as E1; pose proof K as K'.
    destruct K as (_ & K2 & _ & (pv & P1 & P2) & (lv & L1 & L2) & K6).
    assert (E2 : map sv_name (d_stoch F (definition (fst st))) = map fst (m_stoch F D)).
    { fold D in K2; clear - K2; apply mapM_ok in K2; induction K2 as [|p v l l' Hv _ IH]; cbn [map]; [reflexivity|rewrite IH; f_equal].
      destruct p as [x [|[] []]]; cbn in Hv; try discriminate; injection Hv as <-; reflexivity. }
    exists (trees (d_exprs F (definition (fst st)))), pv, lv; split; [exact K6|].
    split; [apply (solve_satisfies F P float_of trunc _ _ N1' P2)|]; split; [apply (solve_satisfies F P float_of trunc _ _ N2' L2)|].
    intros T HT; pose proof (HT D d0 x gy gu K' B G) as S; cbn zeta in S; rewrite E1, E2 in S; unfold model_scope in S; rewrite P1, L1 in S; exact S.
  Qed.
  Lemma file_settled : forall (t : text) (out : outline F) (m : mstate F (space_of F) (rules F)) (os : list (sop F)) st l,
    read_model t = Ok out -> new_model (outline_args F out) = Ok m ->
    srun os (m, blank F) = (st, l) -> (forall o, In o (operations F os) -> ~ addition F o) -> (forall o e, ~ In (o, Err e) l) ->
    orderly F Unsolved l -> phase_after F Unsolved l = Settled ->
    let params := model_scope F (definition m) in
    exists f, parse_file F float_of trunc nzero t = Ok f /\ values_of F P f params /\
      (plain_file F f -> readable (named F "var" f) (named F "varexo" f) (equations F f) params /\ List.length (equations F f) = List.length (named F "var" f)) /\
      forall T : list string -> list string -> list (string * F) -> list (ast F) -> Prop,
      (forall D d0 x gy gu, ModelStateProofs.known F P (r0 O) truthy float_of trunc parse_text (space_of F) (rules F) D (fst st) ->
         StatsStateProofs2.solved_by F space solver_ d0 x gy gu -> good d0 x gy gu st ->
         let d := definition (fst st) in T (map ev_name (d_endog F d)) (map sv_name (d_stoch F d)) (model_scope F d) (trees (d_exprs F d))) ->
      T (named F "var" f) (named F "varexo" f) params (equations F f).
  Proof using Hn.
    intros t out m os st l Ho Hnew Hr Hno Her Hor Hph params; subst params.
    destruct (file_model F P two (r0 O) (r1 O) truthy float_of trunc nzero parse_text _ _ space Hn t out m Ho Hnew) as (f & Hf & Hv & E1 & E2 & E3 & E4).
    destruct (file_defined F P two (r1 O) float_of trunc nzero Hn t out Ho) as (f' & d & Hf' & _ & _ & De & Di & _).
    destruct (PropModel.start F P (r0 O) (r1 O) truthy isnum float_of trunc parse_text _ _ space d _ m De Di Hnew) as (K0 & C0 & _ & So0).
    assert (Ha : all_made F l) by (intros o e Hi; exfalso; exact (Her _ _ Hi)).
    assert (Hme : mended F l) by (intros l1 o e l2 ->; exfalso; apply (Her o e), in_or_app; right; left; reflexivity).
    pose proof (run_known_all F O P ltb isnum nan minimize rank lyap lsolve chol_low sqrt abs truthy float_of trunc parse_text keeps space solver_ os d (m, blank F) st l K0 Hr Ha) as K.
    rewrite (PropStatsState.effects_none F O _ d Hno) in K.
    assert (I0 : StatsStateProofs2.inv F O P isnum lyap space solver_ Unsolved (m, blank F)) by (split; [exact C0|split; [right; reflexivity|exact So0]]).
    pose proof (run_inv F O P ltb isnum nan minimize rank lyap lsolve chol_low sqrt abs truthy float_of trunc parse_text keeps space solver_ (PropStatsState.first_of F O P eqb nan minimize grad jacobian inv qz solve) (PropStatsState.second_of F O P eqb nan minimize grad jacobian inv qz solve) os _ _ _ _ Hr Ha Hme Hor (or_introl I0)) as I.
    rewrite Hph in I; destruct I as [_ (d0 & x & gy & gu & B & G)].
    assert (Q : map ev_name (d_endog F (definition m)) = map ev_name (d_endog F (definition (fst st))) /\ map sv_name (d_stoch F (definition m)) = map sv_name (d_stoch F (definition (fst st))) /\
      model_scope F (definition m) = model_scope F (definition (fst st)) /\ trees (d_exprs F (definition m)) = trees (d_exprs F (definition (fst st)))).
    { rewrite (tracks_names F P (r0 O) truthy float_of trunc parse_text d _ K0), (tracks_names F P (r0 O) truthy float_of trunc parse_text d _ K).
      rewrite (tracks_stoch F P (r0 O) truthy float_of trunc parse_text d _ _ K0 K).
      destruct K0 as (_ & _ & _ & (cp & P1 & P2) & (cl & L1 & L2) & E6), K as (_ & _ & _ & (cp' & P1' & P2') & (cl' & L1' & L2') & E6').
      split; [reflexivity|]; split; [reflexivity|]; split; [|congruence]; unfold model_scope; rewrite P1, P1', L1, L1'; cbn [solved]; congruence. }
    destruct Q as (T1 & T2 & T3 & T4).
    exists f; split; [exact Hf|]; split; [exact E4|]; split.
    - intros Pf; split; [|apply Pf]; apply (file_readable F float_of trunc nzero t f _ Hf Hv Pf); destruct E4 as (? & ? & _ & _ & _ & _ & E); exact E.
    - intros T HT; pose proof (HT d d0 x gy gu K B G) as S; cbn zeta in S; rewrite <- T1, <- T2, <- T3, <- T4, E1, E2, E3 in S; exact S.
  Qed.

  (** Full statement: the decomposition of variances and the means that a model returns after any
      history are those of the equations then in force.  Proved when the model was solved since
      its last change, for models as in C92; decompositions as in C46, means for solutions of
      first order (C70). *)
  Theorem C95_shares_partial :
    forall (d : mdef F) (a : args F) (m0 : mstate F (space_of F) (rules F)) (os : list (sop F)) st l st' ans,
    ModelStateSpec.describes F (r1 O) d a -> NoDup (keys (m_params F d)) -> NoDup (keys (m_locals F d)) ->
    new_model a = Ok m0 -> srun os (m0, blank F) = (st, l) -> all_made F l -> mended F l -> distinct F (effects F (r1 O) (operations F os) d) ->
    orderly F Unsolved l -> phase_after F Unsolved l = Settled ->
    sstep (Ask Shares) st = (st', Ok (Answer ans)) ->
    let D := effects F (r1 O) (operations F os) d in
    let ns := map fst (m_endog F D) in let sv := map fst (m_stoch F D) in
    exists es pv lv, mapM (parse_given F parse_text) (m_exprs F D) = Ok es /\
      satisfies F P float_of trunc pv (m_params F D) /\ satisfies F P float_of trunc lv (m_locals F D) /\
      let sc := merge F pv lv in
      shares_for (fst st) ans ns sv sc es (readable ns sv es sc /\ List.length es = List.length ns).
  Proof.
    intros d a m0 os st l st' ans De N1 N2 Hnew Hr Ha Hme Di Hor Hph Hask D ns sv.
    cbn [StatsState.sstep] in Hask; unfold StatsState.bnd in Hask; destruct (ask Shares st) as [s1 [a1|e]] eqn:Ea; [|discriminate]; injection Hask as <- <-.
    destruct (history_settled d a m0 os st l De N1 N2 Hnew Hr Ha Hme Di Hor Hph) as (es & pv & lv & H1 & H2 & H3 & H4).
    exists es, pv, lv; split; [exact H1|]; split; [exact H2|]; split; [exact H3|].
    apply (H4 (fun ns sv sc es => shares_for (fst st) a1 ns sv sc es (readable ns sv es sc /\ List.length es = List.length ns))).
    intros D' d0 x gy gu K B G; exact (model_shares D' d0 x gy gu st s1 a1 K B G Ea).
  Qed.
  Theorem C95_mean_partial :
    forall (d : mdef F) (a : args F) (m0 : mstate F (space_of F) (rules F)) (os : list (sop F)) st l st' ans,
    ModelStateSpec.describes F (r1 O) d a -> NoDup (keys (m_params F d)) -> NoDup (keys (m_locals F d)) ->
    new_model a = Ok m0 -> srun os (m0, blank F) = (st, l) -> all_made F l -> mended F l -> distinct F (effects F (r1 O) (operations F os) d) ->
    orderly F Unsolved l -> phase_after F Unsolved l = Settled ->
    sstep (Ask Mean) st = (st', Ok (Answer ans)) ->
    let D := effects F (r1 O) (operations F os) d in
    let ns := map fst (m_endog F D) in let sv := map fst (m_stoch F D) in
    exists es pv lv, mapM (parse_given F parse_text) (m_exprs F D) = Ok es /\
      satisfies F P float_of trunc pv (m_params F D) /\ satisfies F P float_of trunc lv (m_locals F D) /\
      let sc := merge F pv lv in
      mean_for (fst st) ans ns sv sc es (readable ns sv es sc /\ List.length es = List.length ns).
  Proof.
    intros d a m0 os st l st' ans De N1 N2 Hnew Hr Ha Hme Di Hor Hph Hask D ns sv.
    cbn [StatsState.sstep] in Hask; unfold StatsState.bnd in Hask; destruct (ask Mean st) as [s1 [a1|e]] eqn:Ea; [|discriminate]; injection Hask as <- <-.
    destruct (history_settled d a m0 os st l De N1 N2 Hnew Hr Ha Hme Di Hor Hph) as (es & pv & lv & H1 & H2 & H3 & H4).
    exists es, pv, lv; split; [exact H1|]; split; [exact H2|]; split; [exact H3|].
    apply (H4 (fun ns sv sc es => mean_for (fst st) a1 ns sv sc es (readable ns sv es sc /\ List.length es = List.length ns))).
    intros D' d0 x gy gu K B G; exact (model_mean D' d0 x gy gu st s1 a1 K B G Ea).
  Qed.

  (** The same for a model that is read from a file, without additions. *)
  Theorem C95_shares_file_partial :
    forall (t : text) (out : outline F) (m : mstate F (space_of F) (rules F)) (os : list (sop F)) st l q st' ans,
    read_model t = Ok out -> new_model (outline_args F out) = Ok m ->
    srun os (m, blank F) = (st, l) -> (forall o, In o (operations F os) -> ~ addition F o) -> (forall o e, ~ In (o, Err e) l) ->
    orderly F Unsolved l -> phase_after F Unsolved l = Settled ->
    sstep (Ask q) st = (st', Ok (Answer ans)) ->
    let params := model_scope F (definition m) in
    exists f, parse_file F float_of trunc nzero t = Ok f /\ values_of F P f params /\
      (q = Shares -> shares_for (fst st) ans (named F "var" f) (named F "varexo" f) params (equations F f) (plain_file F f)) /\
      (q = Mean -> mean_for (fst st) ans (named F "var" f) (named F "varexo" f) params (equations F f) (plain_file F f)).
  Proof.
    intros t out m os st l q st' ans Ho Hnew Hr Hno Her Hor Hph Hask params.
    cbn [StatsState.sstep] in Hask; unfold StatsState.bnd in Hask; destruct (ask q st) as [s1 [a1|e]] eqn:Ea; [|discriminate]; injection Hask as <- <-.
    destruct (file_settled t out m os st l Ho Hnew Hr Hno Her Hor Hph) as (f & H1 & H2 & H3 & H4).
    exists f; split; [exact H1|]; split; [exact H2|]; split; intros ->.
    - enough (S : shares_for (fst st) a1 (named F "var" f) (named F "varexo" f) params (equations F f)
        (readable (named F "var" f) (named F "varexo" f) (equations F f) params /\ List.length (equations F f) = List.length (named F "var" f))).
      { destruct S as (sp & s & S1 & S2 & S3 & S4); exists sp, s; split; [exact S1|]; split; [exact S2|]; split; [exact S3|].
        intros N; destruct (S4 N) as (sg & S5 & S6); exists sg; split; [exact S5|]; intros Pf; apply S6, H3, Pf. }
      apply (H4 (fun ns sv sc es => shares_for (fst st) a1 ns sv sc es (readable ns sv es sc /\ List.length es = List.length ns))).
      intros D' d0 x gy gu K B G; exact (model_shares D' d0 x gy gu st s1 a1 K B G Ea).
    - enough (S : mean_for (fst st) a1 (named F "var" f) (named F "varexo" f) params (equations F f)
        (readable (named F "var" f) (named F "varexo" f) (equations F f) params /\ List.length (equations F f) = List.length (named F "var" f))).
      { destruct S as (sp & s & S1 & S2 & S3); exists sp, s; split; [exact S1|]; split; [exact S2|].
        intros Fi; destruct (S3 Fi) as [S4 S5]; split; [exact S4|]; intros Pf; apply S5, H3, Pf. }
      apply (H4 (fun ns sv sc es => mean_for (fst st) a1 ns sv sc es (readable ns sv es sc /\ List.length es = List.length ns))).
      intros D' d0 x gy gu K B G; exact (model_mean D' d0 x gy gu st s1 a1 K B G Ea).
  Qed.
End C95Shares.
Print Assumptions C95_shares_partial.
Print Assumptions C95_mean_partial.
Print Assumptions C95_shares_file_partial.

(** ** A concrete history *)
From Verif Require Import PiecewiseSimSpec PropPiecewiseSim.
(** The shocks have variance 4, up to the perturbation. *)
Definition s_variance : Qc := Qcminus (q 4 1) (tiny Qc QO).
Definition s_shocks : list (string * shockdef Qc) := [("e", DStoch None (Some s_variance) None None); ("f", DStoch None (Some s_variance) None None)].
Definition s_def : mdef Qc :=
  MDef _ [("x", (None, None, None)); ("y", (None, None, None)); ("z", (Some z1, None, None))] s_shocks [] [("rho", DNum (q 1 4)); ("c", DNum z1)] [] (map GTree lmodel).
Definition s_args : args Qc :=
  Args _ lendog lstoch [] (Plain [("rho", DNum (q 1 4)); ("c", DNum z1)]) (Plain []) s_shocks (FromList false (map GTree lmodel)) [("z", z1)] [] [].
Definition s_step := StatsState.sstep Qc QO q_ops qlt (fun _ => true) z0 p_minimize rank_all lyapD lsolveD (cholD two_root) (fun x => x) Qcabs q_true q_decimal q_trunc p_text false p_space p_solver.
Definition s_run := StatsState.srun Qc QO q_ops qlt (fun _ => true) z0 p_minimize rank_all lyapD lsolveD (cholD two_root) (fun x => x) Qcabs q_true q_decimal q_trunc p_text false p_space p_solver.
Lemma s_describes : ModelStateSpec.describes Qc (r1 QO) s_def s_args.
Proof.
  constructor; try reflexivity.
  - intros x i t h [E|[E|[E|[]]]]; injection E as <- <- <- <-; repeat apply conj; reflexivity.
  - intros x s [E|[E|[]]]; injection E as <- <-; left; reflexivity.
  - intros x s [].
  - exists false; reflexivity.
Qed.
Lemma s_done os : forall st, map fst (snd (s_run os st)) = os.
Proof.
  induction os as [|o os IH]; intros st; [reflexivity|]; unfold s_run in *; cbn [StatsState.srun]; destruct (StatsState.sstep _ _ _ _ _ _ _ _ _ _ _ _ _ _ _ _ _ _ _ _ o st) as [s1 r].
  specialize (IH s1); destruct (StatsState.srun _ _ _ _ _ _ _ _ _ _ _ _ _ _ _ _ _ _ _ _ os s1) as [s2 l]; cbn in *; rewrite IH; reflexivity.
Qed.
Lemma s_distinct : distinct Qc (effects Qc (r1 QO) (operations Qc t_ops) s_def).
Proof. exact (f_distinct f_altered (or_intror eq_refl)). Qed.

Definition s_case (x : query) (given : list (list (list Q))) : Prop :=
  match p_new s_args with
  | Ok m0 => let r := s_run t_ops (m0, blank Qc) in forallb done (snd r) = true /\
      match s_step (Ask x) (fst r) with
      | (st', Ok (Answer a)) => table a = given /\
          match snd (p_step (Read RSpace) (fst (fst r))), snd (p_step (Read RSigma) (fst (fst r))), snd (p_step ReadSolution (fst (fst r))) with
          | Ok (OValue (VSpace sp)), Ok (OValue (VSigma sg)), Ok (OSolution s) =>
              lspace sp && rows_same (map (fun i => map (sg i) [0; 1]) [0; 1]) [[s_variance; z0]; [z0; s_variance]] && t_arrays s && match s with Pipeline.First _ _ => true | _ => false end = true
          | _, _, _ => False end
      | _ => False end
  | Err _ => False end.
Lemma s_facts x given : s_case x given -> exists m0 st l st' a sp sg s,
  p_new s_args = Ok m0 /\ s_run t_ops (m0, blank Qc) = (st, l) /\ map fst l = t_ops /\ (forall o e, ~ In (o, Err e) l) /\ s_step (Ask x) st = (st', Ok (Answer a)) /\ table a = given /\
  snd (p_step (Read RSpace) (fst st)) = Ok (OValue (VSpace sp)) /\ snd (p_step (Read RSigma) (fst st)) = Ok (OValue (VSigma sg)) /\ snd (p_step ReadSolution (fst st)) = Ok (OSolution s) /\
  lspace sp = true /\
  (forall i j, i < 2 -> j < 2 -> sg i j = if i =? j then s_variance else z0) /\ t_arrays s = true /\ exists gy gu, s = Pipeline.First gy gu.
Proof.
  unfold s_case; destruct (p_new s_args) as [m0|]; [|contradiction]; cbv zeta; intros [H1 H2].
  pose proof (s_done t_ops (m0, blank Qc)) as Hf; destruct (s_run t_ops (m0, blank Qc)) as [st l] eqn:Er; cbn [fst snd] in *.
  destruct (s_step (Ask x) st) as [st' [[|a]|]] eqn:Es; try contradiction; destruct H2 as [H2 H3].
  destruct (snd (p_step (Read RSpace) (fst st))) as [[|[| | |sp|]| |]|] eqn:E1; try contradiction.
  destruct (snd (p_step (Read RSigma) (fst st))) as [[|[| | | |sg]| |]|] eqn:E2; try contradiction.
  destruct (snd (p_step ReadSolution (fst st))) as [[| |s|]|] eqn:E3; try contradiction.
  apply andb_true_iff in H3 as [H3 H6]; apply andb_true_iff in H3 as [H3 H5]; apply andb_true_iff in H3 as [H3 H4].
  exists m0, st, l, st', a, sp, sg, s; split; [reflexivity|]; split; [exact Er|]; split; [exact Hf|].
  split; [intros o e Hi; apply (proj1 (forallb_forall done l) H1) in Hi; discriminate Hi|].
  split; [exact Es|]; split; [exact H2|]; split; [exact E1|]; split; [exact E2|]; split; [exact E3|]; split; [exact H3|]; split; [|split; [exact H5|destruct s; [eauto|discriminate H6]]].
  apply rows_same_eq in H4; cbn [map] in H4; injection H4 as S1 S2 S3 S4; intros [|[|i]] [|[|j]] Hi Hj; try lia; assumption.
Qed.

(** The processes of both shocks, and of each alone. *)
Definition s_all (l : nat) : Qc := q 4 1.
Definition s_one (i l : nat) : Qc := if l =? i then q 4 1 else z0.
Section SRule.
  Variable g : rule Qc.
  Hypothesis H : proper g /\ rn g = 3 /\ rs g = 2 /\ rk g = 2 /\ rorder g = [2; 0; 1] /\ rstate g = [1; 2] /\
    t_rows [[q 1 2; q 3 4]; [q 1 2; z0]; [z0; q 3 4]] (ry g) /\ t_rows [[z1; q (-1) 2]; [z1; z0]; [z0; q (-1) 2]] (ru g).
  Definition s_V (v : nat -> Qc) (j : nat) : Qc := Qcmult (t_var j) (v j).
  Lemma s_next v i j : v = s_all \/ (exists n, n < 2 /\ v = s_one n) -> i < rs g -> j < rs g -> next_var g v (s_V v) i j = diagonal (s_V v) i j.
  Proof.
    pose proof (t_on g H) as To; pose proof (t_by g H) as Tb; destruct H as (_ & _ & Es & Ek & _); rewrite Es; intros Hv Hi Hj.
    unfold next_var, Mat.madd, Mat.mmul, mtr, A; rewrite Es, Ek; cbn [rsum].
    repeat match goal with |- context [on_states Qc g ?a ?b] => rewrite (To a b) by lia end.
    repeat match goal with |- context [B Qc g ?a ?b] => rewrite (Tb a b) by lia end.
    destruct Hv as [->|([|[|n]] & Hn & ->)]; try lia; destruct i as [|[|i]], j as [|[|j]]; try lia; apply same_eq; vm_compute; reflexivity.
  Qed.
  Definition s_R (v : nat -> Qc) := MomentsExample.R g v (s_V v).
  Definition s_y (v : nat -> Qc) := later (MomentsExample.run g v (s_V v)).
  Definition s_u (v : nat -> Qc) := later (eps g v (s_V v)).
  Lemma s_process v Sg : v = s_all \/ (exists n, n < 2 /\ v = s_one n) -> (forall i j, i < 2 -> j < 2 -> Sg i j = if i =? j then v i else z0) ->
    lawful Qc QO (s_R v) /\ MomentsSpec.positive Qc QO Qcle (s_R v) /\ follows Qc QO (s_R v) g Sg (s_y v) (s_u v) /\ stationary Qc (s_R v) g (s_y v) /\
    covariance (s_R v) (s_y v 0 0) (s_y v 0 0) = s_V v 0.
  Proof.
    intros Hv HS; pose proof (fun i j => s_next v i j Hv) as Tn; destruct H as (W & _ & Es & Ek & Eo & Est & _).
    assert (Nn : forall l, Qcle z0 (v l)).
    { intros l; destruct Hv as [->|(n & _ & ->)]; [intros X; vm_compute in X; discriminate X|]; unfold s_one; destruct (l =? n); [intros X; vm_compute in X; discriminate X|apply Qcle_refl]. }
    split; [apply space_lawful|]; split; [|split; [|split; [apply later_stationary; [exact W|exact Tn]|]]].
    - apply R_positive; [|intros l; apply Nn]; intros j Hj; rewrite Es in Hj; destruct Hv as [->|([|[|n]] & Hn & ->)]; try lia; destruct j as [|[|j]]; try lia; intros X; vm_compute in X; discriminate X.
    - destruct (later_follows g W v (s_V v)) as [Q1 Q2 Q3 Q4]; constructor; [exact Q1| |exact Q3|exact Q4].
      intros t l m Hl Hm; rewrite HS by lia; exact (Q2 t l m Hl Hm).
    - pose proof (state_var g W v (s_V v) Tn 1 0 0 ltac:(lia) ltac:(lia)) as V; unfold D, state_at in V; rewrite Est, Eo in V; exact V.
  Qed.
End SRule.

(** x is moved by e only, y by f only; e causes 7/10 of the variance of z. *)
Definition s_table : list (list (list Q)) := [[[Qmake 1 1; Qmake 0 1]; [Qmake 0 1; Qmake 1 1]; [Qmake 7 10; Qmake 3 10]]].
Example C95_shares_nonvacuous :
  ModelStateSpec.describes Qc (r1 QO) s_def s_args /\ NoDup (keys (m_params Qc s_def)) /\ NoDup (keys (m_locals Qc s_def)) /\ distinct Qc (effects Qc (r1 QO) (operations Qc t_ops) s_def) /\
  exists m0 st l st' a, p_new s_args = Ok m0 /\ s_run t_ops (m0, blank Qc) = (st, l) /\ all_made Qc l /\ mended Qc l /\ orderly Qc Unsolved l /\ phase_after Qc Unsolved l = Settled /\
    s_step (Ask Shares) st = (st', Ok (Answer a)) /\ table a = s_table /\
    exists g ss sg, solving_rule Qc QO Qcle q_ops lendog lstoch lparams lmodel ss g /\ stable Qc QO g /\ decomposes Qc QO Qcle g sg a /\
      (exists R y u, lawful Qc QO R /\ follows Qc QO R g (nudged Qc QO sg) y u /\ stationary Qc R g y /\ covariance R (y 0 0) (y 0 0) <> r0 QO) /\
      (forall i j, i < 2 -> j < 2 -> i <> j -> sg i j = r0 QO) /\
      exists Rs ys us, forall i, i < 2 -> lawful Qc QO (Rs i) /\ MomentsSpec.positive Qc QO Qcle (Rs i) /\ follows Qc QO (Rs i) g (alone Qc QO sg i) (ys i) (us i) /\ stationary Qc (Rs i) g (ys i).
Proof.
  split; [exact s_describes|]; split; [repeat constructor; cbn; intuition discriminate|]; split; [constructor|]; split; [exact s_distinct|].
  destruct (s_facts Shares s_table ltac:(vm_compute; repeat apply conj; reflexivity)) as (m0 & st & l & st' & a & sp & sg & s & E0 & E1 & Ef & A & E2 & Ht & R1 & R2 & R3 & Sv & Hsg & Ha & _).
  destruct (t_made l A) as [Am Me]; destruct (t_phases t_ops l Ef A) as [Ph _]; destruct (Ph eq_refl) as [Or Ph']; clear Ph.
  exists m0, st, l, st', a; split; [exact E0|]; split; [exact E1|]; split; [exact Am|]; split; [exact Me|]; split; [exact Or|]; split; [exact Ph'|]; split; [exact E2|]; split; [exact Ht|].
  assert (N1 : NoDup (keys (m_params Qc s_def))) by (repeat constructor; cbn; intuition discriminate).
  assert (N2 : NoDup (keys (m_locals Qc s_def))) by constructor.
  destruct q_hypotheses as (H1 & H2 & H3 & H4 & H5 & H6 & H7 & _ & _ & H10 & _).
  destruct (C95_shares_partial Qc QO q_ops qlt same z0 p_minimize qgrad qjacobian xyz_qr rank_all p_qz p_inv xyz2_real qsolve lyapD lsolveD (cholD two_root) (fun x => x) Qcabs q_true (fun _ => true) q_decimal q_trunc p_text false
    Qcinv Qcle no_function squares H1 H2 H3 H4 H5 H7 (qz_with_ok _) (inv_with_ok _) H10 p_minimize_ok lyapD_solves (cholD_factors two_root) (proj1 Qcabs_spec) (proj2 Qcabs_spec)
    s_def s_args m0 t_ops st l st' a s_describes N1 N2 E0 E1 Am Me s_distinct Or Ph' E2) as (es & pv & lv & Ep & Sp & Sl & S).
  apply f_params in Sp; apply f_locals in Sl; subst pv lv; cbn in Ep; injection Ep as <-.
  destruct S as (sp' & s' & S1 & S3 & _ & S4); destruct (S4 ltac:(discriminate)) as (sg' & S2 & S5); clear S4.
  change (snd (p_step (Read RSpace) (fst st)) = Ok (OValue (VSpace sp'))) in S1; change (snd (p_step (Read RSigma) (fst st)) = Ok (OValue (VSigma sg'))) in S2; change (snd (p_step ReadSolution (fst st)) = Ok (OSolution s')) in S3.
  assert (sp' = sp) by congruence; assert (sg' = sg) by congruence; assert (s' = s) by congruence; subst sp' sg' s'.
  destruct (S5 (conj lmodel_readable eq_refl) (lspace_solvable sp Sv) ltac:(cbn; lia)) as (_ & g & G1 & G2 & _ & G3); pose proof (t_rule s g _ Ha G2 G1) as T; pose proof (t_stable g T) as Sb.
  exists g, (sp_ss sp), sg; split; [exact G1|]; split; [exact Sb|]; split; [exact (G3 Sb)|].
  assert (Nu : forall i, i < 2 -> radd QO (sg i i) (tiny Qc QO) = q 4 1) by (intros i Hi; rewrite Hsg by assumption; rewrite Nat.eqb_refl; apply same_eq; vm_compute; reflexivity).
  split; [|split].
  - exists (s_R g s_all), (s_y g s_all), (s_u g s_all); destruct (s_process g T s_all (nudged Qc QO sg) (or_introl eq_refl)) as (P1 & _ & P3 & P4 & P5).
    { intros i j Hi Hj; unfold nudged, s_all; destruct (Nat.eqb_spec i j) as [->|Ne]; [apply Nu, Hj|rewrite Hsg by assumption; destruct (Nat.eqb_spec i j); [contradiction|reflexivity]]. }
    split; [exact P1|]; split; [exact P3|]; split; [exact P4|]; rewrite P5; apply same_neq; vm_compute; reflexivity.
  - intros i j Hi Hj Ne; rewrite Hsg by assumption; destruct (Nat.eqb_spec i j); [contradiction|reflexivity].
  - exists (fun i => s_R g (s_one i)), (fun i => s_y g (s_one i)), (fun i => s_u g (s_one i)); intros n Hn.
    destruct (s_process g T (s_one n) (alone Qc QO sg n) (or_intror (ex_intro _ n (conj Hn eq_refl)))) as (P1 & P2 & P3 & P4 & _).
    { intros i j Hi Hj; unfold alone, s_one; rewrite (Nu n Hn); destruct (Nat.eqb_spec i j) as [->|Ne]; [destruct (j =? n); reflexivity|].
      destruct (Nat.eqb_spec i n) as [->|]; cbn [andb]; [|reflexivity]; destruct (Nat.eqb_spec j n); [congruence|reflexivity]. }
    split; [exact P1|]; split; [exact P2|]; split; [exact P3|exact P4].
Qed.
(** The means are the steady state: 0, 0 and 1. *)
Example C95_mean_nonvacuous :
  exists m0 st l st' a, p_new s_args = Ok m0 /\ s_run t_ops (m0, blank Qc) = (st, l) /\ all_made Qc l /\ mended Qc l /\ orderly Qc Unsolved l /\ phase_after Qc Unsolved l = Settled /\
    s_step (Ask Mean) st = (st', Ok (Answer a)) /\ lists Qc QO lss a /\ is_steady Qc QO q_ops lendog lstoch lmodel lparams lss.
Proof.
  destruct (s_facts Mean [[[Qmake 0 1; Qmake 0 1; Qmake 1 1]]] ltac:(vm_compute; repeat apply conj; reflexivity)) as (m0 & st & l & st' & a & sp & sg & s & E0 & E1 & Ef & A & E2 & Ht & R1 & R2 & R3 & Sv & Hsg & Ha & Fi).
  destruct (t_made l A) as [Am Me]; destruct (t_phases t_ops l Ef A) as [Ph _]; destruct (Ph eq_refl) as [Or Ph']; clear Ph.
  exists m0, st, l, st', a; split; [exact E0|]; split; [exact E1|]; split; [exact Am|]; split; [exact Me|]; split; [exact Or|]; split; [exact Ph'|]; split; [exact E2|].
  assert (N1 : NoDup (keys (m_params Qc s_def))) by (repeat constructor; cbn; intuition discriminate).
  assert (N2 : NoDup (keys (m_locals Qc s_def))) by constructor.
  destruct q_hypotheses as (H1 & H2 & H3 & H4 & H5 & H6 & H7 & _ & _ & H10 & _).
  destruct (C95_mean_partial Qc QO q_ops qlt same z0 p_minimize qgrad qjacobian xyz_qr rank_all p_qz p_inv xyz2_real qsolve lyapD lsolveD (cholD two_root) (fun x => x) Qcabs q_true (fun _ => true) q_decimal q_trunc p_text false
    Qcinv Qcle no_function squares H1 H2 H3 H4 H5 H7 (qz_with_ok _) (inv_with_ok _) H10 p_minimize_ok
    s_def s_args m0 t_ops st l st' a s_describes N1 N2 E0 E1 Am Me s_distinct Or Ph' E2) as (es & pv & lv & Ep & Sp & Sl & S).
  apply f_params in Sp; apply f_locals in Sl; subst pv lv; cbn in Ep; injection Ep as <-.
  destruct S as (sp' & s' & S1 & S3 & S4).
  change (snd (p_step (Read RSpace) (fst st)) = Ok (OValue (VSpace sp'))) in S1; change (snd (p_step ReadSolution (fst st)) = Ok (OSolution s')) in S3.
  assert (sp' = sp) by congruence; assert (s' = s) by congruence; subst sp' s'.
  destruct (S4 Fi) as [M1 M2]; rewrite (proj2 (f_reference sp Sv)) in M1, M2; split; [exact M1|exact (M2 (conj lmodel_readable eq_refl) (lspace_solvable sp Sv))].
Qed.
