(** Piecewise-linear paths and the equations of the regimes: property C94. *)
From Verif Require Import Base Lexer Syntax Eval EvalSpec FactorySpec Factory Calib CalibSpec CalibProofs Indexing IndexingSpec DynFunc DynSpec DynProofs PropDyn Vars ExprList
  ModelState ModelStateSpec ModelStateProofs ModelStateProofs2 ModelStateProofs3 PropModel Nd NdInst Mat NdProofs SimSpec OrderProofs
  CalcSpec CalcProofs Linearize LinearizeSpec LinearizeProofs Steady SteadyValues SteadyValuesSpec PropSteadyValues
  FirstOrder FirstOrderSpec PropFirst AccuracySpec PropAccuracy SylvesterSpec SecondOrder Pipeline PipelineSpec PipelineProofs PropPipeline
  Occbin OccbinSpec OccbinProofs OccbinProofs2 PropOccbin Constraint ConstraintSpec PropConstraint Piecewise PropPiecewise PiecewiseSim PiecewiseSimSpec PiecewiseSimProofs PiecewiseSimProofs2.
From Coq Require Import ZArith QArith Qcanon.
Local Open Scope string_scope.
Local Open Scope list_scope.
Local Open Scope nat_scope.

Section C94.
  Variable F : Type.
  Variable O : rops F.
  Variable P : ops F.
  Variable ltb eqb : F -> F -> bool.
  Variable nan : F.
  Variable minimize : solver -> (list F -> res F) -> list F -> res (list F).
  Variable grad : (list F -> res F) -> list F -> res (list F).
  Variable jacobian : (list F -> res (list F)) -> list F -> res (list (list F)).
  Variable qr : nat -> nat -> mat F -> res (mat F * mat F).
  Variable rank : nat -> nat -> mat F -> nat.
  Variable ordqz : nat -> mat F -> mat F -> res (schur F).
  Variable inv : nat -> mat F -> res (mat F).
  Variable qz : nat -> mat F -> mat F -> res (mat F * mat F * mat F * mat F).
  Variable solve : nat -> nat -> mat F -> mat F -> res (mat F).
  Variable truthy isnum : F -> bool.
  Variable float_of : text -> option F.
  Variable trunc : F -> option Z.
  Variable parse_text : text -> res (ast F).
  Variable keeps : bool.
  Variable default_locals : store F.
  (** The values in the conditions. *)
  Variable V : Type.
  Variable PV NV : ops V.
  Variable truth : V -> option bool.
  Variable num : F -> V.

  (** The model with its numerical parts. *)
  Notation space := (whole_space F O P ltb nan minimize grad qr rank ordqz).
  Notation solver_ := (whole_solver F O P eqb nan minimize grad jacobian inv qz solve).
  Notation mstate := (ModelState.mstate F (space_of F) (rules F)).
  Notation new_model := (ModelState.new_model F P (r0 O) (r1 O) truthy float_of trunc parse_text (space_of F) (rules F) space).
  Notation copy := (ModelState.copy F P (r0 O) (r1 O) truthy float_of trunc parse_text default_locals (space_of F) (rules F) space).
  Notation step := (ModelState.step F P (r0 O) (r1 O) truthy isnum float_of trunc parse_text keeps (space_of F) (rules F) space solver_).
  Notation run := (ModelState.run F P (r0 O) (r1 O) truthy isnum float_of trunc parse_text keeps (space_of F) (rules F) space solver_).
  Notation regimes := (ModelState.new_regimes F P (r0 O) (r1 O) truthy float_of trunc parse_text default_locals (space_of F) (rules F) space).
  Notation paths := (occbin_paths F O P isnum nan minimize grad inv space solver_ V PV NV truth num (r1 O) truthy float_of trunc parse_text default_locals).
  Notation definition := (ModelState.definition F (space_of F) (rules F)).

  (** What the routines promise, in exact arithmetic. *)
  Variable finv : F -> F.
  Variable le : F -> F -> Prop.
  Variable fns : string -> smooth_fun F.
  Variable pows : F -> smooth_fun F.
  Hypothesis FT : is_field O finv.
  Hypothesis OR : is_ordered O le.
  Hypothesis Hl : forall x y, ltb x y = false <-> le y x.
  Hypothesis Heq : forall x y, eqb x y = true <-> x = y.
  Hypothesis HI : interprets F O le P fns pows.
  Hypothesis Hqr : qr_routine F O qr.
  Hypothesis Hqz : schur_routine F O le ordqz.
  Hypothesis Hinv : inverse_routine F O inv.
  Hypothesis Hs : linear_routine F O solve.
  Hypothesis Hm : forall s m x0 y, minimize s (least_squares F O P m) x0 = Ok y -> least F le (List.length x0) (least_squares F O P m) y.
  Hypothesis Hdef : default_locals = Plain [].
  Hypothesis AG : agree V PV NV.

  (** What is asked of the reference regime, with the state space [sp] that its model shows. *)
  Definition proper_reference (endog stoch : list string) (params : list (string * F)) (exprs : list (ast F)) (sp : space_of F) : Prop :=
    readable endog stoch exprs params /\ List.length exprs = List.length endog /\
    PropPipeline.solvable F O P grad jacobian le fns pows endog stoch params exprs sp /\ states_in_order endog exprs.
  (** What is asked of another regime with its own steady state [own], and the reference's [ref]. *)
  Definition proper_alternative (endog stoch : list string) (params : list (string * F)) (exprs : list (ast F)) (own ref : list F) : Prop :=
    readable endog stoch exprs params /\ comparable F O le P grad jacobian fns pows endog stoch exprs params own ref.
  (** The value of a condition when the deviations are [v]. *)
  Definition condition (endog : list string) (params : list (string * F)) (e : ast V) (v : nat -> F) (b : bool) : Prop :=
    condition_holds V PV truth endog (map (fun p => (fst p, num (snd p))) params) (fun j => num (v j)) e b.
  Definition steady_if_any (endog stoch : list string) (params : list (string * F)) (exprs : list (ast F)) (own : list F) : Prop :=
    readable endog stoch exprs params -> (exists y, is_steady F O P endog stoch exprs params y) -> is_steady F O P endog stoch exprs params own.

  Notation tracks := (ModelStateProofs.tracks F P (r0 O) truthy float_of trunc parse_text).
  Lemma history_facts d a m0 os m l :
    ModelStateSpec.describes F (r1 O) d a -> NoDup (keys (m_params F d)) -> NoDup (keys (m_locals F d)) ->
    new_model a = Ok m0 -> run os m0 = (m, l) -> additions_made F _ _ l -> repaired F _ _ l -> distinct F (effects F (r1 O) os d) ->
    let D := effects F (r1 O) os d in
    ModelStateProofs.current F P (r0 O) isnum (space_of F) (rules F) space m /\ tracks D (definition m) /\ NoDup (keys (m_params F D)) /\
    (unaltered_since_solved l -> PiecewiseSimProofs.settled F O P ltb eqb nan minimize grad jacobian qr rank ordqz inv qz solve m) /\
    map ev_name (d_endog F (definition m)) = map fst (m_endog F D) /\ map sv_name (d_stoch F (definition m)) = map fst (m_stoch F D) /\
    mapM (parse_given F parse_text) (m_exprs F D) = Ok (trees (d_exprs F (definition m))) /\
    exists pv lv, solved F (d_params F (definition m)) = pv /\ model_scope F (definition m) = merge F pv lv /\
      satisfies F P float_of trunc pv (m_params F D) /\ satisfies F P float_of trunc lv (m_locals F D) /\ NoDup (keys pv).
  Proof using.
    intros De N1 N2 Hnew Hr Ha Hrp Di D.
    destruct (start F P (r0 O) (r1 O) truthy isnum float_of trunc parse_text _ _ space d a m0 De (distinct_effects F (r1 O) os d Di) Hnew) as (K0 & C0 & _ & S0).
    pose proof (run_known F P (r0 O) (r1 O) truthy isnum float_of trunc parse_text keeps _ _ space solver_ os d m0 m l K0 Hr Ha) as K.
    pose proof (run_current F P (r0 O) (r1 O) truthy isnum float_of trunc parse_text keeps _ _ space solver_ os m0 m l Hr Ha (or_introl C0) Hrp) as C.
    destruct (effects_params F O os d N1 N2) as [N1' N2'].
    split; [exact C|]; split; [exact K|]; split; [exact N1'|]; split.
    { intros U; exact (history_settled F O P ltb eqb nan minimize grad jacobian qr rank ordqz inv qz solve truthy isnum float_of trunc parse_text keeps os m0 m l C0 S0 Hr Ha Hrp U). }
    split; [apply (tracks_names F P (r0 O) truthy float_of trunc parse_text D _ K)|]; split; [apply (tracks_stoch_names F P (r0 O) truthy float_of trunc parse_text D _ K)|].
    destruct K as (_ & _ & _ & (pv & P1 & P2) & (lv & L1 & L2) & K6); split; [exact K6|].
    exists pv, lv; unfold model_scope; rewrite P1, L1; cbn [solved]; split; [reflexivity|]; split; [reflexivity|].
    pose proof (solve_satisfies F P float_of trunc _ _ N1' P2) as Sp; split; [exact Sp|]; split; [apply (solve_satisfies F P float_of trunc _ _ N2' L2)|].
    exact (satisfies_NoDup F P float_of trunc _ _ N1' Sp).
  Qed.

  (** Full statement: whatever was done to a model before, a piecewise-linear path of it and of an
      alternative satisfies, in each period, the equations of the regime in force to first order
      around the steady state of the reference.  Proved when the model was not altered since it
      was last solved, when the reference is solvable with its states in order (C65), and when
      the alternative's derivatives at the two steady states are the same (C83). *)
  Theorem C94_dictionary_partial :
    forall (d : mdef F) (a : args F) (m0 : mstate) (os : list (op F)) (m : mstate) l (kvs : list (Z * given F)) (c : conditions V) binds relaxes
      ex shocks init periods max_iter restrained rows warns out,
    ModelStateSpec.describes F (r1 O) d a -> NoDup (keys (m_params F d)) -> NoDup (keys (m_locals F d)) ->
    new_model a = Ok m0 -> run os m0 = (m, l) -> additions_made F _ _ l -> repaired F _ _ l -> distinct F (effects F (r1 O) os d) ->
    unaltered_since_solved l ->
    NoDup (map fst kvs) -> (forall k g, In (k, g) kvs -> (0 <= k)%Z) ->
    c = Single V binds relaxes \/ c = Several V [(binds, relaxes)] ->
    paths m (OneRegime kvs) c ex shocks init periods max_iter restrained = Ok (rows, warns, out) ->
    let D := effects F (r1 O) os d in
    let ns := map fst (m_endog F D) in let sv := map fst (m_stoch F D) in
    exists es pv lv es', mapM (parse_given F parse_text) (m_exprs F D) = Ok es /\
      satisfies F P float_of trunc pv (m_params F D) /\ satisfies F P float_of trunc lv (m_locals F D) /\ replaced parse_text kvs es es' /\
      exists R ma m1 sp m2 spa, regimes false (OneRegime kvs) m = Ok R /\ r_models _ _ _ R = [m; ma] /\
        step (Read RSpace) m = (m1, Ok (OValue (VSpace sp))) /\ step (Read RSpace) ma = (m2, Ok (OValue (VSpace spa))) /\ steady_if_any ns sv pv es' (sp_ss spa) /\
        (proper_reference ns sv (merge F pv lv) es sp -> proper_alternative ns sv pv es' (sp_ss spa) (sp_ss sp) ->
         (forall v, (exists b, condition ns pv binds v b) /\ exists b, condition ns pv relaxes v b) ->
         is_steady F O P ns sv es (merge F pv lv) (sp_ss sp) /\
         follows_one F O (holds_linearly F O le P ns sv (merge F pv lv) es (sp_ss sp)) (holds_linearly F O le P ns sv pv es' (sp_ss sp))
           (condition ns pv binds) (condition ns pv relaxes) ex shocks periods (match init with Some v => v | None => fun _ => r0 O end) rows warns).
  Proof.
    intros d a m0 os m l kvs c binds relaxes ex shocks init periods mi rst rows warns out De N1 N2 Hnew Hr Ha Hrp Di U Nk Pk Hc H D ns sv.
    destruct (history_facts d a m0 os m l De N1 N2 Hnew Hr Ha Hrp Di) as (C & K & N1' & St & En & Es & Ep & pv & lv & Epv & Esc & Sp & Sl & Npv).
    unfold occbin_paths in H; apply bind_ok in H as (R & HR & H); cbn zeta in H; apply bind_ok in H as (pl & Hp & H).
    assert (X : exists ma, ModelState.alternative F P (r0 O) (r1 O) truthy float_of trunc parse_text default_locals (space_of F) (rules F) space kvs m = Ok ma /\ r_models _ _ _ R = [m; ma]).
    { clear H; unfold ModelState.new_regimes in HR; destruct kvs; [discriminate HR|]; apply bind_ok in HR as (ma & HR & HR'); injection HR' as <-; exists ma; auto. }
    destruct X as (ma & Hma & Rm); rewrite Rm in Hp, H; unfold plan in Hp; cbn [List.length Nat.leb] in Hp.
    destruct (constraint_len V c =? 1); [injection Hp as <-; cbn [nth_error] in H|discriminate Hp].
    destruct (alternative_parts F O P ltb nan minimize grad qr rank ordqz truthy isnum float_of trunc parse_text default_locals _ m kvs ma Di N1' K Hdef Nk Pk Hma) as (Ca & Ea & Sa & Pa & Rp).
    exists (trees (d_exprs F (definition m))), pv, lv, (trees (d_exprs F (definition ma))); split; [exact Ep|]; split; [exact Sp|]; split; [exact Sl|]; split; [exact Rp|].
    destruct (one_follows F O P ltb eqb nan minimize grad jacobian qr rank ordqz inv qz solve isnum finv le fns pows FT OR Hl Heq HI Hqr Hqz Hinv Hs Hm
      V PV NV truth num m m ma c binds relaxes ex shocks init periods mi rows warns out C (St U) Ca eq_refl Ea Sa H) as (m1 & sp & m2 & spa & R1 & R2 & Sta & G).
    rewrite Ea, Sa, Pa, Epv in Sta; rewrite Ea, Sa, Pa in G; rewrite Epv, Esc in G; rewrite En, Es in Sta, G; fold D ns sv in Sta, G.
    exists R, ma, m1, sp, m2, spa; split; [exact HR|]; split; [exact Rm|]; split; [unfold ModelState.step, ok_with; rewrite R1; reflexivity|]; split; [unfold ModelState.step, ok_with; rewrite R2; reflexivity|]; split; [exact Sta|].
    intros (P1 & P2 & P3 & P4) (A1 & A2) Ev; refine (G P1 P2 P3 P4 A1 _ A2 AG Npv Hc Ev).
    destruct Rp as [-> _]; exact P2.
  Qed.

  (** The same with a list of dictionaries.  The reference is then a copy of the model: it does not
      have the local parameters, and whether the model was solved does not matter. *)
  Theorem C94_list_partial :
    forall (d : mdef F) (a : args F) (m0 : mstate) (os : list (op F)) (m : mstate) l (kvs : list (Z * given F)) others (c : conditions V) binds relaxes
      ex shocks init periods max_iter restrained rows warns out,
    ModelStateSpec.describes F (r1 O) d a -> NoDup (keys (m_params F d)) -> NoDup (keys (m_locals F d)) ->
    new_model a = Ok m0 -> run os m0 = (m, l) -> additions_made F _ _ l -> repaired F _ _ l -> distinct F (effects F (r1 O) os d) ->
    NoDup (map fst kvs) -> (forall k g, In (k, g) kvs -> (0 <= k)%Z) ->
    c = Single V binds relaxes \/ c = Several V [(binds, relaxes)] ->
    paths m (Regimes (kvs :: others)) c ex shocks init periods max_iter restrained = Ok (rows, warns, out) ->
    let D := effects F (r1 O) os d in
    let ns := map fst (m_endog F D) in let sv := map fst (m_stoch F D) in
    exists es pv es', mapM (parse_given F parse_text) (m_exprs F D) = Ok es /\
      satisfies F P float_of trunc pv (m_params F D) /\ replaced parse_text kvs es es' /\
      exists R mr ma rest m1 sp m2 spa, regimes false (Regimes (kvs :: others)) m = Ok R /\ r_models _ _ _ R = mr :: ma :: rest /\ copy m = Ok mr /\
        step (Read RSpace) mr = (m1, Ok (OValue (VSpace sp))) /\ step (Read RSpace) ma = (m2, Ok (OValue (VSpace spa))) /\ steady_if_any ns sv pv es' (sp_ss spa) /\
        (proper_reference ns sv pv es sp -> proper_alternative ns sv pv es' (sp_ss spa) (sp_ss sp) ->
         (forall v, (exists b, condition ns pv binds v b) /\ exists b, condition ns pv relaxes v b) ->
         is_steady F O P ns sv es pv (sp_ss sp) /\
         follows_one F O (holds_linearly F O le P ns sv pv es (sp_ss sp)) (holds_linearly F O le P ns sv pv es' (sp_ss sp))
           (condition ns pv binds) (condition ns pv relaxes) ex shocks periods (match init with Some v => v | None => fun _ => r0 O end) rows warns).
  Proof.
    intros d a m0 os m l kvs others c binds relaxes ex shocks init periods mi rst rows warns out De N1 N2 Hnew Hr Ha Hrp Di Nk Pk Hc H D ns sv.
    destruct (history_facts d a m0 os m l De N1 N2 Hnew Hr Ha Hrp Di) as (C & K & N1' & _ & En & Es & Ep & pv & lv & Epv & Esc & Sp & Sl & Npv).
    unfold occbin_paths in H; apply bind_ok in H as (R & HR & H); cbn zeta in H; apply bind_ok in H as (pl & Hp & H).
    assert (X : exists mr ma rest, copy m = Ok mr /\ ModelState.alternative F P (r0 O) (r1 O) truthy float_of trunc parse_text default_locals (space_of F) (rules F) space kvs m = Ok ma /\ r_models _ _ _ R = mr :: ma :: rest).
    { clear H; unfold ModelState.new_regimes in HR; apply bind_ok in HR as (mr & HR & HR'); apply bind_ok in HR' as (ms & H2 & H3); injection H3 as <-.
      cbn [mapM] in H2; apply bind_ok in H2 as (ma & H2 & H3); apply bind_ok in H3 as (rest & _ & H3); injection H3 as <-; exists mr, ma, rest; auto. }
    destruct X as (mr & ma & rest & Hcp & Hma & Rm); rewrite Rm in Hp, H.
    assert (Hpl : pl = OneAlternative 0 1) by (unfold plan in Hp; cbn [List.length Nat.leb] in Hp; destruct Hc as [->| ->]; cbn in Hp; injection Hp as <-; reflexivity).
    subst pl; cbn [nth_error] in H.
    destruct (copy_parts F O P ltb nan minimize grad qr rank ordqz truthy isnum float_of trunc parse_text default_locals _ m mr Di N1' K Hdef Hcp) as (Cr & Nr & Er & Sr & Xr & Pr & Or).
    destruct (alternative_parts F O P ltb nan minimize grad qr rank ordqz truthy isnum float_of trunc parse_text default_locals _ m kvs ma Di N1' K Hdef Nk Pk Hma) as (Ca & Ea & Sa & Pa & Rp).
    exists (trees (d_exprs F (definition m))), pv, (trees (d_exprs F (definition ma))); split; [exact Ep|]; split; [exact Sp|]; split; [exact Rp|].
    destruct (one_follows F O P ltb eqb nan minimize grad jacobian qr rank ordqz inv qz solve isnum finv le fns pows FT OR Hl Heq HI Hqr Hqz Hinv Hs Hm
      V PV NV truth num m mr ma c binds relaxes ex shocks init periods mi rows warns out Cr (or_introl Nr) Ca (eq_sym Er) (eq_trans Ea (eq_sym Er)) (eq_trans Sa (eq_sym (f_equal _ Sr))) H)
      as (m1 & sp & m2 & spa & R1 & R2 & Sta & G).
    rewrite Ea, Sa, Pa, Epv in Sta; rewrite Ea, Sa, Pa, Er, Sr, Xr, Or, Epv in G; rewrite En, Es in Sta, G; fold D ns sv in Sta, G.
    exists R, mr, ma, rest, m1, sp, m2, spa; split; [exact HR|]; split; [exact Rm|]; split; [exact Hcp|]; split; [unfold ModelState.step, ok_with; rewrite R1; reflexivity|]; split; [unfold ModelState.step, ok_with; rewrite R2; reflexivity|]; split; [exact Sta|].
    intros (P1 & P2 & P3 & P4) (A1 & A2) Ev; refine (G P1 P2 P3 P4 A1 _ A2 AG Npv Hc Ev).
    destruct Rp as [-> _]; exact P2.
  Qed.

  (** Two constraints: three dictionaries, for the first constraint alone, the second alone, and both. *)
  Theorem C94_two_partial :
    forall (d : mdef F) (a : args F) (m0 : mstate) (os : list (op F)) (m : mstate) l (k0 k1 k2 : list (Z * given F)) others binds relaxes binds1 relaxes1
      ex shocks init periods max_iter restrained rows warns out,
    ModelStateSpec.describes F (r1 O) d a -> NoDup (keys (m_params F d)) -> NoDup (keys (m_locals F d)) ->
    new_model a = Ok m0 -> run os m0 = (m, l) -> additions_made F _ _ l -> repaired F _ _ l -> distinct F (effects F (r1 O) os d) ->
    (forall kvs, In kvs [k0; k1; k2] -> NoDup (map fst kvs) /\ forall k g, In (k, g) kvs -> (0 <= k)%Z) ->
    paths m (Regimes (k0 :: k1 :: k2 :: others)) (Several V [(binds, relaxes); (binds1, relaxes1)]) ex shocks init periods max_iter restrained = Ok (rows, warns, out) ->
    let D := effects F (r1 O) os d in
    let ns := map fst (m_endog F D) in let sv := map fst (m_stoch F D) in
    exists es pv e0 e1 e2, mapM (parse_given F parse_text) (m_exprs F D) = Ok es /\
      satisfies F P float_of trunc pv (m_params F D) /\ replaced parse_text k0 es e0 /\ replaced parse_text k1 es e1 /\ replaced parse_text k2 es e2 /\
      exists R mr ma mb md rest m1 sp, regimes false (Regimes (k0 :: k1 :: k2 :: others)) m = Ok R /\ r_models _ _ _ R = mr :: ma :: mb :: md :: rest /\ copy m = Ok mr /\
        step (Read RSpace) mr = (m1, Ok (OValue (VSpace sp))) /\ exists ma' mb' md' sa sb sd, step (Read RSpace) ma = (ma', Ok (OValue (VSpace sa))) /\
        step (Read RSpace) mb = (mb', Ok (OValue (VSpace sb))) /\ step (Read RSpace) md = (md', Ok (OValue (VSpace sd))) /\
        (proper_reference ns sv pv es sp ->
         proper_alternative ns sv pv e0 (sp_ss sa) (sp_ss sp) -> proper_alternative ns sv pv e1 (sp_ss sb) (sp_ss sp) -> proper_alternative ns sv pv e2 (sp_ss sd) (sp_ss sp) ->
         (forall v e, In e [binds; relaxes; binds1; relaxes1] -> exists b, condition ns pv e v b) ->
         is_steady F O P ns sv es pv (sp_ss sp) /\
         let law exprs := holds_linearly F O le P ns sv pv exprs (sp_ss sp) in
         follows_two F O (law es) (law e0) (condition ns pv binds) (condition ns pv relaxes) (law e1) (law e2) (condition ns pv binds1) (condition ns pv relaxes1)
           ex shocks periods (match init with Some v => v | None => fun _ => r0 O end) rows warns).
  Proof.
    intros d a m0 os m l k0 k1 k2 others binds relaxes binds1 relaxes1 ex shocks init periods mi rst rows warns out De N1 N2 Hnew Hr Ha Hrp Di Hk H D ns sv.
    destruct (history_facts d a m0 os m l De N1 N2 Hnew Hr Ha Hrp Di) as (C & K & N1' & _ & En & Es & Ep & pv & lv & Epv & Esc & Sp & Sl & Npv).
    unfold occbin_paths in H; apply bind_ok in H as (R & HR & H); cbn zeta in H; apply bind_ok in H as (pl & Hp & H).
    set (alt := ModelState.alternative F P (r0 O) (r1 O) truthy float_of trunc parse_text default_locals (space_of F) (rules F) space) in *.
    assert (X : exists mr ma mb md rest, copy m = Ok mr /\ alt k0 m = Ok ma /\ alt k1 m = Ok mb /\ alt k2 m = Ok md /\ r_models _ _ _ R = mr :: ma :: mb :: md :: rest).
    { clear H; unfold ModelState.new_regimes in HR; fold alt in HR; apply bind_ok in HR as (mr & HR & HR'); apply bind_ok in HR' as (ms & H2 & H3); injection H3 as <-.
      cbn [mapM] in H2; apply bind_ok in H2 as (ma & H2 & H3); apply bind_ok in H3 as (rest & H3 & H4); injection H4 as <-.
      apply bind_ok in H3 as (mb & H3 & H4); apply bind_ok in H4 as (rest' & H4 & H5); injection H5 as <-.
      apply bind_ok in H4 as (md & H4 & H5); apply bind_ok in H5 as (rest & _ & H6); injection H6 as <-; exists mr, ma, mb, md, rest; auto. }
    destruct X as (mr & ma & mb & md & rest & Hcp & Hma & Hmb & Hmd & Rm); rewrite Rm in Hp, H; unfold plan in Hp; cbn in Hp; injection Hp as <-; cbn [nth_error] in H.
    destruct (copy_parts F O P ltb nan minimize grad qr rank ordqz truthy isnum float_of trunc parse_text default_locals _ m mr Di N1' K Hdef Hcp) as (Cr & Nr & Er & Sr & Xr & Pr & Or).
    assert (AP : forall kvs mm, In kvs [k0; k1; k2] -> alt kvs m = Ok mm -> ModelStateProofs.current F P (r0 O) isnum (space_of F) (rules F) space mm /\
      map ev_name (d_endog F (definition mm)) = map ev_name (d_endog F (definition m)) /\ map sv_name (d_stoch F (definition mm)) = map sv_name (d_stoch F (definition m)) /\
      model_scope F (definition mm) = solved F (d_params F (definition m)) /\ replaced parse_text kvs (trees (d_exprs F (definition m))) (trees (d_exprs F (definition mm)))).
    { intros kvs mm Hi Hmm; destruct (Hk kvs Hi) as [Nk Pk].
      exact (alternative_parts F O P ltb nan minimize grad qr rank ordqz truthy isnum float_of trunc parse_text default_locals _ m kvs mm Di N1' K Hdef Nk Pk Hmm). }
    destruct (AP k0 ma ltac:(cbn; auto) Hma) as (Ca & Ea & Sa & Pa & Ra); destruct (AP k1 mb ltac:(cbn; auto) Hmb) as (Cb & Eb & Sb & Pb & Rb); destruct (AP k2 md ltac:(cbn; auto) Hmd) as (Cd & Ed & Sd & Pd & Rd); clear AP.
    exists (trees (d_exprs F (definition m))), pv, (trees (d_exprs F (definition ma))), (trees (d_exprs F (definition mb))), (trees (d_exprs F (definition md))).
    split; [exact Ep|]; split; [exact Sp|]; split; [exact Ra|]; split; [exact Rb|]; split; [exact Rd|].
    pose proof (f_equal (map (@sv_name F)) Sr) as Sr'.
    destruct (two_follows F O P ltb eqb nan minimize grad jacobian qr rank ordqz inv qz solve isnum finv le fns pows FT OR Hl Heq HI Hqr Hqz Hinv Hs Hm
      V PV NV truth num m mr ma mb md binds relaxes binds1 relaxes1 ex shocks init periods mi rst rows warns out Cr (or_introl Nr) Ca Cb Cd (eq_sym Er)
      (eq_trans Ea (eq_sym Er)) (eq_trans Sa (eq_sym Sr')) (eq_trans Eb (eq_sym Er)) (eq_trans Sb (eq_sym Sr')) (eq_trans Ed (eq_sym Er)) (eq_trans Sd (eq_sym Sr')) H)
      as (m1 & sp & R1 & m0' & m1' & md' & spa & spb & spd & Ra' & Rb' & Rd' & G).
    exists R, mr, ma, mb, md, rest, m1, sp; split; [exact HR|]; split; [exact Rm|]; split; [exact Hcp|]; split; [unfold ModelState.step, ok_with; rewrite R1; reflexivity|].
    exists m0', m1', md', spa, spb, spd; split; [unfold ModelState.step, ok_with; rewrite Ra'; reflexivity|]; split; [unfold ModelState.step, ok_with; rewrite Rb'; reflexivity|]; split; [unfold ModelState.step, ok_with; rewrite Rd'; reflexivity|].
    intros (P1 & P2 & P3 & P4) (A1 & A2) (B1 & B2) (D1 & D2) Ev; cbn beta zeta in G.
    rewrite Ea, Sa, Pa, Eb, Sb, Pb, Ed, Sd, Pd, Er, Sr, Xr, Or, Epv in G; rewrite En, Es in G; fold D ns sv in G.
    refine (G P1 P2 P3 P4 _ AG Npv Ev).
    assert (L : List.length (trees (d_exprs F (definition m))) = List.length ns) by exact P2.
    intros mm s [X|[X|[X|[]]]]; injection X as <- <-.
    - rewrite Ea, Sa, Pa, Epv, En, Es; split; [exact A1|]; split; [destruct Ra as [-> _]; exact L|exact A2].
    - rewrite Eb, Sb, Pb, Epv, En, Es; split; [exact B1|]; split; [destruct Rb as [-> _]; exact L|exact B2].
    - rewrite Ed, Sd, Pd, Epv, En, Es; split; [exact D1|]; split; [destruct Rd as [-> _]; exact L|exact D2].
  Qed.
End C94.
Print Assumptions C94_dictionary_partial.
Print Assumptions C94_list_partial.
Print Assumptions C94_two_partial.

(** ** A concrete case: a floor under z *)
From Verif Require Import SylvesterExample FirstOrderExample PropSecond LinearExample PiecewiseSimExample.
Definition p_qz := qz_with (map (fun r => Factors
  [[r; z0; z0]; [z0; q 3 4; q 5 2]; [z0; z0; q 2 1]] [[z1; z0; z0]; [z0; z1; z0]; [z0; z0; z1]]
  [Fin r z0; Fin (q 3 4) z0; Fin (q 2 1) z0]
  [[z0; q 3 5; q 4 5]; [z1; z0; z0]; [z0; q 4 5; q (-3) 5]] [[z1; z0; z0]; [z0; q 4 5; q (-3) 5]; [z0; q 3 5; q 4 5]]) [q 1 2; q 1 4]).
Definition p_inv := inv_with [[[z1]]; [[z1; z0]; [z0; z1]]; [[z1; z0]; [z0; q 5 4]]; [[z1; z0; z0]; [z0; q (-1) 2; z0]; [z1; q (-1) 2; z1]]].
(** Tries steady states with z = 1, 2 and 0. *)
Definition p_points : list (list Qc) := [lss; [z0; z0; q 2 1]; [z0; z0; z0]].
Definition p_minimize (_ : solver) (g : list Qc -> res Qc) (x0 : list Qc) : res (list Qc) :=
  if negb (List.length x0 =? 3) then Err ValueErr else match find (q_try g) p_points with Some x => Ok x | None => Err ValueErr end.
Lemma p_minimize_ok s m x0 y : p_minimize s (least_squares Qc QO q_ops m) x0 = Ok y -> least Qc Qcle (List.length x0) (least_squares Qc QO q_ops m) y.
Proof.
  unfold p_minimize; destruct (List.length x0 =? 3) eqn:E; cbn [negb]; [|discriminate]; apply Nat.eqb_eq in E; rewrite E.
  destruct (find _ _) as [x|] eqn:Ef; [|discriminate]; intros H; injection H as <-; apply find_some in Ef as [Hx T].
  split; [cbn [p_points In] in Hx; repeat (destruct Hx as [<-|Hx]; [reflexivity|]); destruct Hx|].
  unfold q_try in T; destruct (least_squares Qc QO q_ops m x) as [v|] eqn:Ev; [|discriminate T].
  apply same_eq in T; subst v; exists z0; split; [reflexivity|]; intros z v _ H; unfold least_squares in H.
  destruct (mapM _ _) as [r|]; [|discriminate H]; injection H as <-.
  apply (sum_nonneg Qc QO Qcinv Q_field Qcle Q_ordered); intros i _; apply (sq_nonneg Qc QO Qcinv Q_field Qcle Q_ordered).
Qed.
(** Equations in text are parsed. *)
Definition p_text := parse_equation Qc q_decimal q_trunc z0.
Definition p_space := whole_space Qc QO q_ops qlt z0 p_minimize qgrad xyz_qr rank_all p_qz.
Definition p_solver := whole_solver Qc QO q_ops same z0 p_minimize qgrad qjacobian p_inv xyz2_real qsolve.
Definition p_new := ModelState.new_model Qc q_ops (r0 QO) (r1 QO) q_true q_decimal q_trunc p_text (space_of Qc) (rules Qc) p_space.
Definition p_copy := ModelState.copy Qc q_ops (r0 QO) (r1 QO) q_true q_decimal q_trunc p_text (Plain []) (space_of Qc) (rules Qc) p_space.
Definition p_step := ModelState.step Qc q_ops (r0 QO) (r1 QO) q_true (fun _ => true) q_decimal q_trunc p_text false (space_of Qc) (rules Qc) p_space p_solver.
Definition p_run := ModelState.run Qc q_ops (r0 QO) (r1 QO) q_true (fun _ => true) q_decimal q_trunc p_text false (space_of Qc) (rules Qc) p_space p_solver.

(** Rational numbers and booleans. *)
Inductive qvalue := QN (x : Qc) | QB (b : bool).
Definition qvalue_ops : ops qvalue := Ops qvalue (QN z0) (fun _ => false)
  (fun o x y => match x, y with QN a, QN b => match o_bin q_ops o a b with Ok v => Ok (QN v) | Err e => Err e end | _, _ => Err TypeErr end)
  (fun o x => match x with QN a => match o_un q_ops o a with Ok v => Ok (QN v) | Err e => Err e end | _ => Err TypeErr end)
  (fun o x y => match x, y with
    | QN a, QN b => Ok (QB (match o with CLt => qlt a b | CGt => qlt b a | CLe => negb (qlt b a) | CGe => negb (qlt a b) | CEq => same a b end))
    | _, _ => Err TypeErr end)
  (fun _ _ => Err TypeErr).
Definition qvalue_truth (v : qvalue) : option bool := match v with QN _ => None | QB b => Some b end.
Definition p_paths := occbin_paths Qc QO q_ops (fun _ => true) z0 p_minimize qgrad p_inv p_space p_solver qvalue qvalue_ops qvalue_ops qvalue_truth QN (r1 QO) q_true q_decimal q_trunc p_text (Plain []).

(** A model made with rho = 1/4 and solved; then rho is set to 1/2. *)
Definition f_def : mdef Qc :=
  MDef _ [("x", (None, None, None)); ("y", (None, None, None)); ("z", (Some z1, None, None))]
    [("e", DStoch None (Some z1) None None); ("f", DStoch None (Some z1) None None)] []
    [("rho", DNum (q 1 4)); ("c", DNum z1)] [] (map GTree lmodel).
Definition f_args : args Qc :=
  Args _ lendog lstoch [] (Plain [("rho", DNum (q 1 4)); ("c", DNum z1)]) (Plain []) [] (FromList false (map GTree lmodel)) [("z", z1)] [] [].
Definition f_altered : list (op Qc) := [Solve 1; AddParams [("rho", DNum (q 1 2))]].
Definition f_solved : list (op Qc) := (f_altered ++ [Solve 1; Read RIndexes])%list.
(** In the alternative z is one more: it is in force when z would be below -1, until z is above 0. *)
Definition f_text : string := "z - (x + y + (x*y + c)) = 1;".
Definition f_dict : list (Z * given Qc) := [(2%Z, GText (chars f_text))].
Definition below_floor : ast qvalue := Comp CLt (Var "z") (Num (QN (q (-1) 1))).
Definition above_zero : ast qvalue := Comp CGt (Var "z") (Num (QN z0)).
Definition rows3 (rows : list (vec Qc)) : list (list Qc) := map (fun v => [v 0; v 1; v 2]) rows.

Definition all_same (l l' : list Qc) : bool := (List.length l =? List.length l') && forallb (fun p => same (fst p) (snd p)) (combine l l').
Lemma all_same_eq l l' : all_same l l' = true -> l = l'.
Proof.
  unfold all_same; intros H; apply andb_true_iff in H as [H1 H2]; apply Nat.eqb_eq in H1; revert l' H1 H2.
  induction l as [|x l IH]; intros [|y l'] H1 H2; try discriminate H1; [reflexivity|]; cbn in H2; apply andb_true_iff in H2 as [H2 H3].
  apply same_eq in H2; subst; f_equal; apply IH; [injection H1 as H1; exact H1|exact H3].
Qed.
Definition rows_same (a b : list (list Qc)) : bool := (List.length a =? List.length b) && forallb (fun p => all_same (fst p) (snd p)) (combine a b).
Lemma rows_same_eq a b : rows_same a b = true -> a = b.
Proof.
  unfold rows_same; intros H; apply andb_true_iff in H as [H1 H2]; apply Nat.eqb_eq in H1; revert b H1 H2.
  induction a as [|x a IH]; intros [|y b] H1 H2; try discriminate H1; [reflexivity|]; cbn in H2; apply andb_true_iff in H2 as [H2 H3].
  apply all_same_eq in H2; subst; f_equal; apply IH; [injection H1 as H1; exact H1|exact H3].
Qed.
Definition done {A B} (p : A * res B) : bool := match snd p with Ok _ => true | Err _ => false end.
Definition p_regimes := ModelState.new_regimes Qc q_ops (r0 QO) (r1 QO) q_true q_decimal q_trunc p_text (Plain []) (space_of Qc) (rules Qc) p_space.
Definition shown_space (m : ModelState.mstate Qc (space_of Qc) (rules Qc)) : option (space_of Qc) :=
  match snd (p_step (Read RSpace) m) with Ok (OValue (VSpace sp)) => Some sp | _ => None end.
Definition f_case (os : list (op Qc)) (path : list (list Qc)) : bool :=
  match p_new f_args with
  | Ok m0 => let (m, l) := p_run os m0 in forallb done l &&
      match p_paths m (OneRegime f_dict) (Single qvalue below_floor above_zero) (OneShock 0) (Flat Qc [q (-2) 1]) None (Some 4) 20 false with
      | Ok (rows, [false], _) => rows_same (rows3 rows) path
      | _ => false end &&
      match p_regimes false (OneRegime f_dict) m with
      | Ok R => match r_models _ _ _ R with
          | [_; ma] => match shown_space m, shown_space ma with Some sp, Some spa => lspace sp && all_same (sp_ss spa) [z0; z0; q 2 1] | _, _ => false end
          | _ => false end
      | Err _ => false end
  | Err _ => false end.
Lemma f_describes : ModelStateSpec.describes Qc (r1 QO) f_def f_args.
Proof.
  constructor; try reflexivity.
  - intros x i t h [E|[E|[E|[]]]]; injection E as <- <- <- <-; repeat apply conj; reflexivity.
  - intros x s [E|[E|[]]]; injection E as <- <-; right; split; reflexivity.
  - intros x s [].
  - exists false; reflexivity.
Qed.
Lemma f_params pv : satisfies Qc q_ops q_decimal q_trunc pv [("rho", DNum (q 1 2)); ("c", DNum z1)] -> pv = lparams.
Proof.
  intros [Hk Hv]; destruct pv as [|[a x] [|[b y] [|? ?]]]; try discriminate Hk; injection Hk as -> ->.
  destruct (Hv "rho" _ (or_introl eq_refl)) as (v & e & L & M & E); cbn in L; injection L as <-; inversion M; subst; cbn in E; injection E as <-.
  destruct (Hv "c" _ (or_intror (or_introl eq_refl))) as (v' & e & L & M' & E); cbn in L; injection L as <-; inversion M'; subst; cbn in E; injection E as <-.
  reflexivity.
Qed.
Lemma f_locals lv : satisfies Qc q_ops q_decimal q_trunc lv [] -> lv = [].
Proof. intros [Hk _]; destruct lv; [reflexivity|discriminate Hk]. Qed.
Lemma f_replaced g w es' : parse_given Qc p_text g = Ok (Bin BSub leq3 (Num w)) -> replaced p_text [(2%Z, g)] lmodel es' -> es' = shifted w.
Proof.
  intros Hg (L & H1 & H2); destruct es' as [|a [|b [|c [|? ?]]]]; try discriminate L.
  destruct (H1 2%Z g (or_introl eq_refl)) as (e & He & Hc); rewrite Hg in He; injection He as <-; cbn in Hc; injection Hc as ->.
  pose proof (H2 0 ltac:(cbn; intuition discriminate)) as E0; pose proof (H2 1 ltac:(cbn; intuition discriminate)) as E1; cbn in E0, E1; injection E0 as ->; injection E1 as ->; reflexivity.
Qed.
Lemma f_order : states_in_order lendog lmodel.
Proof.
  intros i j (x & e & Hi & He & Ha) Hn _ (y & e' & Hj & He' & Ha').
  assert (Ei : i = 0).
  { destruct i as [|[|[|[|i]]]]; try discriminate Hi; [reflexivity| |].
    - exfalso; apply Hn; exists "y", leq2; split; [reflexivity|]; split; [right; left; reflexivity|apply P_binl, P_binl; constructor].
    - exfalso; cbn [lmodel In] in He; injection Hi as <-; destruct He as [<-|[<-|[<-|[]]]]; unfold leq1, leq2, leq3 in Ha; invert_tree. }
  subst i; destruct j as [|j]; [|lia]; exfalso; cbn [lmodel In] in He'; injection Hj as <-; destruct He' as [<-|[<-|[<-|[]]]]; unfold leq1, leq2, leq3 in Ha'; invert_tree.
Qed.

Lemma f_conditions v : (exists b, condition Qc qvalue qvalue_ops qvalue_truth QN lendog lparams below_floor v b) /\ exists b, condition Qc qvalue qvalue_ops qvalue_truth QN lendog lparams above_zero v b.
Proof.
  split; eexists; eexists; (split; [eapply EvalSpec.V_comp; [apply EvalSpec.V_var; exists 2; split; reflexivity|apply EvalSpec.V_num|reflexivity]|reflexivity]).
Qed.
Lemma f_reference sp : lspace sp = true -> proper_reference Qc QO q_ops qgrad qjacobian Qcle no_function squares lendog lstoch lparams lmodel sp /\ sp_ss sp = lss.
Proof.
  intros H; split; [split; [exact lmodel_readable|split; [reflexivity|split; [exact (lspace_solvable sp H)|exact f_order]]]|].
  unfold lspace in H; apply andb_true_iff in H as [_ H]; destruct (sp_ss sp) as [|a [|b [|c [|? ?]]]]; try discriminate H.
  do 2 (apply andb_true_iff in H as [H ?]); apply same_eq in H, H0, H1; subst; reflexivity.
Qed.
Lemma f_alternative w z z' : proper_alternative Qc QO q_ops qgrad qjacobian Qcle no_function squares lendog lstoch lparams (shifted w) [z0; z0; z] [z0; z0; z'].
Proof. split; [apply shifted_readable|apply shifted_comparable]. Qed.
Lemma f_facts os path : f_case os path = true -> exists m0 m l rows out R ma m1 sp m2 spa,
  p_new f_args = Ok m0 /\ p_run os m0 = (m, l) /\ (forall o e, ~ In (o, Err e) l) /\
  p_paths m (OneRegime f_dict) (Single qvalue below_floor above_zero) (OneShock 0) (Flat Qc [q (-2) 1]) None (Some 4) 20 false = Ok (rows, [false], out) /\ rows3 rows = path /\
  p_regimes false (OneRegime f_dict) m = Ok R /\ r_models _ _ _ R = [m; ma] /\ p_step (Read RSpace) m = (m1, Ok (OValue (VSpace sp))) /\
  p_step (Read RSpace) ma = (m2, Ok (OValue (VSpace spa))) /\ lspace sp = true /\ sp_ss spa = [z0; z0; q 2 1].
Proof.
  unfold f_case; destruct (p_new f_args) as [m0|] eqn:E0; [|discriminate]; destruct (p_run os m0) as [m l] eqn:E1; intros H.
  apply andb_true_iff in H as [H H3]; apply andb_true_iff in H as [H1 H2].
  destruct (p_paths m _ _ _ _ _ _ _ _) as [[[rows [|[|] [|? ?]]] out]|] eqn:E2; try discriminate H2.
  destruct (p_regimes _ _ m) as [R|] eqn:E3; [|discriminate H3]; destruct (r_models _ _ _ R) as [|mm [|ma [|? ?]]] eqn:E4; try discriminate H3.
  assert (mm = m) by (unfold p_regimes, ModelState.new_regimes in E3; cbn [f_dict] in E3; apply bind_ok in E3 as (mc & _ & E3); injection E3 as <-; cbn in E4; injection E4 as <- _; reflexivity); subst mm.
  unfold shown_space in H3; destruct (p_step (Read RSpace) m) as [m1 [[|[| | |sp|]| |]|]] eqn:E5; cbn [snd] in H3; try discriminate H3.
  destruct (p_step (Read RSpace) ma) as [m2 [[|[| | |spa|]| |]|]] eqn:E6; cbn [snd] in H3; try discriminate H3.
  apply andb_true_iff in H3 as [H3 H4].
  exists m0, m, l, rows, out, R, ma, m1, sp, m2, spa; split; [reflexivity|]; split; [exact E1|].
  split; [intros o e Hi; apply (proj1 (forallb_forall done l) H1) in Hi; discriminate Hi|].
  split; [exact E2|]; split; [apply rows_same_eq, H2|]; split; [exact E3|]; split; [exact E4|]; split; [exact E5|]; split; [exact E6|]; split; [exact H3|apply all_same_eq, H4].
Qed.
Lemma f_distinct os : os = f_solved \/ os = f_altered -> distinct Qc (effects Qc (r1 QO) os f_def).
Proof. intros [->| ->]; repeat apply conj; cbn; [repeat constructor; cbn; intuition discriminate|repeat constructor; cbn; intuition discriminate|intuition discriminate|intuition discriminate| | | |]; repeat constructor; cbn; intuition discriminate. Qed.
Definition f_path : list (list Qc) := [[q (-2) 1; z0; q (-1) 1]; [q (-1) 1; z0; q (-1) 1]; [q (-1) 2; z0; q (-1) 2]; [q (-1) 4; z0; q (-1) 4]].
(** The path of the altered model. *)
Definition f_stale : list (list Qc) := [[q (-2) 1; z0; q (-1) 1]; [q (-1) 2; z0; q (-1) 2]; [q (-1) 8; z0; q (-1) 8]; [q (-1) 32; z0; q (-1) 32]].
Definition ends_solved {A B C} (l : list (op A * res (out A B C))) : bool :=
  match l with [_; _; (Solve _, Ok (OSolution _)); (Read _, _)] => true | _ => false end.
Lemma ends_solved_ok l : @ends_solved Qc (space_of Qc) (rules Qc) l = true -> unaltered_since_solved l.
Proof.
  destruct l as [|a [|b [|[[] [[]|]] [|[[] r] [|? ?]]]]]; try discriminate; intros _.
  eexists [a; b; _], [_]; split; [reflexivity|]; split; [intros o' r' [X|[]]; injection X as <- <-; intros []|right].
  eexists [a; b], _, _; reflexivity.
Qed.

(** The floor is in force in the first period. *)
Example C94_dictionary_nonvacuous :
  ModelStateSpec.describes Qc (r1 QO) f_def f_args /\ NoDup (keys (m_params Qc f_def)) /\ NoDup (keys (m_locals Qc f_def)) /\
  distinct Qc (effects Qc (r1 QO) f_solved f_def) /\ NoDup (map fst f_dict) /\ (forall k g, In (k, g) f_dict -> (0 <= k)%Z) /\ ConstraintSpec.agree qvalue qvalue_ops qvalue_ops /\
  exists m0 m l rows out, p_new f_args = Ok m0 /\ p_run f_solved m0 = (m, l) /\ additions_made Qc _ _ l /\ repaired Qc _ _ l /\ unaltered_since_solved l /\
    p_paths m (OneRegime f_dict) (Single qvalue below_floor above_zero) (OneShock 0) (Flat Qc [q (-2) 1]) None (Some 4) 20 false = Ok (rows, [false], out) /\ rows3 rows = f_path /\
    follows_one Qc QO (holds_linearly Qc QO Qcle q_ops lendog lstoch lparams lmodel lss) (holds_linearly Qc QO Qcle q_ops lendog lstoch lparams (shifted z1) lss)
      (condition Qc qvalue qvalue_ops qvalue_truth QN lendog lparams below_floor) (condition Qc qvalue qvalue_ops qvalue_truth QN lendog lparams above_zero)
      (OneShock 0) (Flat Qc [q (-2) 1]) (Some 4) (fun _ => z0) rows [false].
Proof.
  assert (N1 : NoDup (keys (m_params Qc f_def))) by (repeat constructor; cbn; intuition discriminate).
  assert (N2 : NoDup (keys (m_locals Qc f_def))) by constructor.
  assert (Nk : NoDup (map fst f_dict)) by (repeat constructor; cbn; intuition).
  assert (Pk : forall k g, In (k, g) f_dict -> (0 <= k)%Z) by (intros k g [E|[]]; injection E as <- _; lia).
  assert (AG : ConstraintSpec.agree qvalue qvalue_ops qvalue_ops) by (repeat split; auto).
  pose proof (f_distinct f_solved (or_introl eq_refl)) as Di.
  split; [exact f_describes|]; split; [exact N1|]; split; [exact N2|]; split; [exact Di|]; split; [exact Nk|]; split; [exact Pk|]; split; [exact AG|].
  destruct (f_facts f_solved f_path ltac:(vm_compute; reflexivity)) as (m0 & m & l & rows & out & R & ma & m1 & sp & m2 & spa & E0 & E1 & A & E2 & Hp & E3 & E4 & E5 & E6 & Hsp & Hspa).
  assert (U : unaltered_since_solved l).
  { apply ends_solved_ok; assert (X : match p_new f_args with Ok m0 => ends_solved (snd (p_run f_solved m0)) | Err _ => false end = true) by (vm_compute; reflexivity).
    rewrite E0, E1 in X; exact X. }
  assert (Ha : additions_made Qc _ _ l) by (intros o e H; exfalso; exact (A o e H)).
  assert (Hr : repaired Qc _ _ l) by (intros l1 o e l2 -> ; exfalso; apply (A o e), in_or_app; right; left; reflexivity).
  exists m0, m, l, rows, out; split; [exact E0|]; split; [exact E1|]; split; [exact Ha|]; split; [exact Hr|]; split; [exact U|]; split; [exact E2|]; split; [exact Hp|].
  destruct q_hypotheses as (H1 & H2 & H3 & H4 & H5 & H6 & H7 & _ & _ & H10 & _).
  destruct (C94_dictionary_partial Qc QO q_ops qlt same z0 p_minimize qgrad qjacobian xyz_qr rank_all p_qz p_inv xyz2_real qsolve q_true (fun _ => true) q_decimal q_trunc p_text false (Plain [])
    qvalue qvalue_ops qvalue_ops qvalue_truth QN Qcinv Qcle no_function squares H1 H2 H3 H4 H5 H7 (qz_with_ok _) (inv_with_ok _) H10 p_minimize_ok eq_refl AG
    f_def f_args m0 f_solved m l f_dict (Single qvalue below_floor above_zero) below_floor above_zero (OneShock 0) (Flat Qc [q (-2) 1]) None (Some 4) 20 false rows [false] out
    f_describes N1 N2 E0 E1 Ha Hr Di U Nk Pk (or_introl eq_refl) E2) as (es & pv & lv & es' & Ep & Sp & Sl & Rp & R' & ma' & m1' & sp' & m2' & spa' & R1 & R2 & S1 & S2 & _ & G).
  apply f_params in Sp; apply f_locals in Sl; subst pv lv; cbn in Ep; injection Ep as <-.
  apply (f_replaced _ z1) in Rp; [|vm_compute; reflexivity]; subst es'.
  change (p_regimes false (OneRegime f_dict) m = Ok R') in R1; change (p_step (Read RSpace) m = (m1', Ok (OValue (VSpace sp')))) in S1; change (p_step (Read RSpace) ma' = (m2', Ok (OValue (VSpace spa')))) in S2.
  assert (R' = R) by congruence; subst R'; assert (ma' = ma) by congruence; subst ma'; assert (sp' = sp) by congruence; subst sp'; assert (spa' = spa) by congruence; subst spa'.
  destruct (f_reference sp Hsp) as [Pr Ess]; rewrite Ess, Hspa in G.
  exact (proj2 (G Pr (f_alternative _ _ _) f_conditions)).
Qed.

(** Without the condition on the history this fails: the rule for rho = 1/4 is followed, and in the second
    period neither regime's first equation holds with rho = 1/2. *)
Theorem C94_refuted :
  ModelStateSpec.describes Qc (r1 QO) f_def f_args /\ NoDup (keys (m_params Qc f_def)) /\ NoDup (keys (m_locals Qc f_def)) /\
  distinct Qc (effects Qc (r1 QO) f_altered f_def) /\ NoDup (map fst f_dict) /\ (forall k g, In (k, g) f_dict -> (0 <= k)%Z) /\ ConstraintSpec.agree qvalue qvalue_ops qvalue_ops /\
  exists m0 m l rows out, p_new f_args = Ok m0 /\ p_run f_altered m0 = (m, l) /\ additions_made Qc _ _ l /\ repaired Qc _ _ l /\
    p_paths m (OneRegime f_dict) (Single qvalue below_floor above_zero) (OneShock 0) (Flat Qc [q (-2) 1]) None (Some 4) 20 false = Ok (rows, [false], out) /\ rows3 rows = f_stale /\
    exists R ma m1 sp m2 spa, p_regimes false (OneRegime f_dict) m = Ok R /\ r_models _ _ _ R = [m; ma] /\
      p_step (Read RSpace) m = (m1, Ok (OValue (VSpace sp))) /\ p_step (Read RSpace) ma = (m2, Ok (OValue (VSpace spa))) /\
      proper_reference Qc QO q_ops qgrad qjacobian Qcle no_function squares lendog lstoch lparams lmodel sp /\
      proper_alternative Qc QO q_ops qgrad qjacobian Qcle no_function squares lendog lstoch lparams (shifted z1) (sp_ss spa) (sp_ss sp) /\
      (forall v, (exists b, condition Qc qvalue qvalue_ops qvalue_truth QN lendog lparams below_floor v b) /\ exists b, condition Qc qvalue qvalue_ops qvalue_truth QN lendog lparams above_zero v b) /\
      ~ follows_one Qc QO (holds_linearly Qc QO Qcle q_ops lendog lstoch lparams lmodel (sp_ss sp)) (holds_linearly Qc QO Qcle q_ops lendog lstoch lparams (shifted z1) (sp_ss sp))
          (condition Qc qvalue qvalue_ops qvalue_truth QN lendog lparams below_floor) (condition Qc qvalue qvalue_ops qvalue_truth QN lendog lparams above_zero)
          (OneShock 0) (Flat Qc [q (-2) 1]) (Some 4) (fun _ => z0) rows [false].
Proof.
  split; [exact f_describes|]; split; [repeat constructor; cbn; intuition discriminate|]; split; [constructor|]; split; [exact (f_distinct f_altered (or_intror eq_refl))|].
  split; [repeat constructor; cbn; intuition|]; split; [intros k g [E|[]]; injection E as <- _; lia|]; split; [repeat split; auto|].
  destruct (f_facts f_altered f_stale ltac:(vm_compute; reflexivity)) as (m0 & m & l & rows & out & R & ma & m1 & sp & m2 & spa & E0 & E1 & A & E2 & Hp & E3 & E4 & E5 & E6 & Hsp & Hspa).
  exists m0, m, l, rows, out; split; [exact E0|]; split; [exact E1|]; split; [intros o e H; exfalso; exact (A o e H)|].
  split; [intros l1 o e l2 -> ; exfalso; apply (A o e), in_or_app; right; left; reflexivity|]; split; [exact E2|]; split; [exact Hp|].
  destruct (f_reference sp Hsp) as [Pr Ess]; exists R, ma, m1, sp, m2, spa; split; [exact E3|]; split; [exact E4|]; split; [exact E5|]; split; [exact E6|]; split; [exact Pr|].
  rewrite Ess, Hspa; split; [apply f_alternative|]; split; [exact f_conditions|].
  intros (_ & _ & G); destruct (G 0 ltac:(cbn; lia)) as (hypo & e & g & _ & _ & Lg & _ & _ & Rows & s & _ & W); clear G.
  specialize (Rows eq_refl); change (number_of_periods Qc (Some 4) (Flat Qc [q (-2) 1])) with 4 in *.
  assert (B : exists r a b, near Qc QO Qcle (fun t => equation_value Qc q_ops lendog lstoch lparams
      (level Qc QO lss (fun v => rmul QO t (OccbinSpec.value Qc (OccbinSpec.value Qc (fun _ => z0) rows 0) g 1 v))) (level Qc QO lss (fun v => rmul QO t (OccbinSpec.value Qc (OccbinSpec.value Qc (fun _ => z0) rows 0) g 2 v)))
      (level Qc QO lss (fun v => rmul QO t (OccbinSpec.value Qc (OccbinSpec.value Qc (fun _ => z0) rows 0) g 3 v))) (fun s => rmul QO t (impulse Qc QO e 1 s)) leq1 (r t)) /\ jet1 Qc QO Qcle r a b /\ radd QO a b = r0 QO).
  { specialize (W 1 ltac:(lia)); destruct (in_force _ s 1); unfold holds_linearly, shifted, lmodel in W; inversion W; assumption. }
  clear W; destruct B as (r & a & b & Hn & (z & Vz & J) & B0).
  assert (X1 : OccbinSpec.value Qc (OccbinSpec.value Qc (fun _ => z0) rows 0) g 1 0 = q (-2) 1).
  { pose proof (Rows 0 ltac:(lia)) as X; cbn [Nat.add] in X.
    change (OccbinSpec.value Qc (OccbinSpec.value Qc (fun _ => z0) rows 0) g 1) with (nth 0 g (fun _ : nat => z0)); rewrite <- X.
    destruct rows as [|v rows]; [discriminate Hp|]; cbn [rows3 map f_stale] in Hp; injection Hp as X0 _ _ _; exact X0. }
  assert (X2 : OccbinSpec.value Qc (OccbinSpec.value Qc (fun _ => z0) rows 0) g 2 0 = q (-1) 2).
  { pose proof (Rows 1 ltac:(lia)) as X; cbn [Nat.add] in X.
    change (OccbinSpec.value Qc (OccbinSpec.value Qc (fun _ => z0) rows 0) g 2) with (nth 1 g (fun _ : nat => z0)); rewrite <- X.
    destruct rows as [|v0 [|v rows]]; try discriminate Hp; cbn [rows3 map f_stale] in Hp; injection Hp as _ _ _ X0 _ _ _; exact X0. }
  assert (X : a = z0 /\ b = q 1 2).
  { assert (Et : near Qc QO Qcle (fun t => Qcplus (Qcplus a (Qcmult b t)) (Qcmult (z t) t) = Qcplus (Qcplus z0 (Qcmult (q 1 2) t)) (Qcmult (Qcmult (Qcopp (q 4 1)) t) t))).
    { generalize (near_and Qc QO Qcinv Q_field Qcle Q_ordered _ _ Hn J); apply near_mono; intros t [Et Jt].
      apply leq1_value in Et; cbn [radd rmul QO] in *; rewrite <- Jt, Et; unfold level; rewrite X1, X2; cbn [nth radd rmul QO r0 lss impulse].
      replace (q (-2) 1) with (Qcopp (Qcplus z1 z1)) by (apply Qc_is_canon; vm_compute; reflexivity); replace (q (-1) 2) with (Qcopp (q 1 2)) by (apply Qc_is_canon; vm_compute; reflexivity).
      replace (q 4 1) with (Qcmult (Qcplus z1 z1) (Qcplus z1 z1)) by (apply Qc_is_canon; vm_compute; reflexivity); generalize (q 1 2); intros h; unfold z0, z1; ring. }
    split; [|exact (slope_is a b z0 (q 1 2) z (Qcopp (q 4 1)) Vz Et)].
    destruct Et as (dd & Pd & Et); specialize (Et z0 (within_zero Qc QO Qcinv Q_field Qcle Q_ordered dd (proj1 Pd))).
    replace a with (Qcplus (Qcplus a (Qcmult b z0)) (Qcmult (z z0) z0)) by (unfold z0; ring); rewrite Et; apply Qc_is_canon; vm_compute; reflexivity. }
  destruct X as [-> ->]; vm_compute in B0; discriminate B0.
Qed.
Print Assumptions C94_refuted.

(** With a cap above: in the second alternative z is one less.  The same altered model; with a list of
    dictionaries it is copied, and the copy solved. *)
Definition g_dict (w : Qc) : list (Z * given Qc) := [(2%Z, GTree (Bin BSub leq3 (Num w)))].
Definition above_cap : ast qvalue := Comp CGt (Var "z") (Num (QN z1)).
Definition below_zero : ast qvalue := Comp CLt (Var "z") (Num (QN z0)).
Definition g_dicts : list (list (Z * given Qc)) := [g_dict z1; g_dict (q (-1) 1); g_dict z0].
Definition g_conditions : conditions qvalue := Several qvalue [(below_floor, above_zero); (above_cap, below_zero)].
Definition g_shocks : shock_array Qc := Flat Qc [q (-2) 1; q 4 1].
Definition g_case (ds : list (list (Z * given Qc))) (c : conditions qvalue) (sh : shock_array Qc) (n : nat) (path : list (list Qc)) (own : list (list Qc)) : bool :=
  match p_new f_args with
  | Ok m0 => let (m, l) := p_run f_altered m0 in forallb done l &&
      match p_paths m (Regimes ds) c (OneShock 0) sh None (Some n) 20 false with
      | Ok (rows, warns, _) => forallb negb warns && (List.length warns =? List.length (shock_rows Qc sh)) && rows_same (rows3 rows) path
      | _ => false end &&
      match p_regimes false (Regimes ds) m with
      | Ok R => match r_models _ _ _ R with
          | mr :: ms => match shown_space mr with Some sp => lspace sp | None => false end &&
              rows_same (map (fun ma => match shown_space ma with Some sp => sp_ss sp | None => [] end) ms) own
          | _ => false end
      | Err _ => false end
  | Err _ => false end.
Definition g_path : list (list Qc) := [[q (-2) 1; z0; q (-1) 1]; [q 3 1; z0; q 2 1]; [q 3 2; z0; q 1 2]; [q 3 4; z0; q 3 4]; [q 3 8; z0; q 3 8]].
Lemma shown_space_is m sp : shown_space m = Some sp -> exists m', p_step (Read RSpace) m = (m', Ok (OValue (VSpace sp))).
Proof.
  unfold shown_space; destruct (p_step (Read RSpace) m) as [m1 [[|[| | |sp'|]| |]|]]; cbn [snd]; try discriminate; intros H; injection H as ->; exists m1; reflexivity.
Qed.
Lemma g_facts ds c sh n path own : g_case ds c sh n path own = true -> exists m0 m l rows warns out R mr ms m1 sp,
  p_new f_args = Ok m0 /\ p_run f_altered m0 = (m, l) /\ (forall o e, ~ In (o, Err e) l) /\
  p_paths m (Regimes ds) c (OneShock 0) sh None (Some n) 20 false = Ok (rows, warns, out) /\ forallb negb warns = true /\ rows3 rows = path /\
  p_regimes false (Regimes ds) m = Ok R /\ r_models _ _ _ R = mr :: ms /\ p_step (Read RSpace) mr = (m1, Ok (OValue (VSpace sp))) /\ lspace sp = true /\
  map (fun ma => match shown_space ma with Some sp => sp_ss sp | None => [] end) ms = own.
Proof.
  unfold g_case; destruct (p_new f_args) as [m0|] eqn:E0; [|discriminate]; destruct (p_run f_altered m0) as [m l] eqn:E1; intros H.
  apply andb_true_iff in H as [H H3]; apply andb_true_iff in H as [H1 H2].
  destruct (p_paths m _ _ _ _ _ _ _ _) as [[[rows warns] out]|] eqn:E2; try discriminate H2; apply andb_true_iff in H2 as [H2 H4]; apply andb_true_iff in H2 as [H2 _].
  destruct (p_regimes _ _ m) as [R|] eqn:E3; [|discriminate H3]; destruct (r_models _ _ _ R) as [|mr ms] eqn:E4; try discriminate H3.
  apply andb_true_iff in H3 as [H3 H5]; destruct (shown_space mr) as [sp|] eqn:E5; [|discriminate H3]; destruct (shown_space_is mr sp E5) as (m1 & E6).
  exists m0, m, l, rows, warns, out, R, mr, ms, m1, sp; split; [reflexivity|]; split; [exact E1|].
  split; [intros o e Hi; apply (proj1 (forallb_forall done l) H1) in Hi; discriminate Hi|].
  split; [exact E2|]; split; [exact H2|]; split; [apply rows_same_eq, H4|]; split; [exact E3|]; split; [exact E4|]; split; [exact E6|]; split; [exact H3|apply rows_same_eq, H5].
Qed.
Lemma g_evaluable v e : In e [below_floor; above_zero; above_cap; below_zero] -> exists b, condition Qc qvalue qvalue_ops qvalue_truth QN lendog lparams e v b.
Proof.
  intros [<-|[<-|[<-|[<-|[]]]]]; eexists; eexists; (split; [eapply EvalSpec.V_comp; [apply EvalSpec.V_var; exists 2; split; reflexivity|apply EvalSpec.V_num|reflexivity]|reflexivity]).
Qed.
Definition f_law (exprs : list (ast Qc)) := holds_linearly Qc QO Qcle q_ops lendog lstoch lparams exprs lss.
Definition f_condition := condition Qc qvalue qvalue_ops qvalue_truth QN lendog lparams.

Example C94_list_nonvacuous :
  exists m0 m l rows warns out, p_new f_args = Ok m0 /\ p_run f_altered m0 = (m, l) /\ additions_made Qc _ _ l /\ repaired Qc _ _ l /\
    p_paths m (Regimes [g_dict z1]) (Several qvalue [(below_floor, above_zero)]) (OneShock 0) (Flat Qc [q (-2) 1]) None (Some 4) 20 false = Ok (rows, warns, out) /\
    forallb negb warns = true /\ rows3 rows = f_path /\
    follows_one Qc QO (f_law lmodel) (f_law (shifted z1)) (f_condition below_floor) (f_condition above_zero) (OneShock 0) (Flat Qc [q (-2) 1]) (Some 4) (fun _ => z0) rows warns.
Proof.
  assert (N1 : NoDup (keys (m_params Qc f_def))) by (repeat constructor; cbn; intuition discriminate).
  assert (N2 : NoDup (keys (m_locals Qc f_def))) by constructor.
  assert (Nk : NoDup (map fst (g_dict z1))) by (repeat constructor; cbn; intuition).
  assert (Pk : forall k g, In (k, g) (g_dict z1) -> (0 <= k)%Z) by (intros k g [E|[]]; injection E as <- _; lia).
  assert (AG : ConstraintSpec.agree qvalue qvalue_ops qvalue_ops) by (repeat split; auto).
  pose proof (f_distinct f_altered (or_intror eq_refl)) as Di.
  destruct (g_facts [g_dict z1] (Several qvalue [(below_floor, above_zero)]) (Flat Qc [q (-2) 1]) 4 f_path [[z0; z0; q 2 1]] ltac:(vm_compute; reflexivity))
    as (m0 & m & l & rows & warns & out & R & mr & ms & m1 & sp & E0 & E1 & A & E2 & Hw & Hp & E3 & E4 & E5 & Hsp & Hown).
  assert (Ha : additions_made Qc _ _ l) by (intros o e H; exfalso; exact (A o e H)).
  assert (Hr : repaired Qc _ _ l) by (intros l1 o e l2 -> ; exfalso; apply (A o e), in_or_app; right; left; reflexivity).
  exists m0, m, l, rows, warns, out; split; [exact E0|]; split; [exact E1|]; split; [exact Ha|]; split; [exact Hr|]; split; [exact E2|]; split; [exact Hw|]; split; [exact Hp|].
  destruct q_hypotheses as (H1 & H2 & H3 & H4 & H5 & H6 & H7 & _ & _ & H10 & _).
  destruct (C94_list_partial Qc QO q_ops qlt same z0 p_minimize qgrad qjacobian xyz_qr rank_all p_qz p_inv xyz2_real qsolve q_true (fun _ => true) q_decimal q_trunc p_text false (Plain [])
    qvalue qvalue_ops qvalue_ops qvalue_truth QN Qcinv Qcle no_function squares H1 H2 H3 H4 H5 H7 (qz_with_ok _) (inv_with_ok _) H10 p_minimize_ok eq_refl AG
    f_def f_args m0 f_altered m l (g_dict z1) [] (Several qvalue [(below_floor, above_zero)]) below_floor above_zero (OneShock 0) (Flat Qc [q (-2) 1]) None (Some 4) 20 false rows warns out
    f_describes N1 N2 E0 E1 Ha Hr Di Nk Pk (or_intror eq_refl) E2) as (es & pv & es' & Ep & Sp & Rp & R' & mr' & ma & rest & m1' & sp' & m2 & spa & R1 & R2 & _ & S1 & S2 & _ & G).
  apply f_params in Sp; subst pv; cbn in Ep; injection Ep as <-; apply (f_replaced _ z1) in Rp; [|reflexivity]; subst es'.
  change (p_regimes false (Regimes [g_dict z1]) m = Ok R') in R1; change (p_step (Read RSpace) mr' = (m1', Ok (OValue (VSpace sp')))) in S1; change (p_step (Read RSpace) ma = (m2, Ok (OValue (VSpace spa)))) in S2.
  assert (R' = R) by congruence; subst R'; rewrite R2 in E4; injection E4 as -> <-; assert (sp' = sp) by congruence; subst sp'.
  cbn [map] in Hown; injection Hown as Ho _; unfold shown_space in Ho; rewrite S2 in Ho; cbn [snd] in Ho.
  destruct (f_reference sp Hsp) as [Pr Ess]; rewrite Ess, Ho in G.
  exact (proj2 (G Pr (f_alternative _ _ _) f_conditions)).
Qed.

(** The floor holds in the first period, the cap in the second and third. *)
Example C94_two_nonvacuous :
  exists m0 m l rows warns out, p_new f_args = Ok m0 /\ p_run f_altered m0 = (m, l) /\ additions_made Qc _ _ l /\ repaired Qc _ _ l /\
    p_paths m (Regimes g_dicts) g_conditions (OneShock 0) g_shocks None (Some 5) 20 false = Ok (rows, warns, out) /\ forallb negb warns = true /\ rows3 rows = g_path /\
    follows_two Qc QO (f_law lmodel) (f_law (shifted z1)) (f_condition below_floor) (f_condition above_zero)
      (f_law (shifted (q (-1) 1))) (f_law (shifted z0)) (f_condition above_cap) (f_condition below_zero) (OneShock 0) g_shocks (Some 5) (fun _ => z0) rows warns.
Proof.
  assert (N1 : NoDup (keys (m_params Qc f_def))) by (repeat constructor; cbn; intuition discriminate).
  assert (N2 : NoDup (keys (m_locals Qc f_def))) by constructor.
  assert (Kk : forall kvs, In kvs g_dicts -> NoDup (map fst kvs) /\ forall k g, In (k, g) kvs -> (0 <= k)%Z).
  { intros kvs [<-|[<-|[<-|[]]]]; (split; [repeat constructor; cbn; intuition|intros k g [E|[]]; injection E as <- _; lia]). }
  assert (AG : ConstraintSpec.agree qvalue qvalue_ops qvalue_ops) by (repeat split; auto).
  pose proof (f_distinct f_altered (or_intror eq_refl)) as Di.
  destruct (g_facts g_dicts g_conditions g_shocks 5 g_path [[z0; z0; q 2 1]; [z0; z0; z0]; [z0; z0; z1]] ltac:(vm_compute; reflexivity))
    as (m0 & m & l & rows & warns & out & R & mr & ms & m1 & sp & E0 & E1 & A & E2 & Hw & Hp & E3 & E4 & E5 & Hsp & Hown).
  assert (Ha : additions_made Qc _ _ l) by (intros o e H; exfalso; exact (A o e H)).
  assert (Hr : repaired Qc _ _ l) by (intros l1 o e l2 -> ; exfalso; apply (A o e), in_or_app; right; left; reflexivity).
  exists m0, m, l, rows, warns, out; split; [exact E0|]; split; [exact E1|]; split; [exact Ha|]; split; [exact Hr|]; split; [exact E2|]; split; [exact Hw|]; split; [exact Hp|].
  destruct q_hypotheses as (H1 & H2 & H3 & H4 & H5 & H6 & H7 & _ & _ & H10 & _).
  destruct (C94_two_partial Qc QO q_ops qlt same z0 p_minimize qgrad qjacobian xyz_qr rank_all p_qz p_inv xyz2_real qsolve q_true (fun _ => true) q_decimal q_trunc p_text false (Plain [])
    qvalue qvalue_ops qvalue_ops qvalue_truth QN Qcinv Qcle no_function squares H1 H2 H3 H4 H5 H7 (qz_with_ok _) (inv_with_ok _) H10 p_minimize_ok eq_refl AG
    f_def f_args m0 f_altered m l (g_dict z1) (g_dict (q (-1) 1)) (g_dict z0) [] below_floor above_zero above_cap below_zero (OneShock 0) g_shocks None (Some 5) 20 false rows warns out
    f_describes N1 N2 E0 E1 Ha Hr Di Kk E2) as (es & pv & e0 & e1 & e2 & Ep & Sp & Rp0 & Rp1 & Rp2 & R' & mr' & ma & mb & md & rest & m1' & sp' & R1 & R2 & _ & S1 & ma' & mb' & md' & sa & sb & sd & Sa & Sb & Sd & G).
  apply f_params in Sp; subst pv; cbn in Ep; injection Ep as <-.
  apply (f_replaced _ z1) in Rp0; [|reflexivity]; apply (f_replaced _ (q (-1) 1)) in Rp1; [|reflexivity]; apply (f_replaced _ z0) in Rp2; [|reflexivity]; subst e0 e1 e2.
  change (p_regimes false (Regimes g_dicts) m = Ok R') in R1; change (p_step (Read RSpace) mr' = (m1', Ok (OValue (VSpace sp')))) in S1.
  change (p_step (Read RSpace) ma = (ma', Ok (OValue (VSpace sa)))) in Sa; change (p_step (Read RSpace) mb = (mb', Ok (OValue (VSpace sb)))) in Sb; change (p_step (Read RSpace) md = (md', Ok (OValue (VSpace sd)))) in Sd.
  assert (R' = R) by congruence; subst R'; rewrite R2 in E4; injection E4 as -> <-; assert (sp' = sp) by congruence; subst sp'.
  cbn [map] in Hown; injection Hown as Ho0 Ho1 Ho2 _; unfold shown_space in Ho0, Ho1, Ho2; rewrite Sa in Ho0; rewrite Sb in Ho1; rewrite Sd in Ho2; cbn [snd] in Ho0, Ho1, Ho2.
  destruct (f_reference sp Hsp) as [Pr Ess]; rewrite Ess, Ho0, Ho1, Ho2 in G.
  exact (proj2 (G Pr (f_alternative _ _ _) (f_alternative _ _ _) (f_alternative _ _ _) g_evaluable)).
Qed.
