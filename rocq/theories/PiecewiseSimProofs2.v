(** From models in any state to piecewise-linear paths of their equations. *)
From Verif Require Import Base Lexer Syntax Eval EvalSpec FactorySpec Factory Calib CalibSpec CalibProofs Indexing IndexingSpec DynFunc DynSpec DynProofs PropDyn Vars ExprList
  ModelState ModelStateSpec ModelStateProofs ModelStateProofs2 ModelStateProofs3 PropModel Nd Mat NdProofs SimSpec OrderProofs
  CalcSpec CalcProofs Linearize LinearizeSpec LinearizeProofs Steady SteadyValues SteadyValuesSpec PropSteadyValues
  FirstOrder FirstOrderSpec PropFirst AccuracySpec PropAccuracy SylvesterSpec SecondOrder Pipeline PipelineSpec PipelineProofs PropPipeline
  Occbin OccbinSpec OccbinProofs OccbinProofs2 PropOccbin Constraint ConstraintSpec PropConstraint Piecewise PropPiecewise PiecewiseSim PiecewiseSimSpec PiecewiseSimProofs.
From Coq Require Import ZArith.
Local Open Scope nat_scope.
Local Open Scope list_scope.

Section Sides.
  Variable F : Type.
  Variable O : rops F.
  Variable P : ops F.
  Variable ltb eqb : F -> F -> bool.
  Variable nan : F.
  Variable minimize : solver -> (list F -> res F) -> list F -> res (list F).
  Variable grad : (list F -> res F) -> list F -> res (list F).
  Variable jacobian : (list F -> res (list F)) -> list F -> res (list (list F)).
  Variable qr : nat -> nat -> mat F -> res (mat F * mat F).
  Variable rank : nat -> nat -> mat F -> nat.
  Variable ordqz : nat -> mat F -> mat F -> res (schur F).
  Variable inv : nat -> mat F -> res (mat F).
  Variable qz : nat -> mat F -> mat F -> res (mat F * mat F * mat F * mat F).
  Variable solve : nat -> nat -> mat F -> mat F -> res (mat F).
  Variable truthy isnum : F -> bool.
  Variable float_of : text -> option F.
  Variable trunc : F -> option Z.
  Variable parse_text : text -> res (ast F).
  Variable keeps : bool.
  Variable default_locals : store F.
  Notation space := (whole_space F O P ltb nan minimize grad qr rank ordqz).
  Notation solver_ := (whole_solver F O P eqb nan minimize grad jacobian inv qz solve).
  Notation mstate := (ModelState.mstate F (space_of F) (rules F)).
  Notation definition := (ModelState.definition F (space_of F) (rules F)).
  Notation derived := (ModelState.derived F (space_of F) (rules F)).
  Notation altered := (ModelState.altered F (space_of F) (rules F)).
  Notation current := (ModelStateProofs.current F P (r0 O) isnum (space_of F) (rules F) space).
  Notation tracks := (ModelStateProofs.tracks F P (r0 O) truthy float_of trunc parse_text).
  Notation similar := (ModelStateProofs.similar F).
  Notation fresh_of := (ModelStateProofs.fresh_of F (space_of F) space).
  Notation settled := (PiecewiseSimProofs.settled F O P ltb eqb nan minimize grad jacobian qr rank ordqz inv qz solve).
  Notation read_space := (ModelState.read F P (r0 O) isnum _ _ space RSpace).
  Notation step := (ModelState.step F P (r0 O) (r1 O) truthy isnum float_of trunc parse_text keeps (space_of F) (rules F) space solver_).
  Notation run := (ModelState.run F P (r0 O) (r1 O) truthy isnum float_of trunc parse_text keeps (space_of F) (rules F) space solver_).
  Notation copy := (ModelState.copy F P (r0 O) (r1 O) truthy float_of trunc parse_text default_locals (space_of F) (rules F) space).
  Notation alternative := (ModelState.alternative F P (r0 O) (r1 O) truthy float_of trunc parse_text default_locals (space_of F) (rules F) space).
  Notation ns m := (map ev_name (d_endog F (definition m))).
  Notation sv m := (map sv_name (d_stoch F (definition m))).
  Notation sc m := (model_scope F (definition m)).
  Notation es m := (trees (d_exprs F (definition m))).

  (** ** Copies *)
  Lemma copy_parts d m mc : distinct F d -> NoDup (keys (m_params F d)) -> tracks d (definition m) -> default_locals = Plain [] ->
    copy m = Ok mc -> current mc /\ ModelState.solution _ _ _ mc = None /\ ns mc = ns m /\ d_stoch F (definition mc) = d_stoch F (definition m) /\
      d_exprs F (definition mc) = d_exprs F (definition m) /\ solved F (d_params F (definition mc)) = solved F (d_params F (definition m)) /\
      sc mc = solved F (d_params F (definition m)).
  Proof using.
    intros N NP T Hd Hc; rewrite (copy_eq F P (r0 O) (r1 O) truthy float_of trunc parse_text default_locals _ _ space d m N NP T) in Hc.
    rewrite Hd in Hc; apply bind_ok in Hc as (lc & Hlc & Hc); cbn zeta in Hc.
    change (new_calibration F P float_of trunc (Plain [])) with (Ok (Cal (Plain (@nil (string * pdef F))) (@nil (string * F)))) in Hlc; injection Hlc as <-.
    apply bind_ok in Hc as (lls & Hl & Hc); apply bind_ok in Hc as (st & Hst & Hc); apply bind_ok in Hc as (x & Hx & Hc); apply bind_ok in Hc as (dy & Hdy & Hc); apply bind_ok in Hc as (sp & Hsp & Hc).
    injection Hc as <-; cbn [ModelState.definition ModelState.solution d_stoch d_exprs d_params solved].
    pose proof (lls_names F _ _ _ Hl) as Hn; destruct (with_ll_names F (d_endog F (definition m)) lls Hn) as (E1 & E2 & _).
    split; [right; split; [reflexivity|]; split; [reflexivity|]|].
    - unfold ModelStateProofs.consistent; cbn [ModelState.derived ModelState.definition c_index c_steady c_dynamic c_space c_sigma d_stoch]; split; [|discriminate].
      unfold ModelStateProofs.fresh_of, model_scope; cbn [d_endog d_stoch d_exprs d_params d_locals solved]; rewrite E1, E2; exists lls; auto.
    - split; [reflexivity|]; split; [cbn [d_endog]; exact E1|]; repeat (split; [reflexivity|]); reflexivity.
  Qed.

  Lemma alternative_parts d m kvs ma : distinct F d -> NoDup (keys (m_params F d)) -> tracks d (definition m) -> default_locals = Plain [] ->
    NoDup (map fst kvs) -> (forall k g, In (k, g) kvs -> (0 <= k)%Z) ->
    alternative kvs m = Ok ma -> current ma /\ ns ma = ns m /\ sv ma = sv m /\ sc ma = solved F (d_params F (definition m)) /\
      replaced parse_text kvs (es m) (es ma).
  Proof using.
    intros N NP T Hd Nk Pk Hc; unfold ModelState.alternative in Hc; apply bind_ok in Hc as (mc & Hm & Hc); cbn zeta in Hc; apply bind_ok in Hc as (x & Hx & Hc); injection Hc as <-.
    destruct (copy_parts d m mc N NP T Hd Hm) as (_ & _ & E1 & E2 & E3 & E4 & E5).
    destruct (replace_spec F parse_text kvs _ _ Hx Nk Pk) as (L & R1 & R2); rewrite E3 in L, R2.
    split; [left; reflexivity|]; unfold alter, model_scope in *; cbn [ModelState.definition d_endog d_stoch d_params d_locals d_exprs].
    split; [exact E1|]; split; [rewrite E2; reflexivity|]; split; [exact E5|]; split; auto.
  Qed.

  (** ** Histories after which the solution is that of the present equations *)
  Lemma keep_settled m m' : similar (definition m) (definition m') -> ModelState.solution _ _ _ m' = ModelState.solution _ _ _ m -> settled m -> settled m'.
  Proof using.
    intros Si E [S|(s & x & st & dy & sp & s1 & S & Fr & So & Ep)]; [left; congruence|right; exists s, x, st, dy, sp, s1].
    split; [congruence|]; split; [apply (fresh_similar F _ space _ _ _ _ _ _ Si), Fr|]; split; [|exact Ep].
    rewrite (proj2 (similar_names F _ _ Si)); exact So.
  Qed.
  Lemma ensure_settled b m m' r : ensure F P (r0 O) isnum _ _ space b m = (m', r) -> settled m -> settled m'.
  Proof using.
    unfold ensure; destruct b; [|intros H; injection H as <- _; auto].
    intros H S; destruct (update_spec F P (r0 O) isnum _ _ space _ _ _ H) as (_ & So & Si & _).
    apply (keep_settled m m'); [destruct Si as [[_ Si]|(_ & _ & Si)]; exact Si|exact So|exact S].
  Qed.
  Lemma step_settled o m m' v : ~ addition F o -> current m -> settled m -> step o m = (m', Ok v) -> settled m'.
  Proof using.
    intros Na C S H; destruct o as [| | | | |r|o| |o]; try (exfalso; apply Na; exact I); unfold ModelState.step, ok_with in H.
    - unfold ModelState.read in H; destruct (ensure _ _ _ _ _ _ _ _ m) as [m1 [u|e]] eqn:E; cbn [fst snd bind] in H; [|discriminate H].
      injection H as <- _; exact (ensure_settled _ _ _ _ E S).
    - destruct (ModelState.solve F P (r0 O) isnum _ _ space solver_ o m) as [m1 [s|e]] eqn:E; cbn [fst snd bind] in H; [|discriminate H]; injection H as <- _.
      exact (solve_settled F O P ltb eqb isnum nan minimize grad jacobian qr rank ordqz inv qz solve truthy float_of trunc parse_text o m m1 s C E).
    - unfold ModelState.read_solution in H; destruct (ModelState.solution _ _ _ m) as [s|] eqn:E; cbn [fst snd bind] in H; [injection H as <- _; exact S|].
      destruct (ModelState.solve F P (r0 O) isnum _ _ space solver_ 2 m) as [m1 [s|e]] eqn:E1; cbn [fst snd bind] in H; [|discriminate H]; injection H as <- _.
      exact (solve_settled F O P ltb eqb isnum nan minimize grad jacobian qr rank ordqz inv qz solve truthy float_of trunc parse_text 2 m m1 s C E1).
    - destruct (ModelState.simulate F P (r0 O) isnum _ _ space solver_ o m) as [m1 [s|e]] eqn:E; cbn [fst snd bind] in H; [|discriminate H]; injection H as <- _.
      unfold ModelState.simulate in E.
      match type of E with (match ?a with _ => _ end) = _ => destruct a as [m2 [s2|e2]] eqn:E2; [|discriminate E] end.
      assert (S2 : settled m2).
      { pose proof (fun k q q' => solve_settled F O P ltb eqb isnum nan minimize grad jacobian qr rank ordqz inv qz solve truthy float_of trunc parse_text k m q q' C) as X.
        destruct (o =? 0); [|exact (X _ _ _ E2)]; destruct (ModelState.solution _ _ _ m) eqn:E3; [injection E2 as <- _; exact S|exact (X _ _ _ E2)]. }
      destruct (ModelState.update F P (r0 O) isnum _ _ space m2) as [m3 [u|e3]] eqn:E3; [|discriminate E]; injection E as <- _.
      exact (ensure_settled true m2 m3 _ E3 S2).
  Qed.

  Lemma run_split l0 o r : forall os m m', run os m = (m', l0 ++ [(o, r)]) -> exists os0 m1, os = os0 ++ [o] /\ run os0 m = (m1, l0) /\ step o m1 = (m', r).
  Proof using.
    induction l0 as [|p l0 IH]; intros [|o' os] m m' H; cbn [ModelState.run app] in H; try discriminate H.
    - destruct (step o' m) as [m1 r1] eqn:E; destruct (run os m1) as [m2 l] eqn:E2; injection H as H1 H2 H3 H4; subst.
      destruct os as [|o2 os]; [|cbn [ModelState.run] in E2; destruct (step o2 m1), (run os _); discriminate E2].
      cbn [ModelState.run] in E2; injection E2 as <-; exists [], m; auto.
    - destruct (step o' m) as [m1 r1] eqn:E; destruct (run os m1) as [m2 l] eqn:E2; injection H as H1 H2 H3; subst.
      destruct (IH _ _ _ E2) as (os0 & m3 & -> & H1 & H2); exists (o' :: os0), m3; split; [reflexivity|]; split; [|exact H2].
      cbn [ModelState.run]; rewrite E, H1; reflexivity.
  Qed.
  Lemma step_unsolved o m m' v : (addition F o \/ exists what, o = Read what) -> step o m = (m', v) -> ModelState.solution _ _ _ m' = ModelState.solution _ _ _ m.
  Proof using.
    intros Ho H; destruct o as [ns i t h|ps|gs|ns sh|ns sh|what|o| |o]; try (destruct Ho as [[]|(? & Ho)]; discriminate Ho); unfold ModelState.step, ok_with in H; injection H as <- _.
    - reflexivity.
    - unfold add_params; destruct (set_params F P float_of trunc ps _) as [k [u|e]]; reflexivity.
    - unfold add_exprs; destruct (extend F parse_text gs _) as [k [u|e]]; reflexivity.
    - unfold add_stoch; destruct (create_stoch F (r1 O) ns sh); reflexivity.
    - unfold add_determ; destruct (create_determ F (r1 O) ns sh); reflexivity.
    - unfold ModelState.read, ensure; destruct (match what with RSigma => _ | _ => _ end); [|reflexivity].
      destruct (ModelState.update F P (r0 O) isnum _ _ space m) as [m1 [u|e]] eqn:E; cbn [fst]; apply (update_solution F P (r0 O) isnum _ _ space _ _ _ E).
  Qed.
  Lemma run_unsolved os : forall m m' l, run os m = (m', l) -> (forall o r, In (o, r) l -> addition F o \/ exists what, o = Read what) ->
    ModelState.solution _ _ _ m' = ModelState.solution _ _ _ m.
  Proof using.
    induction os as [|o os IH]; intros m m' l H Hl0; cbn [ModelState.run] in H; [injection H as <- _; reflexivity|].
    destruct (step o m) as [m1 r] eqn:E; destruct (run os m1) as [m2 l2] eqn:E2; injection H as <- <-.
    rewrite (IH _ _ _ E2) by (intros o' r' Hi; apply (Hl0 o' r'); right; exact Hi); apply (step_unsolved o m m1 r); [apply (Hl0 o r); left; reflexivity|exact E].
  Qed.

  Lemma history_settled os m0 m l : current m0 -> ModelState.solution _ _ _ m0 = None -> run os m0 = (m, l) ->
    additions_made F _ _ l -> repaired F _ _ l -> unaltered_since_solved l -> settled m.
  Proof using.
    intros C0 S0 Hr Ha Hp (l0 & l1 & -> & Na & Hl0).
    revert os m Hr Ha Hp Na; induction l1 as [|[o r] l1 IH] using rev_ind; intros os m Hr Ha Hp Na.
    - rewrite app_nil_r in *; destruct Hl0 as [Hl0|(l2 & o & s & ->)].
      + left; rewrite (run_unsolved os m0 m l0 Hr Hl0); exact S0.
      + apply run_split in Hr as (os0 & m1 & -> & Hr & Hs).
        assert (A2 : additions_made F _ _ l2) by (intros o1 e1 H1; apply (Ha o1 e1), in_or_app; left; exact H1).
        assert (P2 : repaired F _ _ l2).
        { intros a o1 e1 b E; destruct (Hp a o1 e1 (b ++ [(Solve o, Ok (OSolution s))])) as (o' & r' & Hi & Hadd); [rewrite E, <- app_assoc; reflexivity|].
          apply in_app_or in Hi as [Hi|[Hi|[]]]; [exists o', r'; auto|injection Hi as <- _; destruct Hadd]. }
        pose proof (run_current F P (r0 O) (r1 O) truthy isnum float_of trunc parse_text keeps _ _ space solver_ os0 m0 m1 l2 Hr A2 (or_introl C0) P2) as C1.
        unfold ModelState.step, ok_with in Hs; destruct (ModelState.solve F P (r0 O) isnum _ _ space solver_ o m1) as [m2 [s2|e]] eqn:E; cbn [fst snd bind] in Hs; [|discriminate Hs]; injection Hs as <- _.
        exact (solve_settled F O P ltb eqb isnum nan minimize grad jacobian qr rank ordqz inv qz solve truthy float_of trunc parse_text o m1 m2 s2 C1 E).
    - rewrite app_assoc in Hr, Ha, Hp; apply run_split in Hr as (os0 & m1 & -> & Hr & Hs).
      assert (No : ~ addition F o) by (apply (Na o r), in_or_app; right; left; reflexivity).
      destruct r as [v|e]; [|exfalso; destruct (Hp (l0 ++ l1) o e [] eq_refl) as (o' & r' & [] & _)].
      assert (A2 : additions_made F _ _ (l0 ++ l1)) by (intros o1 e1 H1; apply (Ha o1 e1), in_or_app; left; exact H1).
      assert (P2 : repaired F _ _ (l0 ++ l1)).
      { intros a o1 e1 b E; destruct (Hp a o1 e1 (b ++ [(o, Ok v)])) as (o' & r' & Hi & Hadd); [rewrite E, <- app_assoc; reflexivity|].
        apply in_app_or in Hi as [Hi|[Hi|[]]]; [exists o', r'; auto|injection Hi as <- _; contradiction]. }
      pose proof (run_current F P (r0 O) (r1 O) truthy isnum float_of trunc parse_text keeps _ _ space solver_ os0 m0 m1 _ Hr A2 (or_introl C0) P2) as C1.
      apply (step_settled o m1 m v No C1); [|exact Hs].
      apply (IH os0 m1 Hr A2 P2); intros o1 r1 H1; apply (Na o1 r1), in_or_app; left; exact H1.
  Qed.
End Sides.

Section Follows.
  Variable F : Type.
  Variable O : rops F.
  Variable P : ops F.
  Variable ltb eqb : F -> F -> bool.
  Variable nan : F.
  Variable minimize : solver -> (list F -> res F) -> list F -> res (list F).
  Variable grad : (list F -> res F) -> list F -> res (list F).
  Variable jacobian : (list F -> res (list F)) -> list F -> res (list (list F)).
  Variable qr : nat -> nat -> mat F -> res (mat F * mat F).
  Variable rank : nat -> nat -> mat F -> nat.
  Variable ordqz : nat -> mat F -> mat F -> res (schur F).
  Variable inv : nat -> mat F -> res (mat F).
  Variable qz : nat -> mat F -> mat F -> res (mat F * mat F * mat F * mat F).
  Variable solve : nat -> nat -> mat F -> mat F -> res (mat F).
  Variable isnum : F -> bool.
  Notation space := (whole_space F O P ltb nan minimize grad qr rank ordqz).
  Notation solver_ := (whole_solver F O P eqb nan minimize grad jacobian inv qz solve).
  Notation mstate := (ModelState.mstate F (space_of F) (rules F)).
  Notation definition := (ModelState.definition F (space_of F) (rules F)).
  Notation current := (ModelStateProofs.current F P (r0 O) isnum (space_of F) (rules F) space).
  Notation settled := (PiecewiseSimProofs.settled F O P ltb eqb nan minimize grad jacobian qr rank ordqz inv qz solve).
  Notation read_space := (ModelState.read F P (r0 O) isnum _ _ space RSpace).
  Notation ns m := (map ev_name (d_endog F (definition m))).
  Notation sv m := (map sv_name (d_stoch F (definition m))).
  Notation sc m := (model_scope F (definition m)).
  Notation es m := (trees (d_exprs F (definition m))).
  Variable finv : F -> F.
  Variable le : F -> F -> Prop.
  Variable fns : string -> smooth_fun F.
  Variable pows : F -> smooth_fun F.
  Hypothesis FT : is_field O finv.
  Hypothesis OR : is_ordered O le.
  Hypothesis Hl : forall x y, ltb x y = false <-> le y x.
  Hypothesis Heq : forall x y, eqb x y = true <-> x = y.
  Hypothesis HI : interprets F O le P fns pows.
  Hypothesis Hqr : qr_routine F O qr.
  Hypothesis Hqz : schur_routine F O le ordqz.
  Hypothesis Hinv : inverse_routine F O inv.
  Hypothesis Hs : linear_routine F O solve.
  Hypothesis Hm : forall s m x0 y, minimize s (least_squares F O P m) x0 = Ok y -> least F le (List.length x0) (least_squares F O P m) y.
  Notation solvable := (PropPipeline.solvable F O P grad jacobian le fns pows).
  Notation comparable := (PiecewiseSimSpec.comparable F O le P grad jacobian fns pows).
  Notation law := (holds_linearly F O le P).

  Lemma ref_side mr m1 g r : current mr -> settled mr -> rules_of F O P isnum space solver_ mr = (m1, Ok g) -> reference F O P isnum nan minimize grad space m1 = Ok r ->
    exists m' sp, read_space mr = (m', Ok (VSpace sp)) /\ snd r = sp_ss sp /\
      (readable (ns mr) (sv mr) (es mr) (sc mr) -> List.length (es mr) = List.length (ns mr) -> solvable (ns mr) (sv mr) (sc mr) (es mr) sp -> states_in_order (ns mr) (es mr) ->
       is_steady F O P (ns mr) (sv mr) (es mr) (sc mr) (sp_ss sp) /\
       n_endog (g_index F (fst r)) = List.length (ns mr) /\
       exists q, partition F O (g_index F (fst r)) (g_jac F (fst r)) (fun _ => r0 O) = Ok q /\
         (forall gyd k gud, rule_matrix F O (g_index F (fst r)) (fst g) = Ok gyd -> shock_matrix F (g_index F (fst r)) (snd g) = Ok (k, gud) ->
           k = List.length (sv mr) /\ OccbinSpec.solves F O (List.length (ns mr)) k q gyd gud) /\
         forall before now after u, OccbinSpec.equations F O (List.length (ns mr)) (List.length (sv mr)) q before now after u ->
           law (ns mr) (sv mr) (sc mr) (es mr) (sp_ss sp) before now after u).
  Proof using FT OR Hl Heq HI Hqr Hqz Hinv Hs Hm.
    intros C S H R.
    destruct (reference_parts F O P ltb eqb isnum nan minimize grad jacobian qr rank ordqz inv qz solve mr m1 g r C S H R) as (m' & x & st & dy & sp & s1 & Rd & Fr & So & Ep & ->).
    exists m', sp; split; [exact Rd|]; split; [reflexivity|]; intros Re Sq (Hd & Hex & Sm & Rt) Od; cbn [fst snd g_index g_jac].
    unfold ModelStateProofs.fresh_of in Fr.
    assert (St : is_steady F O P (ns mr) (sv mr) (es mr) (sc mr) (sp_ss sp)).
    { eapply (steady_found F O P ltb eqb nan minimize grad qr rank ordqz finv le FT OR Heq Hm); [exact Fr|apply endog_length|exact Re|exact Hex]. }
    destruct (reference_solved F O P ltb eqb nan minimize grad jacobian qr rank ordqz inv qz solve finv le fns pows FT OR Hl HI Hqr Hqz Hinv Hs
      _ _ _ _ _ _ _ _ _ _ Fr So Re Sq Hd St Sm Rt Od) as (En & gy & gu & q & -> & Eq & Sol & Hw).
    cbn [rule_parts] in Ep; subst g; cbn [fst snd]; split; [exact St|]; split; [exact En|].
    exists q; split; [exact Eq|]; rewrite map_length; split; [exact Sol|exact Hw].
  Qed.

  Lemma alt_side ref ma a : current ma -> other_regime F O P isnum nan minimize grad space ref ma = Ok a ->
    exists m' sp, read_space ma = (m', Ok (VSpace sp)) /\
      (readable (ns ma) (sv ma) (es ma) (sc ma) -> (exists y, is_steady F O P (ns ma) (sv ma) (es ma) (sc ma) y) -> is_steady F O P (ns ma) (sv ma) (es ma) (sc ma) (sp_ss sp)) /\
      (readable (ns ma) (sv ma) (es ma) (sc ma) -> List.length (es ma) = List.length (ns ma) -> List.length ref = List.length (ns ma) ->
       comparable (ns ma) (sv ma) (es ma) (sc ma) (sp_ss sp) ref ->
       exists q, partition F O (g_index F a) (g_jac F a) (g_resid F a) = Ok q /\
         forall before now after u, OccbinSpec.equations F O (List.length (ns ma)) (List.length (sv ma)) q before now after u ->
           law (ns ma) (sv ma) (sc ma) (es ma) ref before now after u).
  Proof using FT OR Heq HI Hm.
    intros C H; destruct (other_parts F O P ltb isnum nan minimize grad qr rank ordqz ref ma a C H) as (m' & x & st & dy & sp & Rd & Fr & Rg).
    exists m', sp; split; [exact Rd|]; unfold ModelStateProofs.fresh_of in Fr; split.
    - intros Re Hex; eapply (steady_found F O P ltb eqb nan minimize grad qr rank ordqz finv le FT OR Heq Hm); [exact Fr|apply endog_length|exact Re|exact Hex].
    - intros Re Sq Lr Cm; destruct (fresh_built F O P ltb nan minimize grad qr rank ordqz _ _ _ _ _ _ _ _ _ Fr) as (B & _).
      destruct (regime_holds F O P grad jacobian finv le fns pows FT OR HI _ _ _ _ dy _ ref a Re Sq Lr Cm B Rg) as (q & Eq & _ & Hw); exists q; auto.
  Qed.

  Variable V : Type.
  Variable PV NV : ops V.
  Variable truth : V -> option bool.
  Variable num : F -> V.
  Notation numbers l := (map (fun p => (fst p, num (snd p))) l).
  Notation holds endog params := (fun e v => condition_holds V PV truth endog params (fun j => num (v j)) e).
  Notation values m c := (condition_values F V PV NV truth num m c).

  Lemma numbers_keys (l : list (string * F)) : keys (numbers l) = keys l.
  Proof using. unfold keys; rewrite map_map; reflexivity. Qed.
  Lemma all_inverted n : inverts F O n inv.
  Proof using Hinv. intros A B H i j Hi Hj; apply (proj1 (Hinv n A B H i j Hi Hj)). Qed.
  Lemma field_is_ring : is_ring O.
  Proof using FT. exact (F_R FT). Qed.

  Lemma effective_in_force (r a : system F) hypo s u : effective (fun u => if nth u hypo false then a else r) a r s u = if in_force (fun u => nth u hypo false) s u then a else r.
  Proof using. unfold effective, in_force; destruct (S u <? s); [reflexivity|destruct (S u =? s); reflexivity]. Qed.

  Lemma one_follows m mr ma c binds relaxes ex shocks init periods mi rows warns out :
    current mr -> settled mr -> current ma -> ns m = ns mr -> ns ma = ns mr -> sv ma = sv mr ->
    models_one F O P isnum nan minimize grad inv space solver_ mr ma (values m c) ex shocks init periods mi = Ok (rows, warns, out) ->
    exists m1 sp m2 spa, read_space mr = (m1, Ok (VSpace sp)) /\ read_space ma = (m2, Ok (VSpace spa)) /\
      (readable (ns ma) (sv ma) (es ma) (sc ma) -> (exists y, is_steady F O P (ns ma) (sv ma) (es ma) (sc ma) y) -> is_steady F O P (ns ma) (sv ma) (es ma) (sc ma) (sp_ss spa)) /\
      (readable (ns mr) (sv mr) (es mr) (sc mr) -> List.length (es mr) = List.length (ns mr) -> solvable (ns mr) (sv mr) (sc mr) (es mr) sp -> states_in_order (ns mr) (es mr) ->
       readable (ns ma) (sv ma) (es ma) (sc ma) -> List.length (es ma) = List.length (ns ma) -> comparable (ns ma) (sv ma) (es ma) (sc ma) (sp_ss spa) (sp_ss sp) ->
       agree V PV NV -> NoDup (keys (solved F (d_params F (definition m)))) ->
       c = Single V binds relaxes \/ c = Several V [(binds, relaxes)] ->
       (forall v, (exists b, holds (ns m) (numbers (solved F (d_params F (definition m)))) binds v b) /\ exists b, holds (ns m) (numbers (solved F (d_params F (definition m)))) relaxes v b) ->
       is_steady F O P (ns mr) (sv mr) (es mr) (sc mr) (sp_ss sp) /\
       follows_one F O (law (ns mr) (sv mr) (sc mr) (es mr) (sp_ss sp)) (law (ns ma) (sv ma) (sc ma) (es ma) (sp_ss sp))
         (holds (ns m) (numbers (solved F (d_params F (definition m)))) binds) (holds (ns m) (numbers (solved F (d_params F (definition m)))) relaxes)
         ex shocks periods (match init with Some v => v | None => fun _ => r0 O end) rows warns).
  Proof using FT OR Hl Heq HI Hqr Hqz Hinv Hs Hm.
    intros C S Ca Em Ea Es H; unfold models_one in H; apply bind_ok in H as (u & _ & H).
    destruct (rules_of F O P isnum space solver_ mr) as [m1 g0] eqn:Er; apply bind_ok in H as (g & -> & H).
    apply bind_ok in H as (r & Rf & H); apply bind_ok in H as (a & Ra & H).
    destruct (ref_side mr m1 g r C S Er Rf) as (m' & sp & Rd & Ess & Ref); rewrite Ess in Ra.
    destruct (alt_side (sp_ss sp) ma a Ca Ra) as (m2 & spa & Rd2 & Sta & Alt).
    exists m', sp, m2, spa; split; [exact Rd|]; split; [exact Rd2|]; split; [exact Sta|].
    intros Re Sq Sv Od Rea Sqa Cm AG Np Hc Ev; destruct (Ref Re Sq Sv Od) as (St & En & q & Eq & Sol & Hw); split; [exact St|].
    destruct (Alt Rea Sqa ltac:(rewrite Ea; apply St) Cm) as (qa & Eqa & Hwa); rewrite Ea, Es in Hwa; rewrite Ea, Es.
    pose proof H as H'; unfold occbin_one in H'; apply bind_ok in H' as (u1 & _ & H'); cbn zeta in H'.
    apply bind_ok in H' as (gyd & Ey & H'); apply bind_ok in H' as ([k gud] & Eu & _).
    destruct (Sol gyd k gud Ey Eu) as [Ek So]; rewrite <- En in So.
    unfold condition_values in H; cbn zeta in H.
    assert (Ln : List.length (d_endog F (definition m)) = n_endog (g_index F (fst r))) by (rewrite En, <- Em, map_length; reflexivity).
    rewrite Ln in H; change (fun g0 : list (vec F) => call_constraint V PV NV truth c (ns m) (n_endog (g_index F (fst r))) (numbers (solved F (d_params F (definition m)))) (map (fun (v : vec F) (j : nat) => num (v j)) g0))
      with (fun g0 : list (vec F) => call_constraint V PV NV truth c (ns m) (n_endog (g_index F (fst r))) (numbers (solved F (d_params F (definition m)))) (as_rows num g0)) in H.
    assert (Ne : NoDup (ns m)) by (rewrite Em; destruct Re as (Nd & _); apply NoDup_front in Nd; exact Nd).
    assert (Ln' : List.length (ns m) = n_endog (g_index F (fst r))) by (rewrite map_length; exact Ln).
    assert (Np' : NoDup (keys (numbers (solved F (d_params F (definition m)))))) by (rewrite numbers_keys; exact Np).
    destruct (C82_one_constraint F O inv (fst r) a (fst g) (snd g) V PV NV truth num (ns m) _ binds relaxes c ex shocks init periods mi q qa k gyd gud rows warns out
      field_is_ring (all_inverted _) Ey Eu Eq Eqa So AG Ne Ln' Np' Hc Ev H) as (L1 & L2 & L3).
    split; [exact L1|]; split; [exact L2|]; intros t Ht; destruct (L3 t Ht) as (hypo & e & gp & X1 & X2 & X3 & X4 & X5 & X6 & s & X7 & X8).
    exists hypo, e, gp; split; [exact X1|]; split; [exact X2|]; split; [exact X3|]; split; [exact X4|]; split; [exact X5|]; split; [exact X6|].
    exists s; split; [exact X7|]; intros v Hv; specialize (X8 v Hv); rewrite effective_in_force, En, Ek in X8.
    destruct (in_force _ s v); [apply Hwa; exact X8|apply Hw; exact X8].
  Qed.

  Lemma two_follows m mr m0 m1 md binds relaxes binds1 relaxes1 ex shocks init periods mi rs rows warns out :
    current mr -> settled mr -> current m0 -> current m1 -> current md -> ns m = ns mr ->
    ns m0 = ns mr -> sv m0 = sv mr -> ns m1 = ns mr -> sv m1 = sv mr -> ns md = ns mr -> sv md = sv mr ->
    models_two F O P isnum nan minimize grad inv space solver_ mr m0 m1 md (values m (Several V [(binds, relaxes); (binds1, relaxes1)])) ex shocks init periods mi rs = Ok (rows, warns, out) ->
    exists mr' sp, read_space mr = (mr', Ok (VSpace sp)) /\ exists m0' m1' md' sp0 sp1 spd,
      read_space m0 = (m0', Ok (VSpace sp0)) /\ read_space m1 = (m1', Ok (VSpace sp1)) /\ read_space md = (md', Ok (VSpace spd)) /\
      (readable (ns mr) (sv mr) (es mr) (sc mr) -> List.length (es mr) = List.length (ns mr) -> solvable (ns mr) (sv mr) (sc mr) (es mr) sp -> states_in_order (ns mr) (es mr) ->
       (forall ma spa, In (ma, spa) [(m0, sp0); (m1, sp1); (md, spd)] ->
         readable (ns ma) (sv ma) (es ma) (sc ma) /\ List.length (es ma) = List.length (ns ma) /\ comparable (ns ma) (sv ma) (es ma) (sc ma) (sp_ss spa) (sp_ss sp)) ->
       agree V PV NV -> NoDup (keys (solved F (d_params F (definition m)))) ->
       (forall v e, In e [binds; relaxes; binds1; relaxes1] -> exists b, holds (ns m) (numbers (solved F (d_params F (definition m)))) e v b) ->
       is_steady F O P (ns mr) (sv mr) (es mr) (sc mr) (sp_ss sp) /\
       let law ma := law (ns ma) (sv ma) (sc ma) (es ma) (sp_ss sp) in
       let holds := holds (ns m) (numbers (solved F (d_params F (definition m)))) in
       follows_two F O (law mr) (law m0) (holds binds) (holds relaxes) (law m1) (law md) (holds binds1) (holds relaxes1)
         ex shocks periods (match init with Some v => v | None => fun _ => r0 O end) rows warns).
  Proof using FT OR Hl Heq HI Hqr Hqz Hinv Hs Hm.
    intros C Se C0 C1 Cd Em En0 Es0 En1 Es1 End_ Esd H; unfold models_two in H; apply bind_ok in H as (? & _ & H); apply bind_ok in H as (? & _ & H); apply bind_ok in H as (? & _ & H).
    destruct (rules_of F O P isnum space solver_ mr) as [mr1 g0] eqn:Er; apply bind_ok in H as (g & -> & H).
    apply bind_ok in H as (r & Rf & H); apply bind_ok in H as (a0 & Ra0 & H); apply bind_ok in H as (a1 & Ra1 & H); apply bind_ok in H as (d & Rdd & H).
    destruct (ref_side mr mr1 g r C Se Er Rf) as (m' & sp & Rd & Ess & Ref); rewrite Ess in Ra0, Ra1, Rdd.
    destruct (alt_side (sp_ss sp) m0 a0 C0 Ra0) as (m0' & sp0 & Rd0 & _ & Alt0).
    destruct (alt_side (sp_ss sp) m1 a1 C1 Ra1) as (m1' & sp1 & Rd1 & _ & Alt1).
    destruct (alt_side (sp_ss sp) md d Cd Rdd) as (md' & spd & Rdd' & _ & Altd).
    exists m', sp; split; [exact Rd|]; exists m0', m1', md', sp0, sp1, spd; split; [exact Rd0|]; split; [exact Rd1|]; split; [exact Rdd'|].
    intros Re Sq Sv Od Al AG Np Ev; destruct (Ref Re Sq Sv Od) as (St & En & q & Eq & Sol & Hw); split; [exact St|].
    destruct (Al m0 sp0 ltac:(cbn; auto)) as (Re0 & Sq0 & Cm0); destruct (Al m1 sp1 ltac:(cbn; auto)) as (Re1 & Sq1 & Cm1); destruct (Al md spd ltac:(cbn; auto)) as (Red & Sqd & Cmd); clear Al.
    destruct (Alt0 Re0 Sq0 ltac:(rewrite En0; apply St) Cm0) as (q0 & Eq0 & Hw0); destruct (Alt1 Re1 Sq1 ltac:(rewrite En1; apply St) Cm1) as (q1 & Eq1 & Hw1); destruct (Altd Red Sqd ltac:(rewrite End_; apply St) Cmd) as (qd & Eqd & Hwd).
    cbn beta zeta; rewrite En0, Es0 in Hw0; rewrite En1, Es1 in Hw1; rewrite End_, Esd in Hwd; rewrite ?En0, ?Es0, ?En1, ?Es1, ?End_, ?Esd.
    pose proof H as H'; unfold occbin_two in H'; apply bind_ok in H' as (u1 & _ & H'); cbn zeta in H'.
    apply bind_ok in H' as (gyd & Ey & H'); apply bind_ok in H' as ([k gud] & Eu & _).
    destruct (Sol gyd k gud Ey Eu) as [Ek So]; rewrite <- En in So.
    unfold condition_values in H; cbn zeta in H.
    assert (Ln : List.length (d_endog F (definition m)) = n_endog (g_index F (fst r))) by (rewrite En, <- Em, map_length; reflexivity).
    rewrite Ln in H.
    assert (Ne : NoDup (ns m)) by (rewrite Em; destruct Re as (Nd & _); apply NoDup_front in Nd; exact Nd).
    assert (Ln' : List.length (ns m) = n_endog (g_index F (fst r))) by (rewrite map_length; exact Ln).
    assert (Np' : NoDup (keys (numbers (solved F (d_params F (definition m)))))) by (rewrite numbers_keys; exact Np).
    destruct (C82_two_constraints F O inv (fst r) a0 a1 d (fst g) (snd g) V PV NV truth num (ns m) _ binds relaxes binds1 relaxes1 ex shocks init periods mi rs q q0 q1 qd k gyd gud rows warns out
      field_is_ring (all_inverted _) Ey Eu Eq Eq0 Eq1 Eqd So AG Ne Ln' Np' Ev H) as (L1 & L2 & L3).
    split; [exact L1|]; split; [exact L2|]; intros t Ht; destruct (L3 t Ht) as (hypo & e & gp & X1 & X2 & X3 & X4 & X5 & X6 & _ & s0 & s1 & X7 & X7' & X8).
    exists hypo, e, gp; split; [exact X1|]; split; [exact X2|]; split; [exact X3|]; split; [exact X4|]; split; [exact X5|]; split; [exact X6|].
    exists s0, s1; split; [exact X7|]; split; [exact X7'|]; cbn zeta in X8 |- *; intros v Hv; specialize (X8 v Hv); unfold effective in X8; rewrite En, Ek in X8; revert X8.
    destruct (S v <? Nat.max s0 s1); [|destruct (S v =? Nat.max s0 s1)].
    - destruct (nth v hypo (false, false)) as [[] []]; unfold PropOccbin.regime_of, regime_when; intros X8; first [apply Hwd; exact X8|apply Hw0; exact X8|apply Hw1; exact X8|apply Hw; exact X8].
    - destruct (nth (Nat.max s0 s1 - 1) hypo (false, false)) as [[] []]; unfold before_last2, regime_before; intros X8; first [apply Hwd; exact X8|apply Hw0; exact X8|apply Hw1; exact X8|apply Hw; exact X8].
    - intros X8; apply Hw; exact X8.
  Qed.
End Follows.
