(** The state space of a solved model after histories of operations: property C103. *)
From Verif Require Import Base Syntax Lexer Parser Eval EvalSpec Semantics Factory FactorySpec Calib CalibSpec CalibProofs Indexing IndexingSpec DynFunc DynSpec Vars ExprList
  ModelState ModelStateSpec ModelStateProofs ModelStateProofs2 PropModel OutlineSpec PropDyn
  Nd NdInst Mat NdProofs SimSpec OrderProofs CalcSpec CalcProofs CalcProofs2 CalcProofs3 Linearize LinearizeSpec LinearizeProofs Steady SteadyValues SteadyValuesSpec PropSteadyValues
  FirstOrder FirstOrderSpec PropFirst Sylvester SylvesterSpec SecondOrder SecondOrderSpec PropSecond AccuracySpec PropAccuracy FirstOrderExample Gauss SylvesterExample LinearExample
  Pipeline PipelineSpec PipelineProofs PropPipeline Sim SimProofs3 PathSim PathSimSpec PathSimProofs PropPathSim
  Moments MomentsSpec MomentsProofs MomentsProofs2 MomentsProofs3 MomentsProofs4 MomentsExample PropMoments StatsState StatsStateSpec StatsStateProofs StatsStateProofs2 PropStatsState
  StatsSharesSpec StatsSharesProofs StableSpec PathStable StatsVerified PropVerified PropStatsShares StateSpaceSpec.
From Coq Require Import ZArith QArith Qcanon.
Local Open Scope string_scope.
Local Open Scope list_scope.
Local Open Scope nat_scope.

Section C103.
  Notation named := OutlineSpec.named.
  Variable F : Type.
  Variable O : rops F.
  Variable P : ops F.
  Variable ltb eqb : F -> F -> bool.
  Variable nan : F.
  Variable minimize : solver -> (list F -> res F) -> list F -> res (list F).
  Variable grad : (list F -> res F) -> list F -> res (list F).
  Variable jacobian : (list F -> res (list F)) -> list F -> res (list (list F)).
  Variable qr : nat -> nat -> mat F -> res (mat F * mat F).
  Variable rank : nat -> nat -> mat F -> nat.
  Variable ordqz : nat -> mat F -> mat F -> res (schur F).
  Variable inv : nat -> mat F -> res (mat F).
  Variable qz : nat -> mat F -> mat F -> res (mat F * mat F * mat F * mat F).
  Variable solve : nat -> nat -> mat F -> mat F -> res (mat F).
  Variable lyap : nat -> mat F -> mat F -> res (mat F).
  Variable lsolve : nat -> mat F -> vec F -> res (vec F).
  Variable chol_low : nat -> mat F -> res (mat F).
  Variable sqrt abs : F -> F.
  Variable two : F.
  Variable truthy isnum : F -> bool.
  Variable float_of : text -> option F.
  Variable trunc : F -> option Z.
  Variable nzero : F.
  Variable parse_text : text -> res (ast F).
  Variable keeps : bool.

  (** The model with its numerical parts. *)
  Notation space := (whole_space F O P ltb nan minimize grad qr rank ordqz).
  Notation solver_ := (whole_solver F O P eqb nan minimize grad jacobian inv qz solve).
  Notation read_model := (Factory.read_model F P two float_of trunc nzero).
  Notation new_model := (ModelState.new_model F P (r0 O) (r1 O) truthy float_of trunc parse_text (space_of F) (rules F) space).
  Notation step := (ModelState.step F P (r0 O) (r1 O) truthy isnum float_of trunc parse_text keeps (space_of F) (rules F) space solver_).
  Notation sstep := (StatsState.sstep F O P ltb isnum nan minimize rank lyap lsolve chol_low sqrt abs truthy float_of trunc parse_text keeps space solver_).
  Notation srun := (StatsState.srun F O P ltb isnum nan minimize rank lyap lsolve chol_low sqrt abs truthy float_of trunc parse_text keeps space solver_).
  Notation definition := (ModelState.definition F (space_of F) (rules F)).
  Notation derived := (ModelState.derived F (space_of F) (rules F)).

  (** What the routines promise, in exact arithmetic. *)
  Variable finv : F -> F.
  Variable le : F -> F -> Prop.
  Variable fns : string -> smooth_fun F.
  Variable pows : F -> smooth_fun F.
  Hypothesis FT : is_field O finv.
  Hypothesis OR : is_ordered O le.
  Hypothesis Hl : forall x y, ltb x y = false <-> le y x.
  Hypothesis Heq : forall x y, eqb x y = true <-> x = y.
  Hypothesis HI : interprets F O le P fns pows.
  Hypothesis Hn : forall v, o_isnone P v = true -> v = o_none P.
  Hypothesis Hqr : qr_routine F O qr.
  Hypothesis Hqz : schur_routine F O le ordqz.
  Hypothesis Hinv : inverse_routine F O inv.
  Hypothesis Hs : linear_routine F O solve.
  Hypothesis Hm : forall s m x0 y, minimize s (least_squares F O P m) x0 = Ok y -> least F le (List.length x0) (least_squares F O P m) y.
  Hypothesis HL : solves_lyapunov F O lyap.

  Notation solvable := (PropPipeline.solvable F O P grad jacobian le fns pows).
  Notation solution := (ModelState.solution F (space_of F) (rules F)).
  Notation good := (StatsStateProofs.good F O P isnum lyap space).
  Notation ask := (StatsState.ask F O P ltb isnum nan minimize rank lyap lsolve chol_low sqrt abs truthy float_of trunc parse_text keeps space solver_).

  (** What an answer about the state space says, if the model [m] is asked: the state space that can be read
      has as many roots outside the unit circle as there are variables with a lead; the
      solution that can be read is a rule that solves the equations to first order around a
      steady state, and if no root is on the circle it is stable: its paths are bounded if
      the shocks are, and vanish without shocks; and the answer is about this rule. *)
  Definition verified_space (m : mstate F (space_of F) (rules F)) (q : query) (a : answer F)
      (endog stoch : list string) (params : list (string * F)) (exprs : list (ast F)) (fits : Prop) : Prop :=
    exists x sp sigma s, snd (step (Read RIndexes) m) = Ok (OValue (VIndexes x)) /\ snd (step (Read RSpace) m) = Ok (OValue (VSpace sp)) /\
      (q = StateVariance -> snd (step (Read RSigma) m) = Ok (OValue (VSigma sigma))) /\ snd (step ReadSolution m) = Ok (OSolution s) /\
      (forall out, (forall e, out e = true <-> outside_circle F O le e) -> List.length (filter out (eigen (sp_state sp))) = n_forward x) /\
      (fits -> solvable endog stoch params exprs sp -> 1 < List.length endog ->
       is_steady F O P endog stoch exprs params (sp_ss sp) /\
       exists g, solving_rule F O le P endog stoch params exprs (sp_ss sp) g /\ first_arrays F s = (gy_of g, gu_of g) /\
         (archimedean F O le -> finite_quotients F O ordqz -> refuses_singular F O solve ->
          (forall e, In e (eigen (sp_state sp)) -> inside_circle F O le e \/ outside_circle F O le e) ->
          (forall lag u y, bounded F O le (rk g) u -> path_shocked F O g lag u y -> bounded F O le (rn g) y) /\
          (forall y, (forall t, decides F O g (y t) (fun _ => r0 O) (y (S t))) -> StableSpec.vanishes F O le (rn g) y) /\
          stable F O g /\ no_unit_root F O g) /\
         ((q = StateVariance -> stable F O g) -> shows F O g sigma q a)).

  (** The answers, by what is remembered. *)
  Lemma space_answer d0 x gy gu st st' q a : good d0 x gy gu st -> about_space q -> ask q st = (st', Ok a) ->
    exists sg, (q = StateVariance -> define_sigma F (r0 O) P isnum (d_stoch F d0) = Ok sg) /\
      match q with
      | Verify => a = Nothing
      | Transition => forall ss, exists v, a = Two (fst v) (snd v) /\ kalman_transition F (Ok tt) (model_of F d0 x ss sg) (Sim.First gy gu) = Ok v
      | StateVariance => forall ss, exists v, a = Array v /\ state_sigma F O lyap (Ok tt) (model_of F d0 x ss sg) (Sim.First gy gu) = Ok v
      | _ => True
      end.
  Proof using.
    intros G Hq E; cbn [StatsState.ask] in E; destruct Hq as [->|[->| ->]]; cbn [StatsState.ask] in E; unfold StatsState.bnd in E.
    - destruct (StatsState.verify F O P ltb isnum rank truthy float_of trunc parse_text keeps space solver_ st) as [s1 [v|e]]; [|discriminate E]; injection E as _ <-; exists (fun _ _ => r0 O); split; [discriminate|reflexivity].
    - destruct (StatsState.the_transition F O P ltb isnum rank truthy float_of trunc parse_text keeps space solver_ st) as [s1 [v|e]] eqn:Ev; [|discriminate E]; injection E as _ <-; exists (fun _ _ => r0 O); split; [discriminate|].
      destruct (ens_transition F O P ltb isnum rank lyap truthy float_of trunc parse_text keeps space solver_ d0 x gy gu _ _ _ G Ev) as [_ [K _]]; intros ss; exists (fst v); split; [reflexivity|exact K].
    - destruct (StatsState.the_variance F O P ltb isnum rank lyap truthy float_of trunc parse_text keeps space solver_ st) as [s1 [v|e]] eqn:Ev; [|discriminate E]; injection E as _ <-.
      destruct (ens_variance F O P ltb isnum rank lyap truthy float_of trunc parse_text keeps space solver_ d0 x gy gu _ _ _ G Ev) as [_ (sg & AB & K1 & K2 & K3)].
      exists sg; split; [intros _; exact K1|]; intros ss; exists v; split; [reflexivity|].
      unfold state_sigma; cbn [bind]; rewrite (StatsStateProofs.model_sigma F d0 x ss).
      change (kalman_transition F (Ok tt) (model_of F d0 x ss sg) (Sim.First gy gu)) with (kalman_transition F (Ok tt) (places F O x) (Sim.First gy gu)).
      rewrite K2; exact K3.
  Qed.

  Lemma model_verified_space D d0 x gy gu st st' q a :
    ModelStateProofs.known F P (r0 O) truthy float_of trunc parse_text (space_of F) (rules F) D (fst st) ->
    StatsStateProofs2.solved_by F space solver_ d0 x gy gu -> good d0 x gy gu st -> StatsVerified.honest F O ltb rank st -> about_space q -> ask q st = (st', Ok a) ->
    let d := definition (fst st) in
    let ns := map ev_name (d_endog F d) in let sv := map sv_name (d_stoch F d) in
    let sc := model_scope F d in let es := trees (d_exprs F d) in
    verified_space (fst st) q a ns sv sc es (readable ns sv es sc /\ List.length es = List.length ns).
  Proof using FT OR Hl Heq HI Hqr Hqz Hinv Hs Hm HL.
    intros K B G V Hq E d ns sv sc es.
    destruct (space_answer d0 x gy gu st st' q a G Hq E) as (sg & Sg & An).
    destruct (settled_rule F O P ltb eqb nan minimize grad jacobian qr rank ordqz inv qz solve lyap truthy isnum float_of trunc parse_text finv le fns pows
      FT OR Hl Heq HI Hqr Hqz Hinv Hs Hm D d0 x gy gu st K B G) as (s & So & Ha & _ & Sol); fold d ns sv sc es in Sol.
    assert (Ch : StatsVerified.checked F O ltb rank (fst st)).
    { destruct (reach_space F O P ltb isnum nan minimize rank lyap lsolve chol_low sqrt abs truthy float_of trunc parse_text keeps space solver_ d0 x gy gu q Hq st st' a G V E) as (s2 & G2 & C2).
      exact (checked_alike F O P ltb isnum rank lyap space d0 x gy gu s2 st G2 G C2). }
    pose proof (good_stoch F O P isnum lyap space d0 x gy gu st G) as Ss; fold d in Ss.
    pose proof (g_sim _ _ _ _ _ _ _ _ _ _ _ G) as Si.
    destruct st as [m c]; cbn [fst snd] in *.
    pose proof G as [G1 G2 G3 G4 _ _]; cbn [fst snd] in *.
    destruct (read_settled F O P ltb eqb nan minimize grad jacobian qr rank ordqz inv qz solve lyap truthy isnum float_of trunc parse_text keeps d0 x gy gu m c s G So) as [R1 R2].
    assert (Ix : snd (step (Read RIndexes) m) = Ok (OValue (VIndexes x))).
    { unfold ModelState.step, ok_with, ModelState.read; rewrite G1; cbn; rewrite G4; reflexivity. }
    set (sp := c_space _ _ (derived m)) in *.
    unfold StatsVerified.checked in Ch; fold sp in Ch; rewrite G4 in Ch; unfold StatsState.run_verification in Ch.
    destruct (List.length (filter (StatsState.outside F O ltb) (eigen (sp_state sp))) =? n_forward x) eqn:En; [|discriminate]; apply Nat.eqb_eq in En; clear Ch.
    exists x, sp, sg, s; split; [exact Ix|]; split; [exact R1|]; split; [|split; [exact R2|split]].
    { intros Q; specialize (Sg Q); assert (Sg' : define_sigma F (r0 O) P isnum (d_stoch F d) = Ok sg) by (rewrite Ss; exact Sg).
      destruct B as (En' & Sk & _); destruct (similar_fields F _ _ Si) as (F1 & F3 & F2 & _).
      assert (C : ModelStateProofs.current F P (r0 O) isnum _ _ space m) by (right; rewrite F1, F2; auto).
      assert (It : intact F _ _ m) by (split; [rewrite F1|rewrite F2]; assumption).
      destruct (current_read F P (r0 O) isnum _ _ space RSigma m _ _ _ _ sg C It (proj1 G2) Sg') as (m2 & v2 & R3 & sg' & V2 & ->); fold d in V2; rewrite Sg' in V2; injection V2 as <-.
      unfold ModelState.step, ok_with; rewrite R3; reflexivity. }
    { intros out Ho; rewrite <- En; f_equal; apply filter_ext; intros e; apply eq_true_iff_eq; rewrite Ho, (outside_ok F O ltb le Hl e); reflexivity. }
    intros [Re Sq] Sv H1; destruct (Sol (conj Re Sq) Sv) as (St & g & Sr & Fa & Rn & Stab & Hr); split; [exact St|]; exists g; split; [exact Sr|]; split; [exact Fa|]; split.
    - intros AR Hfin Hsing Hall; pose proof (Hr sg) as (_ & _ & E1 & E2).
      destruct B as (_ & _ & sr & dy & sp' & Fr & So').
      apply (fresh_similar F _ space _ _ _ _ _ _ G3) in Fr; destruct (fresh_fun F _ space _ _ _ _ _ _ _ _ _ _ _ _ _ Fr (proj1 G2)) as (_ & _ & _ & X4).
      rewrite <- (proj2 (similar_names F _ _ G3)) in So'; fold sp in X4; subst sp'.
      unfold fresh_of in Fr; fold d in Fr; fold ns sc es in Fr; pose proof Sv as (Hd & Hex & Sm & Rt); pose proof Sr as (L & Oc & Ab & Pr & Rk & _).
      refine (solved_settles F O P ltb eqb nan minimize grad jacobian qr rank ordqz inv qz solve finv le fns pows FT OR Hl HI Hqr Hqz Hinv Hs AR Hfin Hsing
        _ _ _ _ _ _ _ _ _ _ _ L g Fr So' Re Sq Hd (proj1 St) Sm Oc Ab Pr Rk E1 E2 _).
      exact (solved_counted F O P ltb eqb nan minimize grad jacobian qr rank ordqz inv qz solve finv le fns pows FT OR Hl HI Hqr Hqz
        _ _ _ _ _ _ _ _ _ _ _ L g Fr So' Re Sq Hd (proj1 St) Sm Oc Ab Pr En Hall).
    - intros Sb; assert (Hn' : 1 < rn g) by (rewrite Rn; exact H1); pose proof (Hr sg) as HR; pose proof (F_R FT) as RT.
      destruct Hq as [->|[->| ->]]; cbn [shows].
      + exact An.
      + destruct (An (sp_ss sp)) as (v & -> & Kv); destruct (kalman_ok F g _ _ HR Hn') as (a' & b' & Kv' & (A' & -> & HA) & (B' & -> & HB)).
        rewrite Kv' in Kv; injection Kv as <-; exists A', B'; split; [reflexivity|]; intros T u y Oy t i Ht Hi.
        change (state_at g i) with (var_at g (nth i (rstate g) 0)); rewrite (Oy t _ Ht (state_pos F g (proj1 HR) i Hi)).
        f_equal; apply (rsum_ext F O); intros j Hj; [rewrite (HA i j Hi Hj)|rewrite (HB i j Hi Hj)]; reflexivity.
      + destruct (An (sp_ss sp)) as (v & -> & Kv); destruct (state_sigma_ok F O lyap HL g _ _ HR Hn' v Kv) as (X & -> & HX).
        exists X; split; [reflexivity|]; intros R y u LR Fo Sy t i j Hi Hj.
        symmetry; exact (D_X F O RT R LR g (proj1 HR) sg y u Fo Sy (Sb eq_refl) X HX t i j Hi Hj).
  Qed.

  (** Full statement: after any history, [verify()] returns only for a model with as many roots
      outside the unit circle as variables with a lead, whose rule is then stable, and the transition
      matrices and the variance of the states are those of the rule that solves the equations
      in force.  Proved for models that were solved since their last change, after histories as
      in C102, and roots off the circle. *)
  Theorem C103_partial :
    forall (d : mdef F) (a : args F) (m0 : mstate F (space_of F) (rules F)) (os : list (sop F)) st l q st' ans,
    ModelStateSpec.describes F (r1 O) d a -> NoDup (keys (m_params F d)) -> NoDup (keys (m_locals F d)) ->
    new_model a = Ok m0 -> srun os (m0, blank F) = (st, l) -> all_made F l -> mended F l -> distinct F (effects F (r1 O) (operations F os) d) ->
    orderly F Unsolved l -> phase_after F Unsolved l = Settled -> about_space q ->
    sstep (Ask q) st = (st', Ok (Answer ans)) ->
    let D := effects F (r1 O) (operations F os) d in
    let ns := map fst (m_endog F D) in let sv := map fst (m_stoch F D) in
    exists es pv lv, mapM (parse_given F parse_text) (m_exprs F D) = Ok es /\
      satisfies F P float_of trunc pv (m_params F D) /\ satisfies F P float_of trunc lv (m_locals F D) /\
      let sc := merge F pv lv in
      verified_space (fst st) q ans ns sv sc es (readable ns sv es sc /\ List.length es = List.length ns).
  Proof.
    intros d a m0 os st l q st' ans De N1 N2 Hnew Hr Ha Hme Di Hor Hph Hq Hask D ns sv.
    cbn [StatsState.sstep] in Hask; unfold StatsState.bnd in Hask; destruct (ask q st) as [s1 [a1|e]] eqn:Ea; [|discriminate]; injection Hask as <- <-.
    assert (V : StatsVerified.honest F O ltb rank st) by exact (run_honest F O P ltb isnum nan minimize rank lyap lsolve chol_low sqrt abs truthy float_of trunc parse_text keeps space solver_ os (m0, blank F) st l Hr Ha Hme (or_introl (or_intror (or_introl eq_refl)))).
    destruct (history_settled F O P ltb eqb nan minimize grad jacobian qr rank ordqz inv qz solve lyap lsolve chol_low sqrt abs truthy isnum float_of trunc parse_text keeps
      d a m0 os st l De N1 N2 Hnew Hr Ha Hme Di Hor Hph) as (es & pv & lv & H1 & H2 & H3 & H4).
    exists es, pv, lv; split; [exact H1|]; split; [exact H2|]; split; [exact H3|].
    apply (H4 (fun ns sv sc es => verified_space (fst st) q a1 ns sv sc es (readable ns sv es sc /\ List.length es = List.length ns))).
    intros D' d0 x gy gu K B G; exact (model_verified_space D' d0 x gy gu st s1 q a1 K B G V Hq Ea).
  Qed.

  (** The same for a model that is read from a file, without additions. *)
  Theorem C103_file_partial :
    forall (t : text) (out : outline F) (m : mstate F (space_of F) (rules F)) (os : list (sop F)) st l q st' ans,
    read_model t = Ok out -> new_model (outline_args F out) = Ok m ->
    srun os (m, blank F) = (st, l) -> (forall o, In o (operations F os) -> ~ addition F o) -> (forall o e, ~ In (o, Err e) l) ->
    orderly F Unsolved l -> phase_after F Unsolved l = Settled -> about_space q ->
    sstep (Ask q) st = (st', Ok (Answer ans)) ->
    let params := model_scope F (definition m) in
    exists f, parse_file F float_of trunc nzero t = Ok f /\ values_of F P f params /\
      verified_space (fst st) q ans (named F "var" f) (named F "varexo" f) params (equations F f) (plain_file F f).
  Proof.
    intros t out m os st l q st' ans Ho Hnew Hr Hno Her Hor Hph Hq Hask params.
    cbn [StatsState.sstep] in Hask; unfold StatsState.bnd in Hask; destruct (ask q st) as [s1 [a1|e]] eqn:Ea; [|discriminate]; injection Hask as <- <-.
    assert (Ha : all_made F l) by (intros o e Hi; exfalso; exact (Her _ _ Hi)).
    assert (Hme : mended F l) by (intros l1 o e l2 ->; exfalso; apply (Her o e), in_or_app; right; left; reflexivity).
    assert (V : StatsVerified.honest F O ltb rank st) by exact (run_honest F O P ltb isnum nan minimize rank lyap lsolve chol_low sqrt abs truthy float_of trunc parse_text keeps space solver_ os (m, blank F) st l Hr Ha Hme (or_introl (or_intror (or_introl eq_refl)))).
    destruct (file_settled F O P ltb eqb nan minimize grad jacobian qr rank ordqz inv qz solve lyap lsolve chol_low sqrt abs two truthy isnum float_of trunc nzero parse_text keeps Hn
      t out m os st l Ho Hnew Hr Hno Her Hor Hph) as (f & H1 & H2 & H3 & H4).
    exists f; split; [exact H1|]; split; [exact H2|].
    enough (S : verified_space (fst st) q a1 (named F "var" f) (named F "varexo" f) params (equations F f)
      (readable (named F "var" f) (named F "varexo" f) (equations F f) params /\ List.length (equations F f) = List.length (named F "var" f))).
    { destruct S as (x1 & sp & sg & s & S0 & S1 & S2 & S3 & S5 & S4); exists x1, sp, sg, s; split; [exact S0|]; split; [exact S1|]; split; [exact S2|]; split; [exact S3|]; split; [exact S5|].
      intros Pf; apply S4, H3, Pf. }
    apply (H4 (fun ns sv sc es => verified_space (fst st) q a1 ns sv sc es (readable ns sv es sc /\ List.length es = List.length ns))).
    intros D' d0 x gy gu K B G; exact (model_verified_space D' d0 x gy gu st s1 q a1 K B G V Hq Ea).
  Qed.
End C103.
Print Assumptions C103_partial.
Print Assumptions C103_file_partial.

(** ** Concrete cases *)
From Verif Require Import PiecewiseSimSpec PropPiecewiseSim UniqueExample.
From Verif Require PropStable PropRoots PropSettle.
Definition shown (a : answer Qc) : list (list (list Q)) := match a with Two b c => [table_of b; table_of c] | _ => table a end.
Definition c_case (x : query) (given : list (list (list Q))) : Prop :=
  match p_new f_args with
  | Ok m0 => let r := t_run t_ops (m0, blank Qc) in forallb done (snd r) = true /\
      match t_step (Ask x) (fst r) with
      | (_, Ok (Answer a)) => shown a = given /\
          match snd (p_step (Read RSpace) (fst (fst r))) with Ok (OValue (VSpace sp)) => lspace sp && forallb off_circle (eigen (sp_state sp)) = true | _ => False end
      | _ => False end
  | Err _ => False end.
(** The history of C95_nonvacuous: the states are x, that moves by 1/2 and e, and y, that moves by 3/4 and -f/2. *)
Definition c_moves : list (list (list Q)) := [[[Qmake 1 2; Qmake 0 1]; [Qmake 0 1; Qmake 3 4]]; [[Qmake 1 1; Qmake 0 1]; [Qmake 0 1; Qmake (-1) 2]]].
Definition c_variance : list (list (list Q)) := [[[Qmake 4 3; Qmake 0 1]; [Qmake 0 1; Qmake 4 7]]].
Example C103_nonvacuous :
  ModelStateSpec.describes Qc (r1 QO) f_def f_args /\ NoDup (keys (m_params Qc f_def)) /\ NoDup (keys (m_locals Qc f_def)) /\ distinct Qc (effects Qc (r1 QO) (operations Qc t_ops) f_def) /\
  forall x given, (x, given) = (Verify, []) \/ (x, given) = (Transition, c_moves) \/ (x, given) = (StateVariance, c_variance) ->
  exists m0 st l st' a, p_new f_args = Ok m0 /\ t_run t_ops (m0, blank Qc) = (st, l) /\ all_made Qc l /\ mended Qc l /\ orderly Qc Unsolved l /\ phase_after Qc Unsolved l = Settled /\
    about_space x /\ t_step (Ask x) st = (st', Ok (Answer a)) /\ shown a = given /\
    exists g ss sg, solving_rule Qc QO Qcle q_ops lendog lstoch lparams lmodel ss g /\
      (forall y, (forall t, decides Qc QO g (y t) (fun _ => z0) (y (S t))) -> StableSpec.vanishes Qc QO Qcle (rn g) y) /\ stable Qc QO g /\ no_unit_root Qc QO g /\ shows Qc QO g sg x a.
Proof.
  split; [exact f_describes|]; split; [repeat constructor; cbn; intuition discriminate|]; split; [constructor|]; split; [exact (t_distinct t_ops eq_refl)|].
  intros x given Hx; assert (Hq : about_space x) by (unfold about_space; destruct Hx as [E|[E|E]]; injection E as -> _; auto).
  assert (C : c_case x given) by (destruct Hx as [E|[E|E]]; injection E as -> ->; vm_compute; repeat apply conj; reflexivity); clear Hx.
  unfold c_case in C; destruct (p_new f_args) as [m0|] eqn:E0; [|contradiction]; cbv zeta in C; destruct C as [H1 H2].
  pose proof (t_done t_ops (m0, blank Qc)) as Hf; destruct (t_run t_ops (m0, blank Qc)) as [st l] eqn:E1; cbn [fst snd] in *.
  destruct (t_step (Ask x) st) as [st' [[|a]|]] eqn:E2; try contradiction; destruct H2 as [Ht H3].
  destruct (snd (p_step (Read RSpace) (fst st))) as [[|[| | |sp|]| |]|] eqn:R1; try contradiction.
  apply andb_true_iff in H3 as [Sv Hrt]; rewrite forallb_forall in Hrt.
  assert (A : forall o e, ~ In (o, Err e) l) by (intros o e Hi; apply (proj1 (forallb_forall done l) H1) in Hi; discriminate Hi).
  destruct (t_made l A) as [Am Me]; destruct (t_phases t_ops l Hf A) as [Ph _]; destruct (Ph eq_refl) as [Or Ph']; clear Ph H1.
  exists m0, st, l, st', a; split; [reflexivity|]; split; [exact E1|]; split; [exact Am|]; split; [exact Me|]; split; [exact Or|]; split; [exact Ph'|]; split; [exact Hq|]; split; [exact E2|]; split; [exact Ht|].
  assert (N1 : NoDup (keys (m_params Qc f_def))) by (repeat constructor; cbn; intuition discriminate).
  assert (N2 : NoDup (keys (m_locals Qc f_def))) by constructor.
  destruct q_hypotheses as (H1 & H2 & H3 & H4 & H5 & H6 & H7 & _ & _ & H10 & _).
  destruct (C103_partial Qc QO q_ops qlt same z0 p_minimize qgrad qjacobian xyz_qr rank_all p_qz p_inv xyz2_real qsolve lyapD lsolveD (fun _ _ => Err ValueErr) (fun x => x) Qcabs q_true (fun _ => true) q_decimal q_trunc p_text false
    Qcinv Qcle no_function squares H1 H2 H3 H4 H5 H7 (qz_with_ok _) (inv_with_ok _) H10 p_minimize_ok lyapD_solves
    f_def f_args m0 t_ops st l x st' a f_describes N1 N2 E0 E1 Am Me (t_distinct t_ops eq_refl) Or Ph' Hq E2) as (es & pv & lv & Ep & Sp & Sl & S).
  apply f_params in Sp; apply f_locals in Sl; subst pv lv; cbn in Ep; injection Ep as <-.
  destruct S as (x' & sp' & sg' & s' & S0 & S1 & S2 & S3 & _ & S4).
  change (snd (p_step (Read RSpace) (fst st)) = Ok (OValue (VSpace sp'))) in S1.
  assert (sp' = sp) by congruence; subst sp'; destruct C95_separated as (B1 & B2 & B3 & _).
  destruct (S4 (conj lmodel_readable eq_refl) (lspace_solvable sp Sv) ltac:(cbn; lia)) as (_ & g & G1 & _ & G2 & G3).
  destruct (G2 B1 B2 B3) as (_ & T0 & T1 & T2).
  - intros e He; apply Hrt, orb_true_iff in He; destruct He as [He|He]; [left; apply is_inside_ok, He|right; apply PropRoots.is_outside_ok, He].
  - exists g, (sp_ss sp), sg'; split; [exact G1|]; split; [exact T0|]; split; [exact T1|]; split; [exact T2|exact (G3 (fun _ => T1))].
Qed.

(** The full statement is false: the model of C102_refuted, whose verification raises once.  When
    it is solved anew and asked to verify again, it says nothing. *)
Definition e_read := ModelState.step Qc q_ops (r0 QO) (r1 QO) q_true (fun _ => true) q_decimal q_trunc p_text false (space_of Qc) (rules Qc) e_space e_solver.
Definition v_ops : list (sop Qc) := [Do (Solve 1); Ask Verify; Do (Solve 1)].
Definition v_shape : Prop :=
  match e_new e_args with
  | Ok m0 =>
      match e_run v_ops (m0, blank Qc) with
      | (st, [(Do (Solve 1), Ok _); (Ask Verify, Err _); (Do (Solve 1), Ok _)]) =>
          match e_step (Ask Verify) st with
          | (st', Ok (Answer a)) =>
              match snd (e_read (Read RIndexes) (fst st)), snd (e_read (Read RSpace) (fst st)) with
              | Ok (OValue (VIndexes x)), Ok (OValue (VSpace sp)) => negb (List.length (filter PropRoots.is_outside (eigen (sp_state sp))) =? n_forward x) = true
              | _, _ => False end
          | _ => False end
      | _ => False end
  | Err _ => False end.
Definition v_verified := verified_space Qc QO q_ops qlt same z0 e_minimize qgrad qjacobian (qr_with []) rank_all PropFirst.bad_qz PropFirst.bad_inv xyz2_real qsolve q_true (fun _ => true) q_decimal q_trunc p_text false Qcle no_function squares.
Theorem C103_refuted :
  schur_routine Qc QO Qcle PropFirst.bad_qz /\ inverse_routine Qc QO PropFirst.bad_inv /\ linear_routine Qc QO qsolve /\ solves_lyapunov Qc QO lyapD /\
  ModelStateSpec.describes Qc (r1 QO) e_def e_args /\ NoDup (keys (m_params Qc e_def)) /\ NoDup (keys (m_locals Qc e_def)) /\ distinct Qc (effects Qc (r1 QO) (operations Qc v_ops) e_def) /\
  exists m0 st l st' a, e_new e_args = Ok m0 /\ e_run v_ops (m0, blank Qc) = (st, l) /\ all_made Qc l /\ orderly Qc Unsolved l /\ phase_after Qc Unsolved l = Settled /\
    e_step (Ask Verify) st = (st', Ok (Answer a)) /\
    ~ v_verified (fst st) Verify a dendog dstoch [] dmodel (readable dendog dstoch dmodel [] /\ List.length dmodel = List.length dendog).
Proof.
  split; [apply qz_with_ok|]; split; [apply inv_with_ok|]; split; [exact qsolve_ok|]; split; [exact lyapD_solves|].
  split; [exact e_describes|]; split; [constructor|]; split; [constructor|].
  split; [repeat split; repeat constructor; cbn; intuition discriminate|].
  assert (E : v_shape) by (vm_compute; reflexivity).
  unfold v_shape in E; destruct (e_new e_args) as [m0|] eqn:E0; [|contradiction]; destruct (e_run v_ops (m0, blank Qc)) as [st l] eqn:E1.
  destruct l as [|[p1 w1] l]; [contradiction|]; destruct p1 as [p1|]; [|contradiction]; destruct p1 as [| | | | | |n1| |]; try contradiction.
  destruct n1 as [|[|]]; try contradiction; destruct w1 as [w1|]; [|contradiction].
  destruct l as [|[p2 w2] l]; [contradiction|]; destruct p2 as [|p2]; [contradiction|]; destruct p2; try contradiction; destruct w2 as [|e2]; [contradiction|].
  destruct l as [|[p3 w3] l]; [contradiction|]; destruct p3 as [p3|]; [|contradiction]; destruct p3 as [| | | | | |n3| |]; try contradiction.
  destruct n3 as [|[|]]; try contradiction; destruct w3 as [w3|]; [|contradiction]; destruct l; [|contradiction].
  destruct (e_step (Ask Verify) st) as [st' [[|a]|]] eqn:E2; try contradiction.
  eexists m0, st, _, st', a; split; [reflexivity|]; split; [exact E1|].
  split; [intros o e [H|[H|[H|[]]]]; discriminate H|]; split; [repeat split|]; split; [reflexivity|]; split; [exact E2|].
  intros (x & sp & sg & s & S0 & S1 & _ & _ & Hc & _).
  change (snd (e_read (Read RIndexes) (fst st)) = Ok (OValue (VIndexes x))) in S0; change (snd (e_read (Read RSpace) (fst st)) = Ok (OValue (VSpace sp))) in S1.
  rewrite S0, S1 in E; rewrite (Hc _ PropRoots.is_outside_ok), Nat.eqb_refl in E; discriminate E.
Qed.
Print Assumptions C103_refuted.

(** A file, that is read, solved and asked (C102_file_nonvacuous): the covariance of [x] and [y] is -2/5. *)
Definition w_states : list (list (list Q)) := [[[Qmake 4 3; Qmake (-2) 5]; [Qmake (-2) 5; Qmake 4 7]]].
Example C103_file_nonvacuous : forall x given, (x, given) = (Verify, []) \/ (x, given) = (Transition, c_moves) \/ (x, given) = (StateVariance, w_states) ->
  exists f out m st l st' a, lfile = Ok f /\ Factory.read_model Qc q_ops (q 2 1) q_decimal q_trunc z0 (chars ltext) = Ok out /\
  q_new (outline_args Qc out) = Ok m /\ w_run [Do (Solve 1)] (m, blank Qc) = (st, l) /\ (forall o e, ~ In (o, Err e) l) /\ orderly Qc Unsolved l /\ phase_after Qc Unsolved l = Settled /\
  about_space x /\ w_step (Ask x) st = (st', Ok (Answer a)) /\ shown a = given /\ plain_file Qc f /\ model_scope Qc (definition _ _ _ m) = lparams /\
  exists g ss sg, solving_rule Qc QO Qcle q_ops lendog lstoch lparams lmodel ss g /\ stable Qc QO g /\ no_unit_root Qc QO g /\ shows Qc QO g sg x a.
Proof.
  intros x given Hx; assert (Hq : about_space x) by (unfold about_space; destruct Hx as [E|[E|E]]; injection E as -> _; auto).
  assert (E : match lfile, Factory.read_model Qc q_ops (q 2 1) q_decimal q_trunc z0 (chars ltext) with
    | Ok f, Ok out => match q_new (outline_args Qc out) with Ok m =>
        match w_run [Do (Solve 1)] (m, blank Qc) with
        | (st, [(Do (Solve 1), Ok _)]) =>
            match w_step (Ask x) st with
            | (st', Ok (Answer a)) => shown a = given /\
                match snd (q_step (Read RSpace) (fst st)) with Ok (OValue (VSpace sp)) =>
                  lspace sp && lscope (model_scope Qc (definition _ _ _ m)) && forallb off_circle (eigen (sp_state sp)) = true | _ => False end
            | _ => False end
        | _ => False end | _ => False end
    | _, _ => False end) by (destruct Hx as [E|[E|E]]; injection E as -> ->; vm_compute; split; reflexivity).
  clear Hx; destruct lfile as [f|] eqn:Ef; [|contradiction]; destruct (Factory.read_model _ _ _ _ _ _ _) as [out|] eqn:Eo; [|contradiction].
  destruct (q_new _) as [m|] eqn:Em; [|contradiction]; destruct (w_run [Do (Solve 1)] (m, blank Qc)) as [st l] eqn:E1.
  destruct l as [|[p1 w1] l]; [contradiction|]; destruct p1 as [p1|]; [|contradiction]; destruct p1 as [| | | | | |n1| |]; try contradiction.
  destruct n1 as [|[|]]; try contradiction; destruct w1 as [w1|]; [|contradiction]; destruct l; [|contradiction].
  destruct (w_step (Ask x) st) as [st' [[|a]|]] eqn:E2; try contradiction; destruct E as [Ht E].
  destruct (snd (q_step (Read RSpace) (fst st))) as [[|[| | |sp|]| |]|] eqn:R1; try contradiction.
  apply andb_true_iff in E as [E Er]; apply andb_true_iff in E as [E Ep]; apply lscope_is in Ep; rewrite forallb_forall in Er.
  destruct (lfile_plain f Ef) as (F1 & F2 & F3 & F4).
  eexists f, out, m, st, _, st', a; split; [reflexivity|]; split; [reflexivity|]; split; [exact Em|]; split; [exact E1|].
  assert (A : forall o e, ~ In (o, Err e) [(Do (F:=Qc) (Solve 1), Ok w1)]) by (intros o e [H|[]]; discriminate H); split; [exact A|].
  assert (Or : orderly Qc Unsolved [(Do (Solve 1), Ok w1)]) by (split; exact I); split; [exact Or|]; split; [reflexivity|]; split; [exact Hq|]; split; [exact E2|]; split; [exact Ht|]; split; [exact F4|]; split; [exact Ep|].
  destruct q_hypotheses as (H1 & H2 & H3 & H4 & H5 & H6 & H7 & H8 & H9 & H10 & H11 & H12 & H13 & H14).
  destruct (C103_file_partial Qc QO q_ops qlt same z0 q_minimize qgrad qjacobian xyz_qr rank_all xyz_qz xyz_inv xyz2_real qsolve lyapD lsolveD (fun _ _ => Err ValueErr) (fun x => x) Qcabs (q 2 1) q_true (fun _ => true) q_decimal q_trunc z0 q_text false
    Qcinv Qcle no_function squares H1 H2 H3 H4 H5 H6 H7 H8 H9 H10 H14 lyapD_solves (chars ltext) out m [Do (Solve 1)] st _ x st' a Eo Em E1 ltac:(intros o [<-|[]] []) A Or eq_refl Hq E2) as (f' & Hf & Hv & S).
  assert (f' = f) by (unfold lfile in Ef; congruence); subst f'; rewrite Ep, F1, F2, F3 in S.
  destruct S as (x' & sp' & sg' & s' & S0 & S1 & S2 & S3 & _ & S4).
  change (snd (q_step (Read RSpace) (fst st)) = Ok (OValue (VSpace sp'))) in S1.
  assert (sp' = sp) by congruence; subst sp'; destruct C95_separated as (B1 & _ & B3 & _).
  assert (B2 : finite_quotients Qc QO xyz_qz) by (apply PropStable.quotients_ok; vm_compute; reflexivity).
  destruct (S4 F4 (lspace_solvable sp E) ltac:(cbn; lia)) as (_ & g & G1 & _ & G2 & G3).
  destruct (G2 B1 B2 B3) as (_ & _ & T1 & T2).
  - intros e He; apply Er, orb_true_iff in He; destruct He as [He|He]; [left; apply is_inside_ok, He|right; apply PropRoots.is_outside_ok, He].
  - exists g, (sp_ss sp), sg'; split; [exact G1|]; split; [exact T1|]; split; [exact T2|exact (G3 (fun _ => T1))].
Qed.
