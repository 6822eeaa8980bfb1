(** Variance decompositions that are returned belong to a model that passed verification: property C102. *)
From Verif Require Import Base Syntax Lexer Parser Eval EvalSpec Semantics Factory FactorySpec Calib CalibSpec CalibProofs Indexing IndexingSpec DynFunc DynSpec Vars ExprList
  ModelState ModelStateSpec ModelStateProofs ModelStateProofs2 PropModel OutlineSpec PropDyn
  Nd NdInst Mat NdProofs SimSpec OrderProofs CalcSpec CalcProofs CalcProofs2 CalcProofs3 Linearize LinearizeSpec LinearizeProofs Steady SteadyValues SteadyValuesSpec PropSteadyValues
  FirstOrder FirstOrderSpec PropFirst Sylvester SylvesterSpec SecondOrder SecondOrderSpec PropSecond AccuracySpec PropAccuracy FirstOrderExample Gauss SylvesterExample LinearExample
  Pipeline PipelineSpec PipelineProofs PropPipeline Sim SimProofs3 PathSim PathSimSpec PathSimProofs PropPathSim
  Moments MomentsSpec MomentsProofs MomentsProofs2 MomentsProofs3 MomentsProofs4 MomentsExample PropMoments StatsState StatsStateSpec StatsStateProofs StatsStateProofs2 PropStatsState
  StatsSharesSpec StatsSharesProofs StableSpec PathStable StatsVerified PropVerified PropStatsShares.
From Coq Require Import ZArith QArith Qcanon.
Local Open Scope string_scope.
Local Open Scope list_scope.
Local Open Scope nat_scope.

Section C102Shares.
  Notation named := OutlineSpec.named.
  Variable F : Type.
  Variable O : rops F.
  Variable P : ops F.
  Variable ltb eqb : F -> F -> bool.
  Variable nan : F.
  Variable minimize : solver -> (list F -> res F) -> list F -> res (list F).
  Variable grad : (list F -> res F) -> list F -> res (list F).
  Variable jacobian : (list F -> res (list F)) -> list F -> res (list (list F)).
  Variable qr : nat -> nat -> mat F -> res (mat F * mat F).
  Variable rank : nat -> nat -> mat F -> nat.
  Variable ordqz : nat -> mat F -> mat F -> res (schur F).
  Variable inv : nat -> mat F -> res (mat F).
  Variable qz : nat -> mat F -> mat F -> res (mat F * mat F * mat F * mat F).
  Variable solve : nat -> nat -> mat F -> mat F -> res (mat F).
  Variable lyap : nat -> mat F -> mat F -> res (mat F).
  Variable lsolve : nat -> mat F -> vec F -> res (vec F).
  Variable chol_low : nat -> mat F -> res (mat F).
  Variable sqrt abs : F -> F.
  Variable two : F.
  Variable truthy isnum : F -> bool.
  Variable float_of : text -> option F.
  Variable trunc : F -> option Z.
  Variable nzero : F.
  Variable parse_text : text -> res (ast F).
  Variable keeps : bool.

  (** The model with its numerical parts. *)
  Notation space := (whole_space F O P ltb nan minimize grad qr rank ordqz).
  Notation solver_ := (whole_solver F O P eqb nan minimize grad jacobian inv qz solve).
  Notation read_model := (Factory.read_model F P two float_of trunc nzero).
  Notation new_model := (ModelState.new_model F P (r0 O) (r1 O) truthy float_of trunc parse_text (space_of F) (rules F) space).
  Notation step := (ModelState.step F P (r0 O) (r1 O) truthy isnum float_of trunc parse_text keeps (space_of F) (rules F) space solver_).
  Notation sstep := (StatsState.sstep F O P ltb isnum nan minimize rank lyap lsolve chol_low sqrt abs truthy float_of trunc parse_text keeps space solver_).
  Notation srun := (StatsState.srun F O P ltb isnum nan minimize rank lyap lsolve chol_low sqrt abs truthy float_of trunc parse_text keeps space solver_).
  Notation definition := (ModelState.definition F (space_of F) (rules F)).
  Notation derived := (ModelState.derived F (space_of F) (rules F)).

  (** What the routines promise, in exact arithmetic. *)
  Variable finv : F -> F.
  Variable le : F -> F -> Prop.
  Variable fns : string -> smooth_fun F.
  Variable pows : F -> smooth_fun F.
  Hypothesis FT : is_field O finv.
  Hypothesis OR : is_ordered O le.
  Hypothesis Hl : forall x y, ltb x y = false <-> le y x.
  Hypothesis Heq : forall x y, eqb x y = true <-> x = y.
  Hypothesis HI : interprets F O le P fns pows.
  Hypothesis Hn : forall v, o_isnone P v = true -> v = o_none P.
  Hypothesis Hqr : qr_routine F O qr.
  Hypothesis Hqz : schur_routine F O le ordqz.
  Hypothesis Hinv : inverse_routine F O inv.
  Hypothesis Hs : linear_routine F O solve.
  Hypothesis Hm : forall s m x0 y, minimize s (least_squares F O P m) x0 = Ok y -> least F le (List.length x0) (least_squares F O P m) y.
  Hypothesis HL : solves_lyapunov F O lyap.
  Hypothesis HC : factors F O chol_low.
  Hypothesis A1 : forall x, le (r0 O) x -> abs x = x.
  Hypothesis A2 : forall x, le x (r0 O) -> abs x = ropp O x.

  Notation solvable := (PropPipeline.solvable F O P grad jacobian le fns pows).
  Notation solution := (ModelState.solution F (space_of F) (rules F)).
  Notation good := (StatsStateProofs.good F O P isnum lyap space).
  Notation ask := (StatsState.ask F O P ltb isnum nan minimize rank lyap lsolve chol_low sqrt abs truthy float_of trunc parse_text keeps space solver_).

  (** What a decomposition says, if the model [m] is asked: with several shocks, the state space that
      can be read has as many roots outside the unit circle as there are variables with a
      lead; and if none is on it, the solution that can be read is a stable rule that solves
      the equations to first order around a steady state, and the answer decomposes the variances
      of the processes that follow it. *)
  Definition verified_shares (m : mstate F (space_of F) (rules F)) (a : answer F)
      (endog stoch : list string) (params : list (string * F)) (exprs : list (ast F)) (fits : Prop) : Prop :=
    List.length stoch <> 1 ->
    exists x sp sigma s, snd (step (Read RIndexes) m) = Ok (OValue (VIndexes x)) /\ snd (step (Read RSpace) m) = Ok (OValue (VSpace sp)) /\
      snd (step (Read RSigma) m) = Ok (OValue (VSigma sigma)) /\ snd (step ReadSolution m) = Ok (OSolution s) /\
      (forall out, (forall e, out e = true <-> outside_circle F O le e) -> List.length (filter out (eigen (sp_state sp))) = n_forward x) /\
      (fits -> solvable endog stoch params exprs sp -> 1 < List.length endog ->
       archimedean F O le -> finite_quotients F O ordqz -> refuses_singular F O solve ->
       (forall e, In e (eigen (sp_state sp)) -> inside_circle F O le e \/ outside_circle F O le e) ->
       is_steady F O P endog stoch exprs params (sp_ss sp) /\
       exists g, solving_rule F O le P endog stoch params exprs (sp_ss sp) g /\ first_arrays F s = (gy_of g, gu_of g) /\
         stable F O g /\ no_unit_root F O g /\ decomposes F O le g sigma a).

  Lemma model_verified_shares D d0 x gy gu st st' a :
    ModelStateProofs.known F P (r0 O) truthy float_of trunc parse_text (space_of F) (rules F) D (fst st) ->
    StatsStateProofs2.solved_by F space solver_ d0 x gy gu -> good d0 x gy gu st -> StatsVerified.honest F O ltb rank st -> ask Shares st = (st', Ok a) ->
    let d := definition (fst st) in
    let ns := map ev_name (d_endog F d) in let sv := map sv_name (d_stoch F d) in
    let sc := model_scope F d in let es := trees (d_exprs F d) in
    verified_shares (fst st) a ns sv sc es (readable ns sv es sc /\ List.length es = List.length ns).
  Proof using FT OR Hl Heq HI Hqr Hqz Hinv Hs Hm HL HC A1 A2.
    intros K B G V E d ns sv sc es Nk.
    destruct (model_shares F O P ltb eqb nan minimize grad jacobian qr rank ordqz inv qz solve lyap lsolve chol_low sqrt abs truthy isnum float_of trunc parse_text keeps finv le fns pows
      FT OR Hl Heq HI Hqr Hqz Hinv Hs Hm HL HC A1 A2 D d0 x gy gu st st' a K B G E) as (sp & s & S1 & S3 & _ & S4).
    fold d ns sv sc es in S4; destruct (S4 Nk) as (sg & S2 & S5); clear S4.
    assert (Ch : StatsVerified.checked F O ltb rank (fst st)).
    { unfold sv in Nk; rewrite map_length in Nk.
      destruct (reach_decomposition F O P ltb isnum nan minimize rank lyap lsolve chol_low sqrt abs truthy float_of trunc parse_text keeps space solver_ d0 x gy gu st st' a G V Nk E) as (s2 & G2 & C2).
      exact (checked_alike F O P ltb isnum rank lyap space d0 x gy gu s2 st G2 G C2). }
    destruct st as [m c]; cbn [fst] in *.
    pose proof G as [G1 G2 G3 G4 _ _]; cbn [fst snd] in *.
    assert (Ix : snd (step (Read RIndexes) m) = Ok (OValue (VIndexes x))).
    { unfold ModelState.step, ok_with, ModelState.read; rewrite G1; cbn; rewrite G4; reflexivity. }
    assert (Sp : c_space _ _ (derived m) = sp).
    { unfold ModelState.step, ok_with, ModelState.read in S1; rewrite G1 in S1; cbn in S1; injection S1 as <-; reflexivity. }
    unfold StatsVerified.checked in Ch; rewrite Sp, G4 in Ch; unfold StatsState.run_verification in Ch.
    destruct (List.length (filter (StatsState.outside F O ltb) (eigen (sp_state sp))) =? n_forward x) eqn:En; [|discriminate]; apply Nat.eqb_eq in En; clear Ch.
    exists x, sp, sg, s; split; [exact Ix|]; split; [exact S1|]; split; [exact S2|]; split; [exact S3|]; split.
    { intros out Ho; rewrite <- En; f_equal; apply filter_ext; intros e; apply eq_true_iff_eq; rewrite Ho, (outside_ok F O ltb le Hl e); reflexivity. }
    intros [Re Sq] Sv H1 AR Hfin Hsing Hall; destruct (S5 (conj Re Sq) Sv H1) as (St & g & Sr & Ar & Stab & Rep); split; [exact St|].
    destruct B as (_ & _ & sr & dy & sp' & Fr & So).
    apply (fresh_similar F _ space _ _ _ _ _ _ G3) in Fr; destruct (fresh_fun F _ space _ _ _ _ _ _ _ _ _ _ _ _ _ Fr (proj1 G2)) as (_ & _ & _ & X4).
    rewrite <- (proj2 (similar_names F _ _ G3)) in So; assert (Q : sp' = sp) by congruence; clear X4 Sp; subst sp'.
    unfold fresh_of in Fr; fold d in Fr; fold ns sc es in Fr; pose proof Sv as (Hd & Hex & Sm & Rt); pose proof Sr as (L & Oc & Ab & Pr & Rk & _).
    assert (Sep : separated F O le (eigen (sp_state sp)) (rs g)) by exact (solved_counted F O P ltb eqb nan minimize grad jacobian qr rank ordqz inv qz solve finv le fns pows FT OR Hl HI Hqr Hqz
      _ _ _ _ _ _ _ _ _ _ _ L g Fr So Re Sq Hd (proj1 St) Sm Oc Ab Pr En Hall).
    destruct (Stab AR Hfin Hsing Sep) as [T1 T2]; exists g; repeat (split; [assumption|]); exact (Rep T1).
  Qed.

  (** Full statement: variances that are decomposed, after any history, are those of a model that
      passed verification, so the rule is stable, its processes have variances, and the answer
      decomposes them.  Proved when no root is on the unit circle, for models with several
      shocks (one shock causes everything: nothing is computed or verified, C95_shares_partial)
      and histories as in C95. *)
  Theorem C102_shares_partial :
    forall (d : mdef F) (a : args F) (m0 : mstate F (space_of F) (rules F)) (os : list (sop F)) st l st' ans,
    ModelStateSpec.describes F (r1 O) d a -> NoDup (keys (m_params F d)) -> NoDup (keys (m_locals F d)) ->
    new_model a = Ok m0 -> srun os (m0, blank F) = (st, l) -> all_made F l -> mended F l -> distinct F (effects F (r1 O) (operations F os) d) ->
    orderly F Unsolved l -> phase_after F Unsolved l = Settled ->
    sstep (Ask Shares) st = (st', Ok (Answer ans)) ->
    let D := effects F (r1 O) (operations F os) d in
    let ns := map fst (m_endog F D) in let sv := map fst (m_stoch F D) in
    exists es pv lv, mapM (parse_given F parse_text) (m_exprs F D) = Ok es /\
      satisfies F P float_of trunc pv (m_params F D) /\ satisfies F P float_of trunc lv (m_locals F D) /\
      let sc := merge F pv lv in
      verified_shares (fst st) ans ns sv sc es (readable ns sv es sc /\ List.length es = List.length ns).
  Proof.
    intros d a m0 os st l st' ans De N1 N2 Hnew Hr Ha Hme Di Hor Hph Hask D ns sv.
    cbn [StatsState.sstep] in Hask; unfold StatsState.bnd in Hask; destruct (ask Shares st) as [s1 [a1|e]] eqn:Ea; [|discriminate]; injection Hask as <- <-.
    assert (V : StatsVerified.honest F O ltb rank st) by exact (run_honest F O P ltb isnum nan minimize rank lyap lsolve chol_low sqrt abs truthy float_of trunc parse_text keeps space solver_ os (m0, blank F) st l Hr Ha Hme (or_introl (or_intror (or_introl eq_refl)))).
    destruct (history_settled F O P ltb eqb nan minimize grad jacobian qr rank ordqz inv qz solve lyap lsolve chol_low sqrt abs truthy isnum float_of trunc parse_text keeps
      d a m0 os st l De N1 N2 Hnew Hr Ha Hme Di Hor Hph) as (es & pv & lv & H1 & H2 & H3 & H4).
    exists es, pv, lv; split; [exact H1|]; split; [exact H2|]; split; [exact H3|].
    apply (H4 (fun ns sv sc es => verified_shares (fst st) a1 ns sv sc es (readable ns sv es sc /\ List.length es = List.length ns))).
    intros D' d0 x gy gu K B G; exact (model_verified_shares D' d0 x gy gu st s1 a1 K B G V Ea).
  Qed.

  (** The same for a model that is read from a file, without additions. *)
  Theorem C102_shares_file_partial :
    forall (t : text) (out : outline F) (m : mstate F (space_of F) (rules F)) (os : list (sop F)) st l st' ans,
    read_model t = Ok out -> new_model (outline_args F out) = Ok m ->
    srun os (m, blank F) = (st, l) -> (forall o, In o (operations F os) -> ~ addition F o) -> (forall o e, ~ In (o, Err e) l) ->
    orderly F Unsolved l -> phase_after F Unsolved l = Settled ->
    sstep (Ask Shares) st = (st', Ok (Answer ans)) ->
    let params := model_scope F (definition m) in
    exists f, parse_file F float_of trunc nzero t = Ok f /\ values_of F P f params /\
      verified_shares (fst st) ans (named F "var" f) (named F "varexo" f) params (equations F f) (plain_file F f).
  Proof.
    intros t out m os st l st' ans Ho Hnew Hr Hno Her Hor Hph Hask params.
    cbn [StatsState.sstep] in Hask; unfold StatsState.bnd in Hask; destruct (ask Shares st) as [s1 [a1|e]] eqn:Ea; [|discriminate]; injection Hask as <- <-.
    assert (Ha : all_made F l) by (intros o e Hi; exfalso; exact (Her _ _ Hi)).
    assert (Hme : mended F l) by (intros l1 o e l2 ->; exfalso; apply (Her o e), in_or_app; right; left; reflexivity).
    assert (V : StatsVerified.honest F O ltb rank st) by exact (run_honest F O P ltb isnum nan minimize rank lyap lsolve chol_low sqrt abs truthy float_of trunc parse_text keeps space solver_ os (m, blank F) st l Hr Ha Hme (or_introl (or_intror (or_introl eq_refl)))).
    destruct (file_settled F O P ltb eqb nan minimize grad jacobian qr rank ordqz inv qz solve lyap lsolve chol_low sqrt abs two truthy isnum float_of trunc nzero parse_text keeps Hn
      t out m os st l Ho Hnew Hr Hno Her Hor Hph) as (f & H1 & H2 & H3 & H4).
    exists f; split; [exact H1|]; split; [exact H2|].
    enough (S : verified_shares (fst st) a1 (named F "var" f) (named F "varexo" f) params (equations F f)
      (readable (named F "var" f) (named F "varexo" f) (equations F f) params /\ List.length (equations F f) = List.length (named F "var" f))).
    { intros N; destruct (S N) as (x1 & sp & sg & s & S0 & S1 & S2 & S3 & S5 & S4); exists x1, sp, sg, s; split; [exact S0|]; split; [exact S1|]; split; [exact S2|]; split; [exact S3|]; split; [exact S5|].
      intros Pf; apply S4, H3, Pf. }
    apply (H4 (fun ns sv sc es => verified_shares (fst st) a1 ns sv sc es (readable ns sv es sc /\ List.length es = List.length ns))).
    intros D' d0 x gy gu K B G; exact (model_verified_shares D' d0 x gy gu st s1 a1 K B G V Ea).
  Qed.
End C102Shares.
Print Assumptions C102_shares_partial.
Print Assumptions C102_shares_file_partial.

(** ** A concrete history *)
From Verif Require Import PiecewiseSimSpec PropPiecewiseSim UniqueExample.
From Verif Require PropStable PropRoots PropSettle.
Definition s_roots : bool :=
  match p_new s_args with
  | Ok m0 => match snd (p_step (Read RSpace) (fst (fst (s_run t_ops (m0, blank Qc))))) with
      | Ok (OValue (VSpace sp)) => forallb off_circle (eigen (sp_state sp)) | _ => false end
  | Err _ => false end.
(** The history of C95_shares_nonvacuous: the roots of the model are 1/2, 3/4 and 2. *)
Example C102_shares_nonvacuous :
  ModelStateSpec.describes Qc (r1 QO) s_def s_args /\ NoDup (keys (m_params Qc s_def)) /\ NoDup (keys (m_locals Qc s_def)) /\ distinct Qc (effects Qc (r1 QO) (operations Qc t_ops) s_def) /\
  exists m0 st l st' a, p_new s_args = Ok m0 /\ s_run t_ops (m0, blank Qc) = (st, l) /\ all_made Qc l /\ mended Qc l /\ orderly Qc Unsolved l /\ phase_after Qc Unsolved l = Settled /\
    s_step (Ask Shares) st = (st', Ok (Answer a)) /\ table a = s_table /\
    exists g ss sg, solving_rule Qc QO Qcle q_ops lendog lstoch lparams lmodel ss g /\ stable Qc QO g /\ no_unit_root Qc QO g /\ decomposes Qc QO Qcle g sg a.
Proof.
  split; [exact s_describes|]; split; [repeat constructor; cbn; intuition discriminate|]; split; [constructor|]; split; [exact s_distinct|].
  assert (Hrt : s_roots = true) by (vm_compute; reflexivity).
  destruct (s_facts Shares s_table ltac:(vm_compute; repeat apply conj; reflexivity)) as (m0 & st & l & st' & a & sp & sg & s & E0 & E1 & Ef & A & E2 & Ht & R1 & R2 & R3 & Sv & Hsg & Ha & _).
  destruct (t_made l A) as [Am Me]; destruct (t_phases t_ops l Ef A) as [Ph _]; destruct (Ph eq_refl) as [Or Ph']; clear Ph.
  exists m0, st, l, st', a; split; [exact E0|]; split; [exact E1|]; split; [exact Am|]; split; [exact Me|]; split; [exact Or|]; split; [exact Ph'|]; split; [exact E2|]; split; [exact Ht|].
  assert (N1 : NoDup (keys (m_params Qc s_def))) by (repeat constructor; cbn; intuition discriminate).
  assert (N2 : NoDup (keys (m_locals Qc s_def))) by constructor.
  destruct q_hypotheses as (H1 & H2 & H3 & H4 & H5 & H6 & H7 & _ & _ & H10 & _).
  destruct (C102_shares_partial Qc QO q_ops qlt same z0 p_minimize qgrad qjacobian xyz_qr rank_all p_qz p_inv xyz2_real qsolve lyapD lsolveD (cholD two_root) (fun x => x) Qcabs q_true (fun _ => true) q_decimal q_trunc p_text false
    Qcinv Qcle no_function squares H1 H2 H3 H4 H5 H7 (qz_with_ok _) (inv_with_ok _) H10 p_minimize_ok lyapD_solves (cholD_factors two_root) (proj1 Qcabs_spec) (proj2 Qcabs_spec)
    s_def s_args m0 t_ops st l st' a s_describes N1 N2 E0 E1 Am Me s_distinct Or Ph' E2) as (es & pv & lv & Ep & Sp & Sl & S).
  apply f_params in Sp; apply f_locals in Sl; subst pv lv; cbn in Ep; injection Ep as <-.
  destruct (S ltac:(discriminate)) as (x' & sp' & sg' & s' & S0 & S1 & S2 & S3 & _ & S4).
  change (snd (p_step (Read RSpace) (fst st)) = Ok (OValue (VSpace sp'))) in S1.
  assert (sp' = sp) by congruence; subst sp'.
  unfold s_roots in Hrt; rewrite E0, E1 in Hrt; cbn [fst] in Hrt; rewrite R1 in Hrt; rewrite forallb_forall in Hrt.
  destruct C95_separated as (B1 & B2 & B3 & _).
  destruct (S4 (conj lmodel_readable eq_refl) (lspace_solvable sp Sv) ltac:(cbn; lia) B1 B2 B3) as (_ & g & G1 & _ & G2 & G3 & G4).
  - intros e He; apply Hrt, orb_true_iff in He; destruct He as [He|He]; [left; apply is_inside_ok, He|right; apply PropRoots.is_outside_ok, He].
  - exists g, (sp_ss sp), sg'; split; [exact G1|]; split; [exact G2|]; split; [exact G3|exact G4].
Qed.

(** ** A concrete file *)
(** The model of LinearExample.v, with independent shocks of variance 4 up to the perturbation. *)
Definition v_text : string := "var x y z; varexo e f; parameters rho c; rho = 0.5; c = rho + 0.5;
 model; x = rho*x(-1) + e + x(-1)*(x(-1) + e); y(+1) + y(+1)^2 = 2.75*y - 1.5*y(-1) + f*(1 - x); z = x + y + (x*y + c); end;
 shocks; var e = 3.999999999999; var f = 3.999999999999; end;".
Definition v_decimal (t : text) : option Qc := if String.eqb (string_of_list_ascii t) "3.999999999999" then Some s_variance else q_decimal t.
Definition v_new := ModelState.new_model Qc q_ops (r0 QO) (r1 QO) q_true v_decimal q_trunc q_text (space_of Qc) (rules Qc) q_space.
Definition v_read := ModelState.step Qc q_ops (r0 QO) (r1 QO) q_true (fun _ => true) v_decimal q_trunc q_text false (space_of Qc) (rules Qc) q_space q_solver.
Definition v_step := StatsState.sstep Qc QO q_ops qlt (fun _ => true) z0 q_minimize rank_all lyapD lsolveD (cholD two_root) (fun x => x) Qcabs q_true v_decimal q_trunc q_text false q_space q_solver.
Definition v_run := StatsState.srun Qc QO q_ops qlt (fun _ => true) z0 q_minimize rank_all lyapD lsolveD (cholD two_root) (fun x => x) Qcabs q_true v_decimal q_trunc q_text false q_space q_solver.
Definition v_file : res (modfile Qc) := parse_file Qc v_decimal q_trunc z0 (chars v_text).
Lemma v_file_plain f : v_file = Ok f -> OutlineSpec.named Qc "var" f = lendog /\ OutlineSpec.named Qc "varexo" f = lstoch /\ equations Qc f = lmodel /\ plain_file Qc f.
Proof.
  assert (E : match v_file with Ok f => OutlineSpec.named Qc "var" f = lendog /\ OutlineSpec.named Qc "varexo" f = lstoch /\ equations Qc f = lmodel /\
     names_of Qc f = ["x"; "y"; "z"; "e"; "f"; "rho"; "c"] | Err _ => False end) by (vm_compute; repeat apply conj; reflexivity).
  intros H; rewrite H in E; destruct E as (E1 & E2 & E3 & E4); split; [exact E1|]; split; [exact E2|]; split; [exact E3|].
  constructor; rewrite ?E1, ?E3, ?E4.
  - intros x y Hx Hy; cbn [In] in Hx, Hy; repeat (destruct Hx as [<-|Hx]); try contradiction; repeat (destruct Hy as [<-|Hy]); try contradiction; split; discriminate.
  - intros x [<-|[<-|[<-|[]]]].
    + exists leq1; split; [left; reflexivity|left; apply O_binl; constructor].
    + exists leq3; split; [right; right; left; reflexivity|left; apply O_binr, O_binl, O_binr; constructor].
    + exists leq3; split; [right; right; left; reflexivity|left; apply O_binl; constructor].
  - intros e x He Ho; cbn [lmodel In] in He; destruct He as [<-|[<-|[<-|[]]]]; unfold leq1, leq2, leq3 in Ho; invert_tree; cbn; tauto.
  - intros e x k He Ho; cbn [lmodel In] in He; destruct He as [<-|[<-|[<-|[]]]]; unfold leq1, leq2, leq3 in Ho; invert_tree; cbn; tauto.
  - reflexivity.
Qed.
(** Read, solved and asked: [x] and [y] have one shock each, 7/10 of the variance of [z] comes from the first.
    These are the hypotheses of C95_shares_file_partial too. *)
Example C102_shares_file_nonvacuous :
  exists f out m st l st' a, v_file = Ok f /\ Factory.read_model Qc q_ops (q 2 1) v_decimal q_trunc z0 (chars v_text) = Ok out /\
  v_new (outline_args Qc out) = Ok m /\ v_run [Do (Solve 1)] (m, blank Qc) = (st, l) /\ (forall o e, ~ In (o, Err e) l) /\ orderly Qc Unsolved l /\ phase_after Qc Unsolved l = Settled /\
  v_step (Ask Shares) st = (st', Ok (Answer a)) /\ table a = s_table /\ plain_file Qc f /\ model_scope Qc (definition _ _ _ m) = lparams /\
  exists g ss sg, solving_rule Qc QO Qcle q_ops lendog lstoch lparams lmodel ss g /\ stable Qc QO g /\ no_unit_root Qc QO g /\ decomposes Qc QO Qcle g sg a.
Proof.
  assert (E : match v_file, Factory.read_model Qc q_ops (q 2 1) v_decimal q_trunc z0 (chars v_text) with
    | Ok f, Ok out => match v_new (outline_args Qc out) with Ok m =>
        match v_run [Do (Solve 1)] (m, blank Qc) with
        | (st, [(Do (Solve 1), Ok _)]) =>
            match v_step (Ask Shares) st with
            | (st', Ok (Answer a)) => table a = s_table /\
                match snd (v_read (Read RSpace) (fst st)) with Ok (OValue (VSpace sp)) =>
                  lspace sp && lscope (model_scope Qc (definition _ _ _ m)) && forallb off_circle (eigen (sp_state sp)) = true | _ => False end
            | _ => False end
        | _ => False end | _ => False end
    | _, _ => False end) by (vm_compute; split; reflexivity).
  destruct v_file as [f|] eqn:Ef; [|contradiction]; destruct (Factory.read_model _ _ _ _ _ _ _) as [out|] eqn:Eo; [|contradiction].
  destruct (v_new _) as [m|] eqn:Em; [|contradiction]; destruct (v_run [Do (Solve 1)] (m, blank Qc)) as [st l] eqn:E1.
  destruct l as [|[p1 w1] l]; [contradiction|]; destruct p1 as [p1|]; [|contradiction]; destruct p1 as [| | | | | |n1| |]; try contradiction.
  destruct n1 as [|[|]]; try contradiction; destruct w1 as [w1|]; [|contradiction]; destruct l; [|contradiction].
  destruct (v_step (Ask Shares) st) as [st' [[|a]|]] eqn:E2; try contradiction; destruct E as [Ht E].
  destruct (snd (v_read (Read RSpace) (fst st))) as [[|[| | |sp|]| |]|] eqn:R1; try contradiction.
  apply andb_true_iff in E as [E Er]; apply andb_true_iff in E as [E Ep]; apply lscope_is in Ep; rewrite forallb_forall in Er.
  destruct (v_file_plain f Ef) as (F1 & F2 & F3 & F4).
  eexists f, out, m, st, _, st', a; split; [reflexivity|]; split; [reflexivity|]; split; [exact Em|]; split; [exact E1|].
  assert (A : forall o e, ~ In (o, Err e) [(Do (F:=Qc) (Solve 1), Ok w1)]) by (intros o e [H|[]]; discriminate H); split; [exact A|].
  assert (Or : orderly Qc Unsolved [(Do (Solve 1), Ok w1)]) by (split; exact I); split; [exact Or|]; split; [reflexivity|]; split; [exact E2|]; split; [exact Ht|]; split; [exact F4|]; split; [exact Ep|].
  destruct q_hypotheses as (H1 & H2 & H3 & H4 & H5 & H6 & H7 & H8 & H9 & H10 & H11 & H12 & H13 & H14).
  destruct (C102_shares_file_partial Qc QO q_ops qlt same z0 q_minimize qgrad qjacobian xyz_qr rank_all xyz_qz xyz_inv xyz2_real qsolve lyapD lsolveD (cholD two_root) (fun x => x) Qcabs (q 2 1) q_true (fun _ => true) v_decimal q_trunc z0 q_text false
    Qcinv Qcle no_function squares H1 H2 H3 H4 H5 H6 H7 H8 H9 H10 H14 lyapD_solves (cholD_factors two_root) (proj1 Qcabs_spec) (proj2 Qcabs_spec)
    (chars v_text) out m [Do (Solve 1)] st _ st' a Eo Em E1 ltac:(intros o [<-|[]] []) A Or eq_refl E2) as (f' & Hf & Hv & S).
  assert (f' = f) by (unfold v_file in Ef; congruence); subst f'; rewrite Ep, F1, F2, F3 in S.
  destruct (S ltac:(discriminate)) as (x' & sp' & sg' & s' & S0 & S1 & S2 & S3 & _ & S4).
  change (snd (v_read (Read RSpace) (fst st)) = Ok (OValue (VSpace sp'))) in S1.
  assert (sp' = sp) by congruence; subst sp'; destruct C95_separated as (B1 & _ & B3 & _).
  assert (B2 : finite_quotients Qc QO xyz_qz) by (apply PropStable.quotients_ok; vm_compute; reflexivity).
  destruct (S4 F4 (lspace_solvable sp E) ltac:(cbn; lia) B1 B2 B3) as (_ & g & G1 & _ & T1 & T2 & G3).
  - intros e He; apply Er, orb_true_iff in He; destruct He as [He|He]; [left; apply is_inside_ok, He|right; apply PropRoots.is_outside_ok, He].
  - exists g, (sp_ss sp), sg'; split; [exact G1|]; split; [exact T1|]; split; [exact T2|exact G3].
Qed.
