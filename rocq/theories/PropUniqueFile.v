(** The solution of a model file, or of a model with a history, is the only bounded one:
    property C101. *)
From Verif Require Import Base Syntax Lexer Parser Eval EvalSpec Semantics Factory FactorySpec Calib CalibSpec CalibProofs Indexing IndexingSpec DynFunc DynSpec Vars ExprList
  ModelState ModelStateSpec ModelStateProofs ModelStateProofs2 PropModel OutlineSpec PropDyn
  Nd NdInst Mat NdProofs SimSpec OrderProofs CalcSpec CalcProofs CalcProofs2 CalcProofs3 Linearize LinearizeSpec LinearizeProofs Steady SteadyValues SteadyValuesSpec PropSteadyValues
  FirstOrder FirstOrderSpec PropFirst Sylvester SylvesterSpec SecondOrder SecondOrderSpec PropSecond AccuracySpec PropAccuracy FirstOrderExample Gauss SylvesterExample LinearExample
  Pipeline PipelineSpec PipelineProofs PropPipeline StableSpec PropStable PathStable UniqueSpec PropUnique.
From Coq Require Import ZArith QArith Qcanon.
Local Open Scope string_scope.
Local Open Scope list_scope.
Local Open Scope nat_scope.

Section C101.
  Notation named := OutlineSpec.named.
  Variable F : Type.
  Variable O : rops F.
  Variable P : ops F.
  Variable ltb eqb : F -> F -> bool.
  Variable nan : F.
  Variable minimize : solver -> (list F -> res F) -> list F -> res (list F).
  Variable grad : (list F -> res F) -> list F -> res (list F).
  Variable jacobian : (list F -> res (list F)) -> list F -> res (list (list F)).
  Variable qr : nat -> nat -> mat F -> res (mat F * mat F).
  Variable rank : nat -> nat -> mat F -> nat.
  Variable ordqz : nat -> mat F -> mat F -> res (schur F).
  Variable inv : nat -> mat F -> res (mat F).
  Variable qz : nat -> mat F -> mat F -> res (mat F * mat F * mat F * mat F).
  Variable solve : nat -> nat -> mat F -> mat F -> res (mat F).
  Variable two : F.
  Variable truthy isnum : F -> bool.
  Variable float_of : text -> option F.
  Variable trunc : F -> option Z.
  Variable nzero : F.
  Variable parse_text : text -> res (ast F).
  Variable keeps : bool.

  (** The model with its numerical parts. *)
  Notation space := (whole_space F O P ltb nan minimize grad qr rank ordqz).
  Notation solver_ := (whole_solver F O P eqb nan minimize grad jacobian inv qz solve).
  Notation read_model := (Factory.read_model F P two float_of trunc nzero).
  Notation new_model := (ModelState.new_model F P (r0 O) (r1 O) truthy float_of trunc parse_text (space_of F) (rules F) space).
  Notation step := (ModelState.step F P (r0 O) (r1 O) truthy isnum float_of trunc parse_text keeps (space_of F) (rules F) space solver_).
  Notation run := (ModelState.run F P (r0 O) (r1 O) truthy isnum float_of trunc parse_text keeps (space_of F) (rules F) space solver_).
  Notation definition := (ModelState.definition F (space_of F) (rules F)).
  Notation derived := (ModelState.derived F (space_of F) (rules F)).

  (** What the routines promise, in exact arithmetic. *)
  Variable finv : F -> F.
  Variable le : F -> F -> Prop.
  Variable fns : string -> smooth_fun F.
  Variable pows : F -> smooth_fun F.
  Hypothesis FT : is_field O finv.
  Hypothesis OR : is_ordered O le.
  Hypothesis Hl : forall x y, ltb x y = false <-> le y x.
  Hypothesis Heq : forall x y, eqb x y = true <-> x = y.
  Hypothesis HI : interprets F O le P fns pows.
  Hypothesis Hn : forall v, o_isnone P v = true -> v = o_none P.
  Hypothesis Hqr : qr_routine F O qr.
  Hypothesis Hqz : schur_routine F O le ordqz.
  Hypothesis Hinv : inverse_routine F O inv.
  Hypothesis Hs : linear_routine F O solve.
  Hypothesis Hu : refuses_singular F O solve.
  Hypothesis AR : archimedean F O le.
  Hypothesis Hfin : finite_quotients F O ordqz.
  (** The optimiser finds the least value of a sum of squares. *)
  Hypothesis Hm : forall s m x0 y, minimize s (least_squares F O P m) x0 = Ok y -> least F le (List.length x0) (least_squares F O P m) y.

  (** The model has a steady state, the equations are smooth at the one that is found, and
      autograd differentiates them. *)
  Definition regular (endog stoch : list string) (params : list (string * F)) (exprs : list (ast F)) (sp : space_of F) : Prop :=
    (forall l, signature F endog exprs l -> differentiates F O le P endog stoch exprs params grad jacobian l) /\
    (exists y, is_steady F O P endog stoch exprs params y) /\
    smooth_at F O endog stoch exprs params fns pows (sp_ss sp).

  (** The arrays [gy] and [gu] give the only bounded solution of the equations to first order
      around [ss], when the roots [roots] are separated. *)
  Definition only_solution (endog stoch : list string) (params : list (string * F)) (exprs : list (ast F)) (ss : list F) (roots : list (cnum F)) (gy gu : nd F) : Prop :=
    exists L g, occurs_with endog exprs L /\ about F L g /\ proper g /\ rk g = List.length stoch /\
      gy = squeeze F (M2 (rn g) (rs g) (ry g)) /\ gu = squeeze F (M2 (rn g) (rk g) (ru g)) /\
      (separated F O le roots (List.length (members_of L (backward L))) ->
       (forall lag u, exists y, path_follows F O g lag u y /\
          path_holds F O le P endog stoch params exprs ss lag u y /\ bounded F O le (List.length endog) y /\
          forall y', path_holds F O le P endog stoch params exprs ss lag u y' -> bounded F O le (List.length endog) y' ->
            forall t v, v < List.length endog -> y' t v = y t v) /\
       (forall lag u y, path_follows F O g lag u y <->
          path_holds F O le P endog stoch params exprs ss lag u y /\ bounded F O le (List.length endog) y)).

  (** What the first-order arrays of a solution [s], computed by a new model [m], are for the
      equations, whichever order is asked for. *)
  Definition unique_for (m : mstate F (space_of F) (rules F)) (s : rules F)
      (endog stoch : list string) (params : list (string * F)) (exprs : list (ast F)) (fits : Prop) : Prop :=
    exists sp gy gu, step (Read RSpace) m = (m, Ok (OValue (VSpace sp))) /\
      (s = First gy gu \/ exists xx xu uu dl, s = Second gy gu xx xu uu dl) /\
      (fits -> regular endog stoch params exprs sp ->
       is_steady F O P endog stoch exprs params (sp_ss sp) /\ only_solution endog stoch params exprs (sp_ss sp) (eigen (sp_state sp)) gy gu).

  Lemma model_unique d a m o m' s : describes F (r1 O) d a -> distinct F d -> new_model a = Ok m -> step (Solve o) m = (m', Ok (OSolution s)) ->
    let D := definition m in
    let ns := map ev_name (d_endog F D) in let sv := map sv_name (d_stoch F D) in
    let sc := model_scope F D in let es := trees (d_exprs F D) in
    unique_for m s ns sv sc es (readable ns sv es sc /\ List.length es = List.length ns).
  Proof.
    intros De Di Hnew Hst.
    destruct (new_model_known F P (r0 O) (r1 O) truthy isnum float_of trunc parse_text _ _ space d _ m De Di Hnew) as (K & Al & _ & K1 & K2 & [Fr Sg] & _).
    assert (C : current F P (r0 O) isnum _ _ space m) by (right; split; [exact K1|split; [exact K2|split; [exact Fr|exact Sg]]]).
    unfold ModelState.step at 1, ok_with in Hst.
    destruct (ModelState.solve F P (r0 O) isnum _ _ space solver_ o m) as [m3 [w|e]] eqn:E; cbn [fst snd bind] in Hst; [|discriminate].
    injection Hst as <- ->.
    pose proof (proj1 (solve_ok F P (r0 O) truthy isnum float_of trunc parse_text _ _ space solver_ _ _ _ _ E) d K) as K'.
    destruct (solve_current F P (r0 O) truthy isnum float_of trunc parse_text _ _ space solver_ _ _ _ _ C E) as (_ & x & st & dy & sp & Fr' & So).
    pose proof (tracks_fresh F P (r0 O) truthy float_of trunc parse_text _ space d _ _ _ _ _ _ K' K Fr') as Fr2.
    destruct (fresh_fun F _ space _ _ _ _ _ _ _ _ _ _ _ _ _ Fr Fr2) as (E1 & E2 & E3 & E4).
    rewrite (tracks_inits F P (r0 O) truthy float_of trunc parse_text d _ K'), <- (tracks_inits F P (r0 O) truthy float_of trunc parse_text d _ K) in So.
    rewrite (tracks_stoch F P (r0 O) truthy float_of trunc parse_text d _ _ K K') in So.
    subst x st dy sp; cbn zeta; unfold fresh_of in Fr.
    assert (Rsp : step (Read RSpace) m = (m, Ok (OValue (VSpace (c_space _ _ (derived m)))))) by (unfold ModelState.step, ok_with, read, ensure; rewrite Al; reflexivity).
    assert (St : readable (map ev_name (d_endog F (definition m))) (map sv_name (d_stoch F (definition m))) (trees (d_exprs F (definition m))) (model_scope F (definition m)) ->
      (exists y, is_steady F O P (map ev_name (d_endog F (definition m))) (map sv_name (d_stoch F (definition m))) (trees (d_exprs F (definition m))) (model_scope F (definition m)) y) ->
      is_steady F O P (map ev_name (d_endog F (definition m))) (map sv_name (d_stoch F (definition m))) (trees (d_exprs F (definition m))) (model_scope F (definition m)) (sp_ss (c_space _ _ (derived m)))).
    { intros Rd Ex; eapply (steady_found F O P ltb eqb nan minimize grad qr rank ordqz finv le FT OR Heq Hm); [exact Fr|apply endog_length|exact Rd|exact Ex]. }
    assert (U : exists gy gu, solver_ None (map ev_init (d_endog F (definition m))) (c_steady _ _ (derived m)) (c_dynamic _ _ (derived m)) (c_space _ _ (derived m)) = Ok (First gy gu) /\
      (s = First gy gu \/ exists xx xu uu dl, s = Second gy gu xx xu uu dl)).
    { destruct So as [[-> So]|[Ho (s1 & sg & So & Esg & So2)]].
      - pose proof So as So'; cbn [whole_solver] in So'; apply bind_ok in So' as ([gy gu] & _ & Es'); injection Es' as <-; exists gy, gu; split; [exact So|left; reflexivity].
      - pose proof So as So'; cbn [whole_solver] in So'; apply bind_ok in So' as ([gy gu] & _ & Es'); injection Es' as <-; exists gy, gu; split; [exact So|right].
        cbn [whole_solver fst snd] in So2; apply bind_ok in So2 as (ss & _ & So2); apply bind_ok in So2 as (Hs_ & _ & So2); apply bind_ok in So2 as ([[[xx xu] uu] dl] & _ & So2); injection So2 as <-.
        exists xx, xu, uu, dl; reflexivity. }
    destruct U as (gy & gu & So1 & Sh); exists (c_space _ _ (derived m)), gy, gu; split; [exact Rsp|]; split; [exact Sh|].
    intros [Rd Sq] (Hd & Hex & Sm); specialize (St Rd Hex); split; [exact St|].
    destruct (fresh_built F O P ltb nan minimize grad qr rank ordqz _ _ _ _ _ _ _ _ _ Fr) as (B & _ & _ & _ & J & S).
    cbn [whole_solver] in So1; apply bind_ok in So1 as ([gy' gu'] & Eg & So1); cbn [fst snd] in So1; injection So1 as E1 E2; subst gy' gu'.
    destruct St as [Ls SS].
    exact (C101_partial F O finv le ltb P fns pows grad jacobian qr rank ordqz inv solve _ _ _ _ _ _ _ _ gy gu FT OR Hl AR HI Hqr Hqz Hfin Hinv Hs Hu Rd Sq Hd Ls Sm SS B J S Eg).
  Qed.

  (** Full statement: when a model file is read, the model is made and [solve] returns, then
      the first-order rule it returns gives, after whatever deviations and shocks, the only
      bounded path along which the equations of the file hold to first order around a steady
      state.  Proved for files that are [plain_file], models that are [regular] and roots that
      are separated. *)
  Theorem C101_file_partial :
    forall (t : text) (out : outline F) (m m' : mstate F (space_of F) (rules F)) (o : nat) (s : rules F),
    read_model t = Ok out -> new_model (outline_args F out) = Ok m -> step (Solve o) m = (m', Ok (OSolution s)) ->
    let params := model_scope F (definition m) in
    exists f, parse_file F float_of trunc nzero t = Ok f /\ values_of F P f params /\
      unique_for m s (named F "var" f) (named F "varexo" f) params (equations F f) (plain_file F f).
  Proof.
    intros t out m m' o s Ho Hnew Hst params; subst params.
    destruct (file_model F P two (r0 O) (r1 O) truthy float_of trunc nzero parse_text _ _ space Hn t out m Ho Hnew) as (f & Hf & Hv & E1 & E2 & E3 & E4).
    destruct (file_defined F P two (r1 O) float_of trunc nzero Hn t out Ho) as (f' & d & Hf' & _ & _ & D & Di & _).
    pose proof (model_unique d _ m o m' s D Di Hnew Hst) as S; cbn zeta in S; rewrite E1, E2, E3 in S.
    exists f; split; [exact Hf|]; split; [exact E4|].
    assert (Rd : plain_file F f -> readable (named F "var" f) (named F "varexo" f) (equations F f) (model_scope F (definition m)) /\ List.length (equations F f) = List.length (named F "var" f)).
    { intros Pf; split; [|apply Pf]; apply (file_readable F float_of trunc nzero t f _ Hf Hv Pf); destruct E4 as (? & ? & _ & _ & _ & _ & E); exact E. }
    destruct S as (sp & gy & gu & Rs & Sh & S); exists sp, gy, gu; split; [exact Rs|]; split; [exact Sh|]; intros Pf; apply S, Rd, Pf.
  Qed.

  (** The same after any history of additions, readings, solutions and simulations. *)
  Theorem C101_history_partial :
    forall (d : mdef F) (a : args F) (m0 : mstate F (space_of F) (rules F)) (os : list (op F)) (m m' : mstate F (space_of F) (rules F)) l (o : nat) (s : rules F),
    describes F (r1 O) d a -> NoDup (keys (m_params F d)) -> NoDup (keys (m_locals F d)) ->
    new_model a = Ok m0 -> run os m0 = (m, l) -> additions_made F _ _ l -> repaired F _ _ l -> distinct F (effects F (r1 O) os d) ->
    step (Solve o) m = (m', Ok (OSolution s)) ->
    let D := effects F (r1 O) os d in
    let ns := map fst (m_endog F D) in let sv := map fst (m_stoch F D) in
    forall a', describes F (r1 O) D a' -> exists m1 es pv lv, new_model a' = Ok m1 /\
      mapM (parse_given F parse_text) (m_exprs F D) = Ok es /\
      satisfies F P float_of trunc pv (m_params F D) /\ satisfies F P float_of trunc lv (m_locals F D) /\
      let sc := merge F pv lv in
      unique_for m1 s ns sv sc es (readable ns sv es sc /\ List.length es = List.length ns).
  Proof.
    intros d a m0 os m m' l o s De N1 N2 Hnew Hr Ha Hrp Di Hst D ns sv a' De'.
    destruct (C31_solve_is_current_partial F P (r0 O) (r1 O) truthy isnum float_of trunc parse_text keeps _ _ space solver_ d a m0 os m l o m' s De Hnew Hr Ha Hrp Di Hst a' De')
      as (m1 & m2 & Hm1 & Hs1).
    pose proof (model_unique D a' m1 o m2 s De' Di Hm1 Hs1) as S; cbn zeta in S.
    destruct (new_model_known F P (r0 O) (r1 O) truthy isnum float_of trunc parse_text _ _ space D _ m1 De' Di Hm1) as (K & _).
    destruct (effects_params F O os d N1 N2) as [N1' N2'].
    pose proof (tracks_names F P (r0 O) truthy float_of trunc parse_text D _ K) as E1.
    destruct K as (_ & K2 & _ & (pv & P1 & P2) & (lv & L1 & L2) & K6).
    assert (E2 : map sv_name (d_stoch F (definition m1)) = sv).
    { unfold sv; clear - K2; apply mapM_ok in K2; induction K2 as [|p v l l' Hv _ IH]; cbn [map]; [reflexivity|rewrite IH; f_equal].
      destruct p as [x [|[] []]]; cbn in Hv; try discriminate; injection Hv as <-; reflexivity. }
    rewrite E1, E2 in S; unfold model_scope in S; rewrite P1, L1 in S; cbn [solved] in S.
    exists m1, (trees (d_exprs F (definition m1))), pv, lv; split; [exact Hm1|]; split; [exact K6|].
    split; [apply (solve_satisfies F P float_of trunc _ _ N1' P2)|]; split; [apply (solve_satisfies F P float_of trunc _ _ N2' L2)|exact S].
  Qed.
End C101.
Print Assumptions C101_file_partial.
Print Assumptions C101_history_partial.

(** ** The file of C92 and the history of C92 *)
Definition lroots (sp : space_of Qc) : bool :=
  match eigen (sp_state sp) with [Fin a b; Fin c d; Fin e f] => same a (q 1 2) && same b z0 && same c (q 3 4) && same d z0 && same e (q 2 1) && same f z0 | _ => false end.
Lemma lroots_separated sp L : lroots sp = true -> occurs_with lendog lmodel L -> separated Qc QO Qcle (eigen (sp_state sp)) (List.length (members_of L (backward L))).
Proof.
  intros E HL; unfold lroots in E; destruct (eigen (sp_state sp)) as [|[a b| |] [|[c d| |] [|[e f| |] [|? ?]]]]; try discriminate E.
  repeat (apply andb_true_iff in E as [E ?]); repeat match goal with G : same _ _ = true |- _ => apply same_eq in G end; subst.
  replace (List.length (members_of L (backward L))) with 2.
  - split; [cbn; lia|]; split.
    + intros [|[|i]] Hi; try (cbn in Hi; lia); cbn [nth]; apply is_inside_ok; vm_compute; reflexivity.
    + intros [|[|[|i]]] Hi; try (cbn in Hi; lia); cbn; apply qlt_true; vm_compute; reflexivity.
  - assert (El : exists lls, set_lead_lags Qc lendog lmodel = Ok lls /\ List.length (members_of (map snd lls) (backward (map snd lls))) = 2) by (eexists; split; vm_compute; reflexivity).
    destruct El as (lls & El & N2); destruct lmodel_readable as (Nd & _ & R & _).
    destruct (lls_offsets Qc lendog lmodel lls (Ne lendog lstoch Nd) R El) as (Of & _).
    rewrite (same_backward Qc lendog lmodel L (map snd lls) HL Of); symmetry; exact N2.
Qed.
Example C101_file_nonvacuous : archimedean Qc QO Qcle /\ finite_quotients Qc QO xyz_qz /\
  exists f out m s, lfile = Ok f /\ Factory.read_model Qc q_ops (q 2 1) q_decimal q_trunc z0 (chars ltext) = Ok out /\
  q_new (outline_args Qc out) = Ok m /\ snd (q_step (Solve 2) m) = Ok (OSolution s) /\ lshow s = true /\ plain_file Qc f /\
  model_scope Qc (definition _ _ _ m) = lparams /\
  regular Qc QO q_ops qgrad qjacobian Qcle no_function squares (OutlineSpec.named Qc "var" f) (OutlineSpec.named Qc "varexo" f) lparams (equations Qc f) (c_space _ _ (derived _ _ _ m)) /\
  (forall L, occurs_with (OutlineSpec.named Qc "var" f) (equations Qc f) L -> separated Qc QO Qcle (eigen (sp_state (c_space _ _ (derived _ _ _ m)))) (List.length (members_of L (backward L)))) /\
  unique_for Qc QO q_ops qlt same z0 q_minimize qgrad qjacobian xyz_qr rank_all xyz_qz xyz_inv xyz2_real qsolve q_true (fun _ => true) q_decimal q_trunc q_text false Qcle no_function squares
    m s lendog lstoch lparams lmodel (plain_file Qc f).
Proof.
  split; [exact Q_archimedean|]; split; [apply quotients_ok; vm_compute; reflexivity|].
  assert (E : match lfile, Factory.read_model Qc q_ops (q 2 1) q_decimal q_trunc z0 (chars ltext) with
    | Ok f, Ok out => match q_new (outline_args Qc out) with Ok m =>
        match snd (q_step (Solve 2) m) with Ok (OSolution s) =>
          lshow s && lspace (c_space _ _ (derived _ _ _ m)) && lscope (model_scope Qc (definition _ _ _ m)) && lroots (c_space _ _ (derived _ _ _ m)) = true | _ => False end | _ => False end
    | _, _ => False end) by (vm_compute; reflexivity).
  destruct lfile as [f|] eqn:Ef; [|contradiction]; destruct (Factory.read_model _ _ _ _ _ _ _) as [out|] eqn:Eo; [|contradiction].
  destruct (q_new _) as [m|] eqn:Em; [|contradiction]; destruct (q_step (Solve 2) m) as [m' [[| |s|]|]] eqn:Es; cbn [snd] in E; try contradiction.
  apply andb_true_iff in E as [E Er]; apply andb_true_iff in E as [E Ep]; apply lscope_is in Ep; apply andb_true_iff in E as [E1 E2]; exists f, out, m, s; cbn [snd].
  destruct (lfile_plain f Ef) as (F1 & F2 & F3 & F4); destruct (lspace_solvable _ E2) as (V1 & V2 & V3 & _).
  split; [reflexivity|]; split; [reflexivity|]; split; [exact Em|]; split; [rewrite Es; reflexivity|]; split; [exact E1|]; split; [exact F4|]; split; [exact Ep|].
  rewrite F1, F2, F3; split; [split; [exact V1|split; [exact V2|exact V3]]|]; split; [intros L; apply lroots_separated, Er|].
  destruct q_hypotheses as (H1 & H2 & H3 & H4 & H5 & H6 & H7 & H8 & H9 & H10 & H11 & H12 & H13 & H14).
  assert (H15 : finite_quotients Qc QO xyz_qz) by (apply quotients_ok; vm_compute; reflexivity).
  destruct (C101_file_partial Qc QO q_ops qlt same z0 q_minimize qgrad qjacobian xyz_qr rank_all xyz_qz xyz_inv xyz2_real qsolve (q 2 1) q_true (fun _ => true) q_decimal q_trunc z0 q_text false
    Qcinv Qcle no_function squares H1 H2 H3 H4 H5 H6 H7 H8 H9 H10 H13 Q_archimedean H15 H14 (chars ltext) out m m' 2 s Eo Em Es) as (f' & Hf & Hv & S).
  assert (f' = f) by (unfold lfile in Ef; congruence); subst f'; rewrite Ep, F1, F2, F3 in S; exact S.
Qed.
Example C101_history_nonvacuous :
  describes Qc (r1 QO) h_def (h_args (q 2 1)) /\ describes Qc (r1 QO) (effects Qc (r1 QO) h_ops h_def) (h_args z1) /\
  distinct Qc (effects Qc (r1 QO) h_ops h_def) /\ NoDup (keys (m_params Qc h_def)) /\ NoDup (keys (m_locals Qc h_def)) /\
  exists m0 m l s, q_new (h_args (q 2 1)) = Ok m0 /\ q_run h_ops m0 = (m, l) /\ additions_made Qc _ _ l /\ repaired Qc _ _ l /\
    snd (q_step (Solve 1) m) = Ok (OSolution s) /\
    exists m1, q_new (h_args z1) = Ok m1 /\
      regular Qc QO q_ops qgrad qjacobian Qcle no_function squares lendog lstoch lparams lmodel (c_space _ _ (derived _ _ _ m1)) /\
      forall L, occurs_with lendog lmodel L -> separated Qc QO Qcle (eigen (sp_state (c_space _ _ (derived _ _ _ m1)))) (List.length (members_of L (backward L))).
Proof.
  destruct C92_history_nonvacuous as (A & B & C & D & E & m0 & m & l & s & X1 & X2 & X3 & X4 & X5 & m1 & X6 & (V1 & V2 & V3 & _) & _).
  repeat (split; [assumption|]); exists m0, m, l, s; repeat (split; [assumption|]); exists m1; split; [exact X6|]; split; [split; [exact V1|split; [exact V2|exact V3]]|].
  intros L; apply lroots_separated.
  assert (G : match q_new (h_args z1) with Ok m1 => lroots (c_space _ _ (derived _ _ _ m1)) = true | _ => False end) by (vm_compute; reflexivity).
  rewrite X6 in G; exact G.
Qed.
