(** Simulated paths and the equations of the model: property C93. *)
From Verif Require Import Base Syntax Lexer Parser Eval EvalSpec Semantics Factory FactorySpec Calib CalibSpec CalibProofs Indexing IndexingSpec DynFunc DynSpec Vars ExprList
  ModelState ModelStateSpec ModelStateProofs ModelStateProofs2 PropModel OutlineSpec PropDyn
  Nd NdInst Mat NdProofs SimSpec OrderProofs CalcSpec CalcProofs CalcProofs2 CalcProofs3 Linearize LinearizeSpec LinearizeProofs Steady SteadyValues SteadyValuesSpec PropSteadyValues
  FirstOrder FirstOrderSpec PropFirst Sylvester SylvesterSpec SecondOrder SecondOrderSpec PropSecond AccuracySpec PropAccuracy FirstOrderExample Gauss SylvesterExample LinearExample
  Pipeline PipelineSpec PipelineProofs PropPipeline Sim SimProofs3 PathSim PathSimSpec PathSimProofs.
From Coq Require Import ZArith QArith Qcanon.
Local Open Scope string_scope.
Local Open Scope list_scope.
Local Open Scope nat_scope.

Section C93.
  Notation named := OutlineSpec.named.
  Variable F : Type.
  Variable O : rops F.
  Variable P : ops F.
  Variable ltb eqb : F -> F -> bool.
  Variable nan : F.
  Variable minimize : solver -> (list F -> res F) -> list F -> res (list F).
  Variable grad : (list F -> res F) -> list F -> res (list F).
  Variable jacobian : (list F -> res (list F)) -> list F -> res (list (list F)).
  Variable qr : nat -> nat -> mat F -> res (mat F * mat F).
  Variable rank : nat -> nat -> mat F -> nat.
  Variable ordqz : nat -> mat F -> mat F -> res (schur F).
  Variable inv : nat -> mat F -> res (mat F).
  Variable qz : nat -> mat F -> mat F -> res (mat F * mat F * mat F * mat F).
  Variable solve : nat -> nat -> mat F -> mat F -> res (mat F).
  Variable chol : nat -> (nat -> nat -> F) -> res (nat -> nat -> F).
  Variable two : F.
  Variable truthy isnum : F -> bool.
  Variable float_of : text -> option F.
  Variable trunc : F -> option Z.
  Variable nzero : F.
  Variable parse_text : text -> res (ast F).
  Variable keeps : bool.

  (** The model with its numerical parts. *)
  Notation space := (whole_space F O P ltb nan minimize grad qr rank ordqz).
  Notation solver_ := (whole_solver F O P eqb nan minimize grad jacobian inv qz solve).
  Notation read_model := (Factory.read_model F P two float_of trunc nzero).
  Notation new_model := (ModelState.new_model F P (r0 O) (r1 O) truthy float_of trunc parse_text (space_of F) (rules F) space).
  Notation step := (ModelState.step F P (r0 O) (r1 O) truthy isnum float_of trunc parse_text keeps (space_of F) (rules F) space solver_).
  Notation run := (ModelState.run F P (r0 O) (r1 O) truthy isnum float_of trunc parse_text keeps (space_of F) (rules F) space solver_).
  Notation simulation := (whole_simulate F O P isnum nan minimize chol space solver_).
  Notation definition := (ModelState.definition F (space_of F) (rules F)).
  Notation derived := (ModelState.derived F (space_of F) (rules F)).

  (** What the routines promise, in exact arithmetic. *)
  Variable finv : F -> F.
  Variable le : F -> F -> Prop.
  Variable fns : string -> smooth_fun F.
  Variable pows : F -> smooth_fun F.
  Hypothesis FT : is_field O finv.
  Hypothesis OR : is_ordered O le.
  Hypothesis Hl : forall x y, ltb x y = false <-> le y x.
  Hypothesis Heq : forall x y, eqb x y = true <-> x = y.
  Hypothesis HI : interprets F O le P fns pows.
  Hypothesis Hn : forall v, o_isnone P v = true -> v = o_none P.
  Hypothesis Hqr : qr_routine F O qr.
  Hypothesis Hqz : schur_routine F O le ordqz.
  Hypothesis Hinv : inverse_routine F O inv.
  Hypothesis Hs : linear_routine F O solve.
  Hypothesis Hm : forall s m x0 y, minimize s (least_squares F O P m) x0 = Ok y -> least F le (List.length x0) (least_squares F O P m) y.

  Notation solvable := (PropPipeline.solvable F O P grad jacobian le fns pows).

  (** What the simulations of a model [m] are for the equations: the covariance matrix is
      factorised, and the paths that are simulated with the order 1 satisfy the equations to
      first order around a steady state. *)
  Definition simulations_for (m : mstate F (space_of F) (rules F)) (endog stoch : list string) (params : list (string * F)) (exprs : list (ast F)) (fits : Prop) : Prop :=
    exists m1 s sp sigma R, step (Simulate 1) m = (m1, Ok (OSimulation s sp)) /\
      snd (step (Read RSigma) m1) = Ok (OValue (VSigma sigma)) /\ chol (List.length stoch) sigma = Ok R /\
      (fits -> solvable endog stoch params exprs sp -> 1 < List.length endog \/ List.length stoch = 1 ->
       is_steady F O P endog stoch exprs params (sp_ss sp) /\
       forall periods noise, paths_solve F O le P endog stoch params exprs (sp_ss sp) R
         (fun shocks init => snd (simulation 1 (Some shocks) periods noise (Some init) m))).

  Lemma model_paths D m given periods noise init p0 :
    ModelStateProofs.known F P (r0 O) truthy float_of trunc parse_text (space_of F) (rules F) D m -> ModelStateProofs.current F P (r0 O) isnum (space_of F) (rules F) space m ->
    snd (simulation 1 given periods noise init m) = Ok p0 ->
    let d := definition m in
    let ns := map ev_name (d_endog F d) in let sv := map sv_name (d_stoch F d) in
    let sc := model_scope F d in let es := trees (d_exprs F d) in
    simulations_for m ns sv sc es (readable ns sv es sc /\ List.length es = List.length ns).
  Proof using FT OR Hl Heq HI Hqr Hqz Hinv Hs Hm.
    intros K C H0 d ns sv sc es.
    assert (Ex : exists m1 s, ModelState.simulate F P (r0 O) isnum _ _ space solver_ 1 m = (m1, Ok (s, c_space _ _ (derived m1))) /\
      ModelStateProofs.known F P (r0 O) truthy float_of trunc parse_text (space_of F) (rules F) D m1 /\ altered _ _ _ m1 = false /\
      ModelStateProofs.consistent F P (r0 O) isnum _ _ space m1 /\ (exists sg, c_sigma _ _ (derived m1) = Some sg) /\
      solver_ None (map ev_init (d_endog F (definition m1))) (c_steady _ _ (derived m1)) (c_dynamic _ _ (derived m1)) (c_space _ _ (derived m1)) = Ok s).
    { unfold whole_simulate in H0; destruct (ModelState.simulate F P (r0 O) isnum _ _ space solver_ 1 m) as [m1 [[s sp]|e]] eqn:E; [|discriminate H0]; clear H0.
      pose proof (proj1 (simulate_ok F P (r0 O) truthy isnum float_of trunc parse_text _ _ space solver_ _ _ _ _ E) D K) as K1.
      unfold ModelState.simulate in E; cbn [Nat.eqb] in E.
      destruct (ModelState.solve F P (r0 O) isnum _ _ space solver_ 1 m) as [m2 [w|e]] eqn:E1; [|discriminate E].
      pose proof (proj1 (solve_ok F P (r0 O) truthy isnum float_of trunc parse_text _ _ space solver_ _ _ _ _ E1) D K) as K2.
      destruct (solve_current F P (r0 O) truthy isnum float_of trunc parse_text _ _ space solver_ _ _ _ _ C E1) as (_ & x & st & dy & sp' & Fr & [[_ So]|[[Bad|Bad] _]]); try discriminate Bad.
      destruct (ModelState.update F P (r0 O) isnum _ _ space m2) as [m3 [[]|e]] eqn:E2; [|discriminate E]; injection E as <- <- <-.
      destruct (update_spec F P (r0 O) isnum _ _ space _ _ _ E2) as (A & _ & _ & U); destruct (U eq_refl) as (_ & _ & Co & Sg).
      exists m3, w; split; [reflexivity|]; split; [exact K1|]; split; [exact A|]; split; [exact Co|]; split; [exact Sg|].
      pose proof (tracks_fresh F P (r0 O) truthy float_of trunc parse_text _ space D _ _ _ _ _ _ K2 K1 Fr) as Fr2.
      destruct Co as [Fr3 _]; destruct (fresh_fun F _ space _ _ _ _ _ _ _ _ _ _ _ _ _ Fr2 Fr3) as (X1 & X2 & X3 & X4).
      rewrite (tracks_inits F P (r0 O) truthy float_of trunc parse_text D _ K1), <- (tracks_inits F P (r0 O) truthy float_of trunc parse_text D _ K2); rewrite X2, X3, X4; exact So. }
    destruct Ex as (m1 & s & E & K1 & A & [Fr Co] & (sg & Sg) & So).
    assert (Rd : forall g per nz i, simulation 1 g per nz i m =
      (m1, do ss <- ss_values F O P nan minimize (map ev_init (d_endog F (definition m1))) (c_steady _ _ (derived m1)) (c_dynamic _ _ (derived m1));
           Sim.simulate F O chol (SModel ss (dr_order (c_index _ _ (derived m1))) (members is_state (dr (c_index _ _ (derived m1)))) (map sv_name (d_stoch F (definition m1))) sg)
             (as_sim F s) g per nz i)).
    { intros g per nz i; unfold whole_simulate; rewrite E; cbn zeta; unfold ModelState.read, no_sigma, ensure; rewrite A, Sg; cbn [orb cached]; rewrite Sg; reflexivity. }
    destruct (fresh_built F O P ltb nan minimize grad qr rank ordqz _ _ _ _ _ _ _ _ _ Fr) as (_ & _ & _ & V & _).
    assert (T : ns = map ev_name (d_endog F (definition m1)) /\ sv = map sv_name (d_stoch F (definition m1)) /\ sc = model_scope F (definition m1) /\ es = trees (d_exprs F (definition m1))).
    { unfold ns, sv, sc, es, d; rewrite (tracks_names F P (r0 O) truthy float_of trunc parse_text D _ K), (tracks_names F P (r0 O) truthy float_of trunc parse_text D _ K1).
      rewrite (tracks_stoch F P (r0 O) truthy float_of trunc parse_text D _ _ K K1).
      destruct K as (_ & _ & _ & (cp & P1 & P2) & (cl & L1 & L2) & E6), K1 as (_ & _ & _ & (cp' & P1' & P2') & (cl' & L1' & L2') & E6').
      split; [reflexivity|]; split; [reflexivity|]; split; [|congruence]; unfold model_scope; rewrite P1, P1', L1, L1'; cbn [solved]; congruence. }
    destruct T as (T1 & T2 & T3 & T4).
    rewrite Rd in H0; cbn [snd] in H0; rewrite V in H0; cbn [bind] in H0.
    assert (Ch : exists R, chol (List.length sv) sg = Ok R).
    { unfold Sim.simulate, gen_shocks in H0; cbn [m_shocks m_sigma] in H0; rewrite <- T2 in H0; destruct (chol (List.length sv) sg) as [R|]; [eauto|discriminate H0]. }
    destruct Ch as (R & Ch).
    exists m1, s, (c_space _ _ (derived m1)), sg, R; split; [unfold ModelState.step, ok_with; rewrite E; reflexivity|].
    split; [unfold ModelState.step, ok_with, ModelState.read, no_sigma, ensure; rewrite A, Sg; cbn [orb fst snd bind cached]; rewrite Sg; reflexivity|]; split; [exact Ch|].
    intros [Re Sq] Sv Wd; pose proof Sv as (Hd & Hex & Sm & Rt); unfold fresh_of in Fr; rewrite <- T1, <- T3, <- T4 in Fr.
    assert (St : is_steady F O P ns sv es sc (sp_ss (c_space _ _ (derived m1)))).
    { rewrite T2 in *; eapply (steady_found F O P ltb eqb nan minimize grad qr rank ordqz finv le FT OR Heq Hm); [exact Fr| |exact Re|exact Hex].
      rewrite T1; apply endog_length. }
    split; [exact St|]; intros per nz.
    destruct (first_solves F O P ltb eqb nan minimize grad jacobian qr rank ordqz inv qz solve finv le fns pows FT OR Hl HI Hqr Hqz Hinv Hs _ _ _ _ _ _ _ _ _ _ Fr So) as (gy & gu & Eq & Sol).
    rewrite <- T2 in Sol; destruct (Sol Re Sq Hd St Sm Rt) as (L & g & Oc & Ab & Pr & Rk & E1 & E2 & G).
    pose proof (solved_index F O P ltb eqb nan minimize grad jacobian qr rank ordqz inv qz solve finv le fns pows FT OR HI _ _ _ _ _ _ _ _ _ _ Fr So) as Ix.
    rewrite <- T2 in Ix; destruct (Ix Re Sq Hd (proj1 St) Sm) as (L' & k' & Ex & Oc' & Al).
    destruct (same_places F ns es L' L g k' Oc' Oc Ab Al) as [Po Ps].
    assert (Rn : rn g = List.length ns) by (destruct Ab as (-> & _); apply Oc).
    set (M := SModel (sp_ss (c_space _ _ (derived m1))) (dr_order (c_index _ _ (derived m1))) (members is_state (dr (c_index _ _ (derived m1)))) (map sv_name (d_stoch F (definition m1))) sg) in *.
    assert (Dm : SimProofs3.describes g M).
    { unfold SimProofs3.describes, M; cbn [m_ss m_shocks m_order m_state]; rewrite <- T2, Rn, Rk, Ex, Po, Ps; split; [apply St|]; auto. }
    assert (Pt : paths_solve F O le P ns sv sc es (sp_ss (c_space _ _ (derived m1))) R
      (fun a i => Sim.simulate F O chol M (Sim.First (gy_of g) (gu_of g)) (Some a) per nz (Some i))).
    { eapply (rule_paths F O finv le P FT); [exact Pr|exact Dm|reflexivity|symmetry; exact Rn|symmetry; exact Rk|rewrite Rn, Rk; exact Wd|unfold M; cbn [m_sigma]; rewrite Rk; exact Ch|exact G]. }
    intros T r u x N w e HT Hcn; destruct (Pt T r u x N w e HT Hcn) as (path & H1 & H2 & H3 & H4); exists path.
    split; [|split; [exact H2|split; [exact H3|exact H4]]].
    intros q h; rewrite Rd; cbn [snd]; rewrite V; cbn [bind]; fold M; rewrite Eq; cbn [as_sim]; rewrite E1, E2; apply H1.
  Qed.

  (** Full statement: when a model file is read, the model is made and a simulation of order 1
      returns a path, then every simulation of it satisfies the equations of the file to first
      order around a steady state, for the parameter values that the file assigns.  Proved for
      files that are [plain_file] (PipelineSpec.v), models that are [solvable], and not for one
      variable with several shocks (C62: it cannot be simulated). *)
  Theorem C93_file_partial :
    forall (t : text) (out : outline F) (m : mstate F (space_of F) (rules F)) given periods noise init p0,
    read_model t = Ok out -> new_model (outline_args F out) = Ok m -> snd (simulation 1 given periods noise init m) = Ok p0 ->
    let params := model_scope F (definition m) in
    exists f, parse_file F float_of trunc nzero t = Ok f /\ values_of F P f params /\
      simulations_for m (named F "var" f) (named F "varexo" f) params (equations F f) (plain_file F f).
  Proof.
    intros t out m gv per nz i p0 Ho Hnew H0 params; subst params.
    destruct (file_model F P two (r0 O) (r1 O) truthy float_of trunc nzero parse_text _ _ space Hn t out m Ho Hnew) as (f & Hf & Hv & E1 & E2 & E3 & E4).
    destruct (file_defined F P two (r1 O) float_of trunc nzero Hn t out Ho) as (f' & d & Hf' & _ & _ & D & Di & _).
    destruct (start F P (r0 O) (r1 O) truthy isnum float_of trunc parse_text _ _ space d _ m D Di Hnew) as (K & C & _ & _).
    pose proof (model_paths d m gv per nz i p0 K C H0) as S; cbn zeta in S; rewrite E1, E2, E3 in S.
    exists f; split; [exact Hf|]; split; [exact E4|].
    destruct S as (m1 & s & sp & sg & R & S1 & S2 & S3 & S4); exists m1, s, sp, sg, R; split; [exact S1|]; split; [exact S2|]; split; [exact S3|].
    intros Pf; apply S4; split; [|apply Pf]; apply (file_readable F float_of trunc nzero t f _ Hf Hv Pf); destruct E4 as (? & ? & _ & _ & _ & _ & E); exact E.
  Qed.

  (** The same after any history of additions, readings, solutions and simulations, for the
      equations and the parameter values then in force. *)
  Theorem C93_history_partial :
    forall (d : mdef F) (a : args F) (m0 : mstate F (space_of F) (rules F)) (os : list (op F)) (m : mstate F (space_of F) (rules F)) l given periods noise init p0,
    ModelStateSpec.describes F (r1 O) d a -> NoDup (keys (m_params F d)) -> NoDup (keys (m_locals F d)) ->
    new_model a = Ok m0 -> run os m0 = (m, l) -> additions_made F _ _ l -> repaired F _ _ l -> distinct F (effects F (r1 O) os d) ->
    snd (simulation 1 given periods noise init m) = Ok p0 ->
    let D := effects F (r1 O) os d in
    let ns := map fst (m_endog F D) in let sv := map fst (m_stoch F D) in
    exists es pv lv, mapM (parse_given F parse_text) (m_exprs F D) = Ok es /\
      satisfies F P float_of trunc pv (m_params F D) /\ satisfies F P float_of trunc lv (m_locals F D) /\
      let sc := merge F pv lv in
      simulations_for m ns sv sc es (readable ns sv es sc /\ List.length es = List.length ns).
  Proof.
    intros d a m0 os m l gv per nz i p0 De N1 N2 Hnew Hr Ha Hrp Di H0 D ns sv.
    destruct (start F P (r0 O) (r1 O) truthy isnum float_of trunc parse_text _ _ space d a m0 De (distinct_effects F (r1 O) os d Di) Hnew) as (K0 & C0 & _ & _).
    pose proof (run_known F P (r0 O) (r1 O) truthy isnum float_of trunc parse_text keeps _ _ space solver_ os d m0 m l K0 Hr Ha) as K.
    pose proof (run_current F P (r0 O) (r1 O) truthy isnum float_of trunc parse_text keeps _ _ space solver_ os m0 m l Hr Ha (or_introl C0) Hrp) as C.
    pose proof (model_paths _ m gv per nz i p0 K C H0) as S; cbn zeta in S.
    destruct (effects_params F O os d N1 N2) as [N1' N2'].
    pose proof (tracks_names F P (r0 O) truthy float_of trunc parse_text D _ K) as E1.
    destruct K as (_ & K2 & _ & (pv & P1 & P2) & (lv & L1 & L2) & K6).
    assert (E2 : map sv_name (d_stoch F (definition m)) = sv).
    { unfold sv; fold D in K2; clear - K2; apply mapM_ok in K2; induction K2 as [|p v l l' Hv _ IH]; cbn [map]; [reflexivity|rewrite IH; f_equal].
      destruct p as [x [|[] []]]; cbn in Hv; try discriminate; injection Hv as <-; reflexivity. }
    rewrite E1, E2 in S; unfold model_scope in S; rewrite P1, L1 in S; cbn [solved] in S.
    exists (trees (d_exprs F (definition m))), pv, lv; split; [exact K6|].
    split; [apply (solve_satisfies F P float_of trunc _ _ N1' P2)|]; split; [apply (solve_satisfies F P float_of trunc _ _ N2' L2)|exact S].
  Qed.
End C93.
Print Assumptions C93_file_partial.
Print Assumptions C93_history_partial.

(** ** A concrete file *)
Definition stext : string := "var x y z; varexo e f; parameters rho c; rho = 0.5; c = rho + 0.5;
 model; x = rho*x(-1) + e + x(-1)*(x(-1) + e); y(+1) + y(+1)^2 = 2.75*y - 1.5*y(-1) + f*(1 - x); z = x + y + (x*y + c); end;
 shocks; var e; stderr 1; var f = 1; end;".
(** Factorises the unit matrix. *)
Definition q_chol (n : nat) (S : nat -> nat -> Qc) : res (nat -> nat -> Qc) :=
  let unit i j := if i =? j then z1 else z0 in
  if forallb (fun i => forallb (fun j => same (S i j) (unit i j)) (seq 0 n)) (seq 0 n) then Ok unit else Err ValueErr.
Definition q_simulate := whole_simulate Qc QO q_ops (fun _ => true) z0 q_minimize q_chol q_space q_solver.
(** Both shocks in period 0, and the second in period 1. *)
Definition s_shocks : nd Qc := M2 4 2 (fun t l => if t =? 0 then z1 else if (t =? 1) && (l =? 1) then q 2 1 else z0).
Definition s_path : list (list Qc) := [[z0; z0; z1]; [z1; q (-1) 2; q 3 2]; [q 1 2; q (-11) 8; q 1 8]; [q 1 4; q (-33) 32; q 7 32]].
Definition rows_are (p p' : list (list Qc)) : bool :=
  (List.length p =? List.length p') && forallb (fun r => (List.length (fst r) =? List.length (snd r)) && forallb (fun c => same (fst c) (snd c)) (combine (fst r) (snd r))) (combine p p').
Definition sfile : res (modfile Qc) := parse_file Qc q_decimal q_trunc z0 (chars stext).
Lemma sfile_plain f : sfile = Ok f -> OutlineSpec.named Qc "var" f = lendog /\ OutlineSpec.named Qc "varexo" f = lstoch /\ equations Qc f = lmodel /\ plain_file Qc f.
Proof.
  assert (E : match sfile with Ok f => OutlineSpec.named Qc "var" f = lendog /\ OutlineSpec.named Qc "varexo" f = lstoch /\ equations Qc f = lmodel /\
     names_of Qc f = ["x"; "y"; "z"; "e"; "f"; "rho"; "c"] | Err _ => False end) by (vm_compute; repeat apply conj; reflexivity).
  assert (G : exists f, lfile = Ok f).
  { assert (X : match lfile with Ok _ => true | Err _ => false end = true) by (vm_compute; reflexivity).
    destruct lfile as [f0|]; [exists f0; reflexivity|discriminate X]. }
  intros H; rewrite H in E; destruct E as (E1 & E2 & E3 & E4), G as (f0 & G); destruct (lfile_plain f0 G) as (F1 & F2 & F3 & [P1 P2 P3 P4 P5]).
  assert (F4 : names_of Qc f0 = names_of Qc f).
  { rewrite E4; assert (X : match lfile with Ok f => names_of Qc f = ["x"; "y"; "z"; "e"; "f"; "rho"; "c"] | Err _ => False end) by (vm_compute; reflexivity); rewrite G in X; exact X. }
  split; [exact E1|]; split; [exact E2|]; split; [exact E3|]; rewrite F1, F3, F4 in *; constructor; rewrite ?E1, ?E3; assumption.
Qed.
Example C93_nonvacuous : exists f out m p0, sfile = Ok f /\ Factory.read_model Qc q_ops (q 2 1) q_decimal q_trunc z0 (chars stext) = Ok out /\
  q_new (outline_args Qc out) = Ok m /\ snd (q_simulate 1 (Some s_shocks) 0 (fun _ _ => z0) None m) = Ok p0 /\ rows_are p0 s_path = true /\
  plain_file Qc f /\ OutlineSpec.named Qc "var" f = lendog /\ OutlineSpec.named Qc "varexo" f = lstoch /\ equations Qc f = lmodel /\
  model_scope Qc (definition _ _ _ m) = lparams /\
  exists m1 s sp, q_step (Simulate 1) m = (m1, Ok (OSimulation s sp)) /\ solvable Qc QO q_ops qgrad qjacobian Qcle no_function squares lendog lstoch lparams lmodel sp /\
    exists R, paths_solve Qc QO Qcle q_ops lendog lstoch lparams lmodel (sp_ss sp) R (fun shocks init => snd (q_simulate 1 (Some shocks) 0 (fun _ _ => z0) (Some init) m)).
Proof.
  assert (E : match sfile, Factory.read_model Qc q_ops (q 2 1) q_decimal q_trunc z0 (chars stext) with
    | Ok f, Ok out => match q_new (outline_args Qc out) with Ok m =>
        match snd (q_simulate 1 (Some s_shocks) 0 (fun _ _ => z0) None m), snd (q_step (Simulate 1) m) with
        | Ok p, Ok (OSimulation s sp) => rows_are p s_path && lspace sp && lscope (model_scope Qc (definition _ _ _ m)) = true | _, _ => False end | _ => False end
    | _, _ => False end) by (vm_compute; reflexivity).
  destruct sfile as [f|] eqn:Ef; [|contradiction]; destruct (Factory.read_model _ _ _ _ _ _ _) as [out|] eqn:Eo; [|contradiction].
  destruct (q_new _) as [m|] eqn:Em; [|contradiction]; destruct (snd (q_simulate _ _ _ _ _ m)) as [p|] eqn:Ep; [|contradiction].
  destruct (q_step (Simulate 1) m) as [m' [[| | |s sp]|]] eqn:Es; cbn [snd] in E; try contradiction.
  apply andb_true_iff in E as [E Es']; apply lscope_is in Es'; apply andb_true_iff in E as [E1 E2]; apply lspace_solvable in E2.
  destruct (sfile_plain f Ef) as (F1 & F2 & F3 & F4).
  exists f, out, m, p; split; [reflexivity|]; split; [reflexivity|]; split; [exact Em|]; split; [exact Ep|]; split; [exact E1|]; split; [exact F4|].
  split; [exact F1|]; split; [exact F2|]; split; [exact F3|]; split; [exact Es'|]; exists m', s, sp; split; [exact Es|]; split; [exact E2|].
  destruct q_hypotheses as (H1 & H2 & H3 & H4 & H5 & H6 & H7 & H8 & H9 & H10 & _ & _ & _ & H14).
  destruct (C93_file_partial Qc QO q_ops qlt same z0 q_minimize qgrad qjacobian xyz_qr rank_all xyz_qz xyz_inv xyz2_real qsolve q_chol (q 2 1) q_true (fun _ => true) q_decimal q_trunc z0 q_text false
    Qcinv Qcle no_function squares H1 H2 H3 H4 H5 H6 H7 H8 H9 H10 H14 (chars stext) out m _ _ _ _ p Eo Em Ep) as (f' & Hf & Hv & S).
  assert (f' = f) by (unfold sfile in Ef; congruence); subst f'; rewrite Es', F1, F2, F3 in S.
  destruct S as (m1 & s1 & sp1 & sg & R & S1 & S2 & S3 & S4); unfold q_step, q_space, q_solver in Es; rewrite S1 in Es; injection Es as -> -> ->.
  exists R; apply S4; [exact F4|exact E2|left; cbn; lia].
Qed.

(** The history of C92_history_nonvacuous: a model is made with c = 2, solved, and c is set to
    1; it can be simulated then. *)
Example C93_history_nonvacuous :
  ModelStateSpec.describes Qc (r1 QO) h_def (h_args (q 2 1)) /\ distinct Qc (effects Qc (r1 QO) h_ops h_def) /\
  NoDup (keys (m_params Qc h_def)) /\ NoDup (keys (m_locals Qc h_def)) /\
  exists m0 m l p0, q_new (h_args (q 2 1)) = Ok m0 /\ q_run h_ops m0 = (m, l) /\ additions_made Qc _ _ l /\ repaired Qc _ _ l /\
    snd (q_simulate 1 (Some s_shocks) 0 (fun _ _ => z0) None m) = Ok p0 /\ rows_are p0 s_path = true /\
    exists m1 s sp, q_step (Simulate 1) m = (m1, Ok (OSimulation s sp)) /\
      solvable Qc QO q_ops qgrad qjacobian Qcle no_function squares lendog lstoch lparams lmodel sp.
Proof.
  destruct C92_history_nonvacuous as (D1 & _ & D2 & N1 & N2 & m0 & m & l & s0 & E0 & Er & Ha & Hr & _).
  split; [exact D1|]; split; [exact D2|]; split; [exact N1|]; split; [exact N2|].
  assert (E : match q_new (h_args (q 2 1)) with
    | Ok m0 => match snd (q_simulate 1 (Some s_shocks) 0 (fun _ _ => z0) None (fst (q_run h_ops m0))), snd (q_step (Simulate 1) (fst (q_run h_ops m0))) with
        | Ok p, Ok (OSimulation s sp) => rows_are p s_path && lspace sp = true | _, _ => False end
    | _ => False end) by (vm_compute; reflexivity).
  rewrite E0, Er in E; cbn [fst] in E; destruct (snd (q_simulate _ _ _ _ _ m)) as [p|] eqn:Ep; [|contradiction].
  destruct (q_step (Simulate 1) m) as [m' [[| | |s sp]|]] eqn:Es; cbn [snd] in E; try contradiction.
  apply andb_true_iff in E as [E1 E2]; apply lspace_solvable in E2.
  exists m0, m, l, p; split; [exact E0|]; split; [exact Er|]; split; [exact Ha|]; split; [exact Hr|]; split; [exact Ep|]; split; [exact E1|].
  exists m', s, sp; split; [exact Es|exact E2].
Qed.
